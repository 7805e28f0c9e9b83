(* Two runs of the grammar side by side.  [sk], [sk'] are skip functions and [R] a relation between texts such that skipping
   leads to the same character in both and related texts show the same characters until a blank or a comment.
   Then every rule of the grammar gives the same result on related texts. *)
From Verif Require Import Common Expr_Model Expr_Spec Expr_Lex SymDict_Model Gcn_Lex Gcn_Model Gcn_Basic.
Local Open Scope list_scope.
Local Open Scope parser_scope.

(* a character that is neither blank nor the start of a comment *)
Definition code (c : ascii) : bool := negb (is_ws c) && negb (Ascii.eqb c "#").
Definition nocode (s : chars) : Prop := match s with c :: _ => code c = false | [] => True end.
Lemma noncode_cases c : code c = false -> In c [" "; "010"; "009"; "013"; "#"]%char.
Proof. destruct c as [[] [] [] [] [] [] [] []]; cbn; intro H; try discriminate H; tauto. Qed.
Ltac nonc H := apply noncode_cases in H; cbn [In] in H; repeat (destruct H as [<-|H]; [try reflexivity; try discriminate|]); try contradiction.
Lemma noncode_digit c : code c = false -> is_digit c = false. Proof. intro H. nonc H. Qed.
Lemma noncode_id0 c : code c = false -> is_id0 c = false. Proof. intro H. nonc H. Qed.
Lemma noncode_idc c : code c = false -> is_idc c = false. Proof. intro H. nonc H. Qed.
Lemma noncode_lower c d : code c = true -> code d = false -> Ascii.eqb (lower c) (lower d) = false.
Proof. intros Hc H. nonc H; destruct c as [[] [] [] [] [] [] [] []]; try reflexivity; discriminate Hc. Qed.
Lemma noncode_eqb c d : code c = true -> code d = false -> Ascii.eqb c d = false.
Proof. intros Hc Hd. apply Ascii.eqb_neq. congruence. Qed.

Section Sim.
(* R0: the texts in front of a token, before skipping; R: after skipping and inside a token *)
Variables R0 R : chars -> chars -> Prop.
Definition sim {A} (p q : parser A) : Prop := forall s s', R0 s s' ->
  match p s, q s' with
  | POk a r, POk b r' => a = b /\ R0 r r'
  | PFail, PFail | PFatal, PFatal | POut, POut => True
  | _, _ => False
  end.
Lemma sim_ret {A} (a : A) : sim (ret a) (ret a). Proof. intros s s' H. now split. Qed.
Lemma sim_fail {A} : sim (@fail A) fail. Proof. intros s s' H. exact I. Qed.
Lemma sim_fatal {A} : sim (@fatal A) fatal. Proof. intros s s' H. exact I. Qed.
Lemma sim_seq {A B} (p q : parser A) (k l : A -> parser B) : sim p q -> (forall a, sim (k a) (l a)) -> sim (seq p k) (seq q l).
Proof.
  intros Hp Hk s s' H. unfold seq. specialize (Hp s s' H). destruct (p s), (q s'); try contradiction; try exact I.
  destruct Hp as [-> HR]. now apply Hk.
Qed.
Lemma sim_cut {A} (p q : parser A) : sim p q -> sim (cut p) (cut q).
Proof. intros Hp s s' H. unfold cut. specialize (Hp s s' H). destruct (p s), (q s'); try contradiction; exact Hp. Qed.
Lemma sim_alt {A} (p q p2 q2 : parser A) : sim p q -> sim p2 q2 -> sim (alt p p2) (alt q q2).
Proof. intros Hp Hq s s' H. unfold alt. specialize (Hp s s' H). destruct (p s), (q s'); try contradiction; try exact Hp. now apply Hq. Qed.
Lemma sim_opt {A} (p q : parser A) : sim p q -> sim (opt p) (opt q).
Proof. intros Hp s s' H. unfold opt. specialize (Hp s s' H). destruct (p s), (q s'); try contradiction; try exact I; [|now split]. destruct Hp as [-> HR]. now split. Qed.
Lemma sim_peek {A} (p q : parser A) : sim p q -> sim (peek p) (peek q).
Proof. intros Hp s s' H. unfold peek. specialize (Hp s s' H). destruct (p s), (q s'); try contradiction; try exact I. now split. Qed.
Lemma sim_nota {A} (p q : parser A) : sim p q -> sim (nota p) (nota q).
Proof. intros Hp s s' H. unfold nota. specialize (Hp s s' H). destruct (p s), (q s'); try contradiction; try exact I; now split. Qed.
Lemma sim_many {A} (p q : parser A) : lens true p -> lens true q -> sim p q -> sim (many p) (many q).
Proof.
  intros Lp Lq Hp. assert (H : forall n n' s s', length s < n -> length s' < n' -> R0 s s' ->
    match many_f n p s, many_f n' q s' with
    | POk a r, POk b r' => a = b /\ R0 r r' | PFail, PFail | PFatal, PFatal | POut, POut => True | _, _ => False end).
  { induction n as [|n IH]; intros [|n'] s s' Hn Hn' HR; try lia. cbn [many_f]. specialize (Hp s s' HR).
    destruct (p s) as [a r| | |] eqn:Ep, (q s') as [b r'| | |] eqn:Eq; try contradiction; try exact I; [|now split].
    destruct Hp as [-> HR']. apply Lp in Ep. apply Lq in Eq. cbn in Ep, Eq. specialize (IH n' r r' ltac:(lia) ltac:(lia) HR').
    destruct (many_f n p r), (many_f n' q r'); try contradiction; try exact I. destruct IH as [-> HR2]. now split. }
  intros s s' HR. apply H; [lia|lia|exact HR].
Qed.

(* ---- matching at the current character ---- *)
Hypothesis Rhead : forall s s', R s s' -> (exists c t t', s = c :: t /\ s' = c :: t' /\ code c = true /\ R t t') \/ (nocode s /\ nocode s').
Ltac head H := let c := fresh "c" in let t := fresh "t" in let t' := fresh "t'" in let Hc := fresh "Hc" in let Ht := fresh "Ht" in
  let N1 := fresh "N" in let N2 := fresh "N'" in
  destruct (Rhead _ _ H) as [(c & t & t' & -> & -> & Hc & Ht)|[N1 N2]].
Definition simo {A} (f : chars -> option (A * chars)) : Prop := forall s s', R s s' ->
  match f s, f s' with Some (a, r), Some (b, r') => a = b /\ R r r' | None, None => True | _, _ => False end.
Definition simp {A} (f : chars -> A * chars) : Prop := forall s s', R s s' -> exists a r r', f s = (a, r) /\ f s' = (a, r') /\ R r r'.
Lemma simp_span f : (forall c, code c = false -> f c = false) -> simp (span f).
Proof.
  intros Hf s. induction s as [|d s IH]; intros s' H; destruct (Rhead _ _ H) as [(c & t & t' & E1 & E2 & Hc & Ht)|[N N']].
  - discriminate.
  - exists [], [], s'. split; [reflexivity|]. split; [|exact H]. destruct s' as [|e s']; [reflexivity|]. cbn in *. now rewrite (Hf e N').
  - injection E1 as <- <-. subst s'. cbn [span]. destruct (f d).
    + destruct (IH _ Ht) as (a & r & r' & -> & -> & HR). exists (d :: a), r, r'. auto.
    + exists [], (d :: s), (d :: t'). auto.
  - exists [], (d :: s), s'. split; [cbn in *; now rewrite (Hf d N)|]. split; [|exact H]. destruct s' as [|e s']; [reflexivity|]. cbn in *. now rewrite (Hf e N').
Qed.
Lemma sim_eat w : forallb code w = true -> forall s s', R s s' ->
  match eat w s, eat w s' with Some r, Some r' => R r r' | None, None => True | _, _ => False end.
Proof.
  induction w as [|c w IH]; intros Hw s s' H; [exact H|]. cbn in Hw. apply andb_true_iff in Hw as [Hc Hw]. head H.
  - cbn. destruct (Ascii.eqb c c0); [now apply IH|exact I].
  - destruct s as [|d s], s' as [|e s']; cbn in *; rewrite ?(noncode_eqb c d), ?(noncode_eqb c e) by assumption; exact I.
Qed.
Lemma sim_eat_ci w : forallb code w = true -> forall s s', R s s' ->
  match eat_ci w s, eat_ci w s' with Some r, Some r' => R r r' | None, None => True | _, _ => False end.
Proof.
  induction w as [|c w IH]; intros Hw s s' H; [exact H|]. cbn in Hw. apply andb_true_iff in Hw as [Hc Hw]. head H.
  - cbn [eat_ci]. destruct (Ascii.eqb (lower c) (lower c0)); [now apply IH|exact I].
  - destruct s as [|d s], s' as [|e s']; cbn [eat_ci nocode] in *; rewrite ?(noncode_lower c d), ?(noncode_lower c e) by assumption; exact I.
Qed.
Lemma simo_ident : simo raw_ident.
Proof.
  intros s s' H. unfold raw_ident. head H.
  - destruct (is_id0 c); [|exact I]. destruct (simp_span is_idc noncode_idc _ _ Ht) as (a & r & r' & -> & -> & HR). now split.
  - destruct s as [|d s], s' as [|e s']; cbn in *; rewrite ?(noncode_id0 d), ?(noncode_id0 e) by assumption; exact I.
Qed.
Lemma simp_sign : simp p_sign.
Proof.
  intros s s' H. unfold p_sign. head H.
  - destruct (_ || _)%bool; [exists [c], t, t'; auto|exists [], (c :: t), (c :: t'); auto].
  - exists [], s, s'. split; [|split; [|exact H]].
    + destruct s as [|d s]; [reflexivity|]. cbn in N. nonc N.
    + destruct s' as [|d s']; [reflexivity|]. cbn in N'. nonc N'.
Qed.
Lemma simp_exponent : simp p_exponent.
Proof.
  intros s s' H. unfold p_exponent. head H.
  - destruct (_ || _)%bool; [|exists [], (c :: t), (c :: t'); auto].
    destruct (simp_sign _ _ Ht) as (a & r & r' & -> & -> & HR). destruct (simp_span is_digit noncode_digit _ _ HR) as (b & r2 & r2' & -> & -> & HR2).
    destruct b as [|x b]; [exists [], (c :: t), (c :: t'); auto|eexists _, r2, r2'; auto].
  - exists [], s, s'. split; [|split; [|exact H]].
    + destruct s as [|d s]; [reflexivity|]. cbn in N. nonc N.
    + destruct s' as [|d s']; [reflexivity|]. cbn in N'. nonc N'.
Qed.
Lemma simo_mantissa : simo p_mantissa.
Proof.
  intros s s' H. unfold p_mantissa. destruct (simp_span is_digit noncode_digit _ _ H) as (d1 & r1 & r1' & -> & -> & HR). destruct d1 as [|x d1]; head HR.
  - destruct (Ascii.eqb c "."); [|exact I]. destruct (simp_span is_digit noncode_digit _ _ Ht) as (d2 & r3 & r3' & -> & -> & HR3).
    destruct d2; [exact I|now split].
  - destruct r1 as [|e r1], r1' as [|e' r1']; try exact I.
    + cbn in N'. rewrite Ascii.eqb_sym, (noncode_eqb "." e' eq_refl N'). exact I.
    + cbn in N. rewrite Ascii.eqb_sym, (noncode_eqb "." e eq_refl N). exact I.
    + cbn in N, N'. rewrite !(Ascii.eqb_sym _ "."), (noncode_eqb "." e eq_refl N), (noncode_eqb "." e' eq_refl N'). exact I.
  - destruct (Ascii.eqb c "."); [|now split]. destruct (simp_span is_digit noncode_digit _ _ Ht) as (d2 & r3 & r3' & -> & -> & HR3). now split.
  - destruct r1 as [|e r1], r1' as [|e' r1']; try (now split).
    + cbn in N'. rewrite Ascii.eqb_sym, (noncode_eqb "." e' eq_refl N'). now split.
    + cbn in N. rewrite Ascii.eqb_sym, (noncode_eqb "." e eq_refl N). now split.
    + cbn in N, N'. rewrite !(Ascii.eqb_sym _ "."), (noncode_eqb "." e eq_refl N), (noncode_eqb "." e' eq_refl N'). now split.
Qed.
Lemma sim_word_or_dot s s' : R s s' -> word_or_dot s = word_or_dot s'.
Proof.
  intro H. head H; [reflexivity|]. transitivity false.
  - destruct s as [|d s]; [reflexivity|]. cbn in N. nonc N.
  - destruct s' as [|d s']; [reflexivity|]. cbn in N'. nonc N'.
Qed.
Lemma sim_kw_end s s' : R s s' -> kw_end s = kw_end s'.
Proof.
  intro H. head H; [reflexivity|]. transitivity true.
  - destruct s as [|d s]; [reflexivity|]. cbn in N. nonc N.
  - destruct s' as [|d s']; [reflexivity|]. cbn in N'. nonc N'.
Qed.
Lemma simo_number : simo raw_number.
Proof.
  intros s s' H. unfold raw_number. pose proof (simo_mantissa _ _ H) as Hm. destruct (p_mantissa s) as [[m r]|], (p_mantissa s') as [[m' r']|]; try contradiction; [|exact I].
  destruct Hm as [-> HR]. destruct (simp_exponent _ _ HR) as (ex & r2 & r2' & -> & -> & HR2). rewrite (sim_word_or_dot _ _ HR2).
  destruct (word_or_dot r2'); [exact I|now split].
Qed.
Lemma simo_dnumber : simo raw_dnumber.
Proof.
  intros s s' H. unfold raw_dnumber. destruct (simp_sign _ _ H) as (sg & r & r' & -> & -> & HR).
  pose proof (simo_mantissa _ _ HR) as Hm. destruct (p_mantissa r) as [[m r1]|], (p_mantissa r') as [[m' r1']|]; try contradiction; [|exact I].
  destruct Hm as [-> HR1]. destruct m' as [|c m']; [exact I|]. destruct (Ascii.eqb c "."); [now split|].
  destruct (simp_exponent _ _ HR1) as (ex & r2 & r2' & -> & -> & HR2). now split.
Qed.
Lemma simo_int : simo raw_int.
Proof.
  intros s s' H. unfold raw_int. pose proof H as H0. head H.
  - destruct (Ascii.eqb c "-").
    + destruct (simp_span is_digit noncode_digit _ _ Ht) as (d & r & r' & -> & -> & HR). destruct (undec d); [now split|exact I].
    + destruct (simp_span is_digit noncode_digit _ _ H0) as (d & r & r' & -> & -> & HR). destruct (undec d); [now split|exact I].
  - assert (G : forall s, nocode s -> raw_int s = None).
    { clear. intros [|d s] N; [reflexivity|]. cbn in N. unfold raw_int. rewrite Ascii.eqb_sym, (noncode_eqb "-" d eq_refl N).
      cbn [span]. rewrite (noncode_digit d N). now rewrite undec_nil. }
    fold (raw_int s). fold (raw_int s'). now rewrite (G s N), (G s' N').
Qed.
Lemma simo_first_of (f : chars -> chars -> option chars) names :
  (forall w s s', In w names -> R s s' -> match f w s, f w s' with Some r, Some r' => R r r' | None, None => True | _, _ => False end) ->
  simo (first_of f names).
Proof.
  induction names as [|n l IH]; intros Hf s s' H; [exact I|]. cbn [first_of].
  pose proof (Hf n s s' (or_introl eq_refl) H) as Hn. destruct (f n s), (f n s'); try contradiction; [now split|].
  apply IH; [|exact H]. intros w x y Hw. apply Hf. now right.
Qed.

(* ---- tokens ---- *)
Variables sk sk' : chars -> chars.
Hypothesis Hsk : forall s, length (sk s) <= length s.
Hypothesis Hsk' : forall s, length (sk' s) <= length s.
Hypothesis Rin : forall s s', R s s' -> R0 s s'.
Hypothesis Rskip : forall s s', R0 s s' -> R (sk s) (sk' s').
(* the two places where the grammar looks at the text itself: an ill-formed time index, and the words of an option name *)
Hypothesis Rbad : forall s s', R ("["%char :: s) ("["%char :: s') -> raw_bad_index (sk s) = raw_bad_index (sk' s').
Hypothesis Rend : forall s s', R0 s s' -> (sk s = [] <-> sk' s' = []) /\ R0 [] [].
Hypothesis Rwords : forall c s s', is_idc c = true -> R (c :: s) (c :: s') ->
  let '(sp, r) := span (Ascii.eqb " ") s in let '(sp', r') := span (Ascii.eqb " ") s' in
  (sp = sp' /\ sp <> [] /\ R r r') \/ ((sp = [] \/ raw_ident r = None) /\ (sp' = [] \/ raw_ident r' = None)).

Lemma sim_of_opt {A} (f g : chars -> option (A * chars)) :
  (forall s s', R0 s s' -> match f s, g s' with Some (a, r), Some (b, r') => a = b /\ R0 r r' | None, None => True | _, _ => False end) ->
  sim (of_opt f) (of_opt g).
Proof. intros H s s' HR. unfold of_opt. specialize (H s s' HR). destruct (f s) as [[a r]|], (g s') as [[b r']|]; auto. Qed.
Lemma sim_simo {A} (f : chars -> option (A * chars)) : simo f -> sim (of_opt (fun s => f (sk s))) (of_opt (fun s => f (sk' s))).
Proof.
  intro H. apply sim_of_opt. intros s s' HR. specialize (H _ _ (Rskip _ _ HR)). destruct (f (sk s)) as [[a r]|], (f (sk' s')) as [[b r']|]; try contradiction; [|exact I].
  destruct H as [-> H]. split; [reflexivity|now apply Rin].
Qed.
Lemma sim_lit w : forallb code (str w) = true -> sim (t_lit sk w) (t_lit sk' w).
Proof.
  intro Hw. apply sim_of_opt. intros s s' HR. pose proof (sim_eat _ Hw _ _ (Rskip _ _ HR)) as H.
  destruct (eat _ (sk s)), (eat _ (sk' s')); try contradiction; [split; [reflexivity|now apply Rin]|exact I].
Qed.
Lemma sim_ident : sim (t_ident sk) (t_ident sk'). Proof. apply sim_simo, simo_ident. Qed.
Lemma sim_number : sim (t_number sk) (t_number sk'). Proof. apply sim_simo, simo_number. Qed.
Lemma sim_dnumber : sim (t_dnumber sk) (t_dnumber sk'). Proof. apply sim_simo, simo_dnumber. Qed.
Lemma sim_int : sim (t_int sk) (t_int sk'). Proof. apply sim_simo, simo_int. Qed.
Lemma sim_kw w : forallb code (str w) = true -> sim (t_kw sk w) (t_kw sk' w).
Proof.
  intro Hw. apply sim_of_opt. intros s s' HR. pose proof (sim_eat _ Hw _ _ (Rskip _ _ HR)) as H.
  destruct (eat _ (sk s)), (eat _ (sk' s')); try contradiction; [|exact I]. rewrite (sim_kw_end _ _ H). destruct (kw_end _); [split; [reflexivity|now apply Rin]|exact I].
Qed.
Lemma sim_kwc w : forallb code (str w) = true -> sim (t_kwc sk w) (t_kwc sk' w).
Proof.
  intro Hw. apply sim_of_opt. intros s s' HR. pose proof (sim_eat_ci _ Hw _ _ (Rskip _ _ HR)) as H.
  destruct (eat_ci _ (sk s)), (eat_ci _ (sk' s')); try contradiction; [|exact I]. rewrite (sim_kw_end _ _ H). destruct (kw_end _); [split; [reflexivity|now apply Rin]|exact I].
Qed.
Lemma sim_oneof names : forallb (forallb code) names = true -> sim (t_oneof sk names) (t_oneof sk' names).
Proof.
  intro H. apply (sim_simo (first_of eat (longest names))), simo_first_of. intros w s s' Hw. apply sim_eat.
  apply longest_in in Hw. now apply (proj1 (forallb_forall _ _) H).
Qed.
Lemma sim_oneof_ci names : forallb (forallb code) names = true -> sim (t_oneof_ci sk names) (t_oneof_ci sk' names).
Proof.
  intro H. apply (sim_simo (first_of eat_ci (longest names))), simo_first_of. intros w s s' Hw. apply sim_eat_ci.
  apply longest_in in Hw. now apply (proj1 (forallb_forall _ _) H).
Qed.
Lemma sim_tag_name : sim (t_tag_name sk) (t_tag_name sk').
Proof.
  apply sim_of_opt. intros s s' HR. pose proof (sim_eat (str "@") eq_refl _ _ (Rskip _ _ HR)) as H.
  destruct (eat _ (sk s)), (eat _ (sk' s')); try contradiction; [|exact I].
  pose proof (simo_ident _ _ H) as K. destruct (raw_ident _) as [[? ?]|], (raw_ident _) as [[? ?]|]; try contradiction; [|exact I]. destruct K as [-> K]. split; [reflexivity|now apply Rin].
Qed.
Lemma sim_end : sim (t_end sk) (t_end sk').
Proof.
  intros s s' HR. unfold t_end. destruct (Rend _ _ HR) as [[H1 H2] H3]. destruct (sk s), (sk' s'); try exact I; [now split| |].
  - now specialize (H1 eq_refl).
  - now specialize (H2 eq_refl).
Qed.
Lemma ident_last s s' : R s s' ->
  (raw_ident s = None /\ raw_ident s' = None) \/
  (exists w r r' c, raw_ident s = Some (w, r) /\ raw_ident s' = Some (w, r') /\ is_idc c = true /\ R (c :: r) (c :: r')).
Proof.
  assert (G : forall t t' c, is_idc c = true -> R (c :: t) (c :: t') -> exists a r r' d, span is_idc t = (a, r) /\ span is_idc t' = (a, r') /\ is_idc d = true /\ R (d :: r) (d :: r')).
  { induction t as [|e t IH]; intros t' c Hc HR.
    - destruct (Rhead _ _ HR) as [(c0 & u & u' & E1 & E2 & Hc0 & Ht)|[N N']].
      + injection E1 as <- <-. injection E2 as <-. destruct (simp_span is_idc noncode_idc _ _ Ht) as (a & r & r' & E & E' & Hr). cbn in E. injection E as <- <-.
        exists [], [], t', c. destruct t' as [|x t']; [cbn; auto|]. cbn in *. destruct (is_idc x); [destruct (span is_idc t'); discriminate|auto].
      + cbn in N. rewrite (noncode_idc c N) in Hc. discriminate.
    - destruct (Rhead _ _ HR) as [(c0 & u & u' & E1 & E2 & Hc0 & Ht)|[N N']].
      + injection E1 as <- <-. injection E2 as <-. destruct (Rhead _ _ Ht) as [(c1 & v & v' & E3 & E4 & Hc1 & Hv)|[N N']].
        * injection E3 as <- <-. subst t'. cbn [span]. destruct (is_idc e) eqn:He.
          -- destruct (IH v' e He Ht) as (a & r & r' & d & -> & -> & Hd & Hr). exists (e :: a), r, r', d. auto.
          -- exists [], (e :: t), (e :: v'), c. auto.
        * exists [], (e :: t), t', c. cbn [span]. cbn in N. rewrite (noncode_idc e N). split; [reflexivity|].
          split; [destruct t' as [|x t']; [reflexivity|]; cbn in *; now rewrite (noncode_idc x N')|auto].
      + cbn in N. rewrite (noncode_idc c N) in Hc. discriminate. }
  intro H. destruct (Rhead _ _ H) as [(c & t & t' & -> & -> & Hc & Ht)|[N N']].
  - unfold raw_ident. destruct (is_id0 c) eqn:Hi; [|left; auto]. right.
    assert (Hidc : is_idc c = true) by (unfold is_idc; now rewrite Hi).
    destruct (G t t' c Hidc H) as (a & r & r' & d & -> & -> & Hd & Hr). exists (c :: a), r, r', d. auto.
  - left. destruct s as [|x s], s' as [|y s']; cbn in *; rewrite ?(noncode_id0 x), ?(noncode_id0 y) by assumption; auto.
Qed.
Lemma sim_words n : forall n' c s s', length s <= n -> length s' <= n' -> is_idc c = true -> R (c :: s) (c :: s') ->
  exists ws r r', raw_words n s = (ws, r) /\ raw_words n' s' = (ws, r') /\ R r r'.
Proof.
  assert (Rtl : forall c s s', is_idc c = true -> R (c :: s) (c :: s') -> R s s').
  { intros c s s' Hc HR. destruct (Rhead _ _ HR) as [(c0 & u & u' & E1 & E2 & Hc0 & Ht)|[N N']].
    - injection E1 as <- <-. injection E2 as <-. exact Ht.
    - cbn in N. rewrite (noncode_idc c N) in Hc. discriminate. }
  assert (Hstop : forall m s, (let '(sp, r) := span (Ascii.eqb " ") s in sp = [] \/ raw_ident r = None) -> raw_words m s = ([], s)).
  { intros [|m] s Hs; [reflexivity|]. cbn [raw_words]. destruct (span (Ascii.eqb " ") s) as [[|x sp] r]; [reflexivity|]. destruct Hs as [Hs|Hs]; [discriminate|]. now rewrite Hs. }
  induction n as [|n IH]; intros n' c s s' Hn Hn' Hc HR; pose proof (Rwords c s s' Hc HR) as Hw;
    destruct (span (Ascii.eqb " ") s) as [sp r] eqn:E, (span (Ascii.eqb " ") s') as [sp' r'] eqn:E'.
  - destruct s; [|cbn in Hn; lia]. cbn in E. injection E as <- <-. destruct Hw as [(-> & Hw & _)|[_ Hw]]; [congruence|].
    exists [], [], s'. split; [reflexivity|]. split; [apply Hstop; now rewrite E'|now apply (Rtl c)].
  - destruct Hw as [(<- & Hne & HRr)|[Hw Hw']].
    + destruct n' as [|n'].
      { destruct s' as [|x s']; [|cbn in Hn'; lia]. cbn in E'. injection E' as <- <-. congruence. }
      cbn [raw_words]. rewrite E, E'. destruct sp as [|x sp]; [congruence|].
      destruct (ident_last _ _ HRr) as [[I1 I2]|(w & t & t' & d & I1 & I2 & Hd & Ht)]; rewrite I1, I2.
      * exists [], s, s'. split; [reflexivity|]. split; [reflexivity|]. now apply (Rtl c).
      * pose proof (span_len _ _ _ _ E). pose proof (span_len _ _ _ _ E'). pose proof (raw_ident_len _ _ _ I1). pose proof (raw_ident_len _ _ _ I2).
        cbn [length] in *. destruct (IH n' d t t' ltac:(lia) ltac:(lia) Hd Ht) as (ws & u & u' & -> & -> & Hu).
        eexists _, u, u'. auto.
    + exists [], s, s'. split; [apply Hstop; now rewrite E|]. split; [apply Hstop; now rewrite E'|now apply (Rtl c)].
Qed.
Lemma sim_option_key : sim (t_option_key sk) (t_option_key sk').
Proof.
  apply sim_of_opt. intros s s' HR. apply Rskip in HR. destruct (ident_last _ _ HR) as [[-> ->]|(w & r & r' & c & -> & -> & Hc & Hr)]; [exact I|].
  destruct (sim_words (length r) (length r') c r r' (le_n _) (le_n _) Hc Hr) as (ws & u & u' & -> & -> & Hu). split; [reflexivity|now apply Rin].
Qed.
Lemma sim_delimited {A} (p q : parser A) : lens true p -> lens true q -> sim p q -> sim (delimited sk p) (delimited sk' q).
Proof.
  intros Lp Lq H. unfold delimited. apply sim_seq; [exact H|intro]. apply sim_seq; [|intro; apply sim_ret].
  apply sim_many; [apply lens_seq_l; [apply lens_lit; [assumption|discriminate]|intro; now apply lens_weak].. |].
  apply sim_seq; [now apply sim_lit|intro; exact H].
Qed.
(* IDENT "[" then an ill-formed index *)
Lemma sim_bad_index {A} : sim (t_lit sk "[" >> t_bad_index sk >> @fatal A) (t_lit sk' "[" >> t_bad_index sk' >> fatal).
Proof.
  intros s s' HR. unfold seq, t_lit, of_opt. pose proof (Rskip _ _ HR) as H. cbn [eat str].
  change (eat (str "[") (sk s)) with (match sk s with d :: t => if Ascii.eqb "[" d then Some t else None | [] => None end).
  change (eat (str "[") (sk' s')) with (match sk' s' with d :: t => if Ascii.eqb "[" d then Some t else None | [] => None end).
  destruct (Rhead _ _ H) as [(c & t & t' & E1 & E2 & Hc & Ht)|[N N']].
  - rewrite E1, E2 in *. destruct (Ascii.eqb "[" c) eqn:E; [|exact I]. apply Ascii.eqb_eq in E. subst c. unfold t_bad_index. rewrite (Rbad _ _ H).
    destruct (raw_bad_index (sk' t')); exact I.
  - destruct (sk s) as [|d u], (sk' s') as [|e v]; cbn [nocode] in *; rewrite ?(noncode_eqb "[" d eq_refl), ?(noncode_eqb "[" e eq_refl) by assumption; exact I.
Qed.

Context {F : Type} (fread : chars -> F).
Ltac simb :=
  lazymatch goal with
  | |- forall _, _ => intro; simb
  | |- sim (match ?x with _ => _ end) _ => destruct x; simb
  | |- sim (seq (t_lit _ "[") (fun _ => seq (t_bad_index _) _)) _ => apply sim_bad_index
  | |- sim (seq _ _) _ => apply sim_seq; [simb|intro; simb]
  | |- sim (ret _) _ => apply sim_ret
  | |- sim fail _ => apply sim_fail
  | |- sim fatal _ => apply sim_fatal
  | |- sim (cut _) _ => apply sim_cut; simb
  | |- sim (alt _ _) _ => apply sim_alt; simb
  | |- sim (opt _) _ => apply sim_opt; simb
  | |- sim (peek _) _ => apply sim_peek; simb
  | |- sim (nota _) _ => apply sim_nota; simb
  | |- sim (t_lit _ _) _ => apply sim_lit; reflexivity
  | |- sim (t_kw _ _) _ => apply sim_kw; reflexivity
  | |- sim (t_kwc _ _) _ => apply sim_kwc; first [reflexivity | assumption]
  | |- sim (t_ident _) _ => apply sim_ident
  | |- sim (t_number _) _ => apply sim_number
  | |- sim (t_dnumber _) _ => apply sim_dnumber
  | |- sim (t_int _) _ => apply sim_int
  | |- sim (t_tag_name _) _ => apply sim_tag_name
  | |- sim (t_option_key _) _ => apply sim_option_key
  | |- sim (t_end _) _ => apply sim_end
  | |- sim (t_oneof _ _) _ => apply sim_oneof; reflexivity
  | |- sim (t_oneof_ci _ _) _ => apply sim_oneof_ci; reflexivity
  | |- sim (many _) _ => apply sim_many; [assumption|assumption|simb]
  | |- sim (delimited _ _) _ => apply sim_delimited; [assumption|assumption|simb]
  | |- sim _ _ => eauto
  end.
Lemma sim_tix : sim (p_tix sk) (p_tix sk'). Proof. unfold p_tix, raw_tix. simb. Qed.
Lemma sim_g_op l : sim (g_op sk l) (g_op sk' l). Proof. unfold g_op. destruct l; simb. Qed.
Lemma sim_expr_all f :
  (forall l, sim (g_expr sk fread f l) (g_expr sk' fread f l)) /\ (forall l a, sim (g_loop sk fread f l a) (g_loop sk' fread f l a)) /\
  sim (g_args sk fread f) (g_args sk' fread f).
Proof.
  pose proof sim_tix. pose proof sim_g_op. induction f as [|f (IHe & IHl & IHa)]; [repeat split; intros; intros s s' HR; exact I|]. split; [|split].
  - intro l. rewrite !g_expr_S. destruct l; try (apply sim_seq; [apply IHe|intro; apply IHl]); [simb|]. unfold g_atom, g_variable, g_parameter. simb.
  - intros l a. rewrite !g_loop_S. apply sim_seq; [simb|]. intros [[o b]|]; [apply IHl|apply sim_ret].
  - rewrite !g_args_S. simb.
Qed.
Lemma sim_ex : sim (p_ex sk fread) (p_ex sk' fread).
Proof.
  intros s s' HR. rewrite <- (ex_fuel sk Hsk fread (enough_fuel s + enough_fuel s') s) by lia.
  rewrite <- (ex_fuel sk' Hsk' fread (enough_fuel s + enough_fuel s') s') by lia. now apply sim_expr_all.
Qed.
Lemma sim_level o w p q : str w <> [] -> forallb code (str w) = true -> lens true p -> lens true q -> sim p q -> sim (d_level sk o w p) (d_level sk' o w q).
Proof.
  intros Hw Hc Lp Lq H. unfold d_level. apply sim_seq; [exact H|intro]. apply sim_seq; [|intro; apply sim_ret].
  apply sim_many; [apply lens_seq_l; [apply lens_lit; assumption|intro; now apply lens_weak].. |].
  apply sim_seq; [now apply sim_lit|intro; exact H].
Qed.
Lemma sim_dnum_f n : sim (p_dnum_f sk n) (p_dnum_f sk' n).
Proof.
  induction n as [|n IH]; [intros s s' HR; exact I|]. rewrite !dnum_S.
  assert (L1 : lens true (d_atom sk (p_dnum_f sk n))) by (apply lens_d_atom; [assumption|now apply lens_dnum_f]).
  assert (L2 : lens true (d_atom sk' (p_dnum_f sk' n))) by (apply lens_d_atom; [assumption|now apply lens_dnum_f]).
  unfold d_atom in *.
  repeat (first [discriminate | reflexivity | assumption | apply lens_level | apply sim_level]).
  simb.
Qed.
Lemma sim_dnum : sim (p_dnum sk) (p_dnum sk').
Proof.
  intros s s' HR. rewrite <- (dnum_fuel sk Hsk (S (length s + length s')) s) by lia.
  rewrite <- (dnum_fuel sk' Hsk' (S (length s + length s')) s') by lia. now apply sim_dnum_f.
Qed.

(* ---- the grammar rules ---- *)
Ltac both r := first
  [ pose proof (proj1 (r sk Hsk)); pose proof (proj1 (r sk' Hsk'))
  | pose proof (proj1 (r sk Hsk F fread)); pose proof (proj1 (r sk' Hsk' F fread))
  | pose proof (proj1 (r sk Hsk fread)); pose proof (proj1 (r sk' Hsk' fread)) ].
Lemma sim_varref : sim (p_varref sk) (p_varref sk'). Proof. pose proof sim_tix. unfold p_varref. simb. Qed.
Lemma sim_varlist : sim (p_varlist sk) (p_varlist sk'). Proof. both r_varref. pose proof sim_varref. unfold p_varlist. simb. Qed.
Lemma sim_tag : sim (p_tag sk) (p_tag sk'). Proof. unfold p_tag. simb. Qed.
Lemma sim_equation : sim (p_equation sk fread) (p_equation sk' fread).
Proof.
  both r_tag. pose proof sim_tix. pose proof sim_tag. pose proof sim_ex.
  unfold p_equation, missing_lhs, missing_rhs, missing_equals, valid_equation, post_rhs_check, p_multiplier, p_calibrating. simb.
Qed.
Lemma sim_darg : sim (p_darg sk) (p_darg sk'). Proof. pose proof sim_dnum. unfold p_darg. simb. Qed.
Lemma sim_call : sim (p_dist_call sk) (p_dist_call sk'). Proof. both r_darg. pose proof sim_darg. unfold p_dist_call, p_dist_name. simb. Qed.
Lemma sim_dist_expr : sim (p_dist_expr sk) (p_dist_expr sk').
Proof.
  both r_darg. pose proof sim_darg. pose proof sim_call.
  unfold p_dist_expr, p_wrapped, unknown_wrapper, unknown_dist, p_dist_name, p_wrapper_name. simb.
Qed.
Lemma sim_distribution : sim (p_distribution sk) (p_distribution sk').
Proof. pose proof sim_dist_expr. pose proof sim_dnum. unfold p_distribution. simb. Qed.
Lemma sim_missing_tilde A : sim (@missing_tilde sk A) (@missing_tilde sk' A).
Proof. unfold missing_tilde, p_dist_name, p_wrapper_name. simb. Qed.
Lemma sim_cal_item : sim (p_cal_item sk fread) (p_cal_item sk' fread).
Proof. pose proof sim_distribution. pose proof sim_missing_tilde. pose proof sim_equation. unfold p_cal_item. simb. Qed.
Lemma sim_shock_item : sim (p_shock_item sk) (p_shock_item sk').
Proof. both r_varref. pose proof sim_varref. pose proof sim_dist_expr. unfold p_shock_item. simb. Qed.
Lemma sim_optvars : sim (p_optvars sk) (p_optvars sk').
Proof. pose proof sim_varlist. unfold p_optvars. simb. Qed.
Lemma sim_eq_component kw mk : forallb code (str kw) = true -> sim (eq_component sk fread kw mk) (eq_component sk' fread kw mk).
Proof. intro Hk. both r_equation. pose proof sim_equation. unfold eq_component. simb. Qed.
Lemma sim_valid_component : sim (valid_component sk fread) (valid_component sk' fread).
Proof.
  both r_shock_item. both r_cal_item. pose proof sim_optvars. pose proof sim_shock_item. pose proof sim_cal_item.
  unfold valid_component, p_controls, p_shocks, p_calibration. repeat apply sim_alt; try (apply sim_eq_component; reflexivity); simb.
Qed.
Lemma sim_component : sim (p_component sk fread) (p_component sk' fread).
Proof. pose proof sim_valid_component. unfold p_component. simb. Qed.
Lemma sim_block : sim (p_block sk fread) (p_block sk' fread).
Proof. both r_component. pose proof sim_component. unfold p_block. simb. Qed.
Lemma sim_special : sim (p_special sk) (p_special sk').
Proof.
  pose proof sim_varref. pose proof sim_optvars.
  destruct (r_special_parts sk Hsk fread) as (? & ? & ?), (r_special_parts sk' Hsk' fread) as (? & ? & ?).
  unfold p_special, p_options, p_tryreduce, p_assumptions.
  assert (sim (p_option_entry sk) (p_option_entry sk')) by (unfold p_option_entry, p_option_value; simb).
  assert (sim (p_assumption_item sk) (p_assumption_item sk')) by (unfold p_assumption_item; simb).
  assert (sim (p_subblock sk) (p_subblock sk')) by (unfold p_subblock; simb).
  simb.
Qed.
Lemma sim_top : sim (p_top sk fread) (p_top sk' fread).
Proof. pose proof sim_block. unfold p_top, component_keyword. simb. Qed.
Lemma sim_file : sim (p_file sk fread) (p_file sk' fread).
Proof. both r_top. both r_special. pose proof sim_top. pose proof sim_special. unfold p_file. simb. Qed.
End Sim.
