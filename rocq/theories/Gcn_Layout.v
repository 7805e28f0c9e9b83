(* Parsing sees neither comments nor the size and kind of gaps. *)
From Verif Require Import Common Expr_Model Expr_Spec Expr_Lex SymDict_Model Gcn_Lex Gcn_Model Gcn_Spec Gcn_Basic Gcn_Sim.
Local Open Scope list_scope.
Local Open Scope parser_scope.

Lemma visible_code c : visible c -> code c = true.
Proof. intros [H1 H2]. unfold code. rewrite H1. cbn. apply negb_true_iff, Ascii.eqb_neq, H2. Qed.
Lemma code_visible c : code c = true -> visible c.
Proof. unfold code. intro H. apply andb_true_iff in H as [H1 H2]. split; [now apply negb_true_iff|]. apply negb_true_iff, Ascii.eqb_neq in H2. exact H2. Qed.
Lemma code_parts c : code c = true -> is_ws c = false /\ Ascii.eqb c "#" = false.
Proof. unfold code. intro H. apply andb_true_iff in H as [H1 H2]. split; now apply negb_true_iff. Qed.

(* the visible characters *)
Fixpoint codes_in (comment : bool) (s : chars) : chars :=
  match s with
  | [] => []
  | c :: s' => if comment then codes_in (negb (Ascii.eqb c "010")) s'
               else if is_ws c then codes_in false s' else if Ascii.eqb c "#" then codes_in true s' else c :: codes_in false s'
  end.
Definition codes (s : chars) : chars := codes_in false s.
Lemma codes_code c s : code c = true -> codes (c :: s) = c :: codes s.
Proof. intro H. apply code_parts in H as [H1 H2]. unfold codes. cbn. now rewrite H1, H2. Qed.
Lemma codes_skip_in s : forall b, codes (skipc_in b s) = codes_in b s.
Proof.
  induction s as [|c s IH]; intro b; [reflexivity|]. cbn [skipc_in codes_in]. destruct b; [apply IH|].
  destruct (is_ws c) eqn:E; [apply IH|]. destruct (Ascii.eqb c "#") eqn:E2; [apply IH|]. unfold codes. cbn. now rewrite E, E2.
Qed.
Lemma codes_skipc s : codes (skipc s) = codes s. Proof. apply codes_skip_in. Qed.
Lemma comment_rest l s : ~ In newline_char l -> skipc_in true (l ++ newline_char :: s) = skipc_in false s.
Proof.
  induction l as [|c l IH]; intro H; [reflexivity|]. cbn [app skipc_in].
  replace (Ascii.eqb c "010") with false; [apply IH; intro; apply H; now right|]. symmetry. apply Ascii.eqb_neq. intros ->. apply H. now left.
Qed.
Lemma comment_end l : ~ In newline_char l -> skipc_in true l = [].
Proof.
  induction l as [|c l IH]; intro H; [reflexivity|]. cbn [skipc_in].
  replace (Ascii.eqb c "010") with false; [apply IH; intro; apply H; now right|]. symmetry. apply Ascii.eqb_neq. intros ->. apply H. now left.
Qed.
Lemma skipc_gap g s : gap g -> skipc (g ++ s) = skipc s.
Proof.
  unfold skipc. induction 1 as [|c g Hc Hg IH|l g Hl Hg IH]; [reflexivity| |].
  - cbn. now rewrite Hc.
  - cbn [app skipc_in]. cbn. rewrite <- app_assoc. cbn [app]. now rewrite comment_rest.
Qed.
Lemma skipc_last g : last_gap g -> skipc g = [].
Proof.
  intros [g0 H|g0 l H Hl].
  - rewrite <- (app_nil_r g0). now rewrite skipc_gap.
  - rewrite skipc_gap by exact H. unfold skipc. cbn. now apply comment_end.
Qed.
Lemma skipc_code c s : code c = true -> skipc (c :: s) = c :: s.
Proof. intro H. apply code_parts in H as [H1 H2]. unfold skipc. cbn. now rewrite H1, H2. Qed.
Lemma skipc_head s : match skipc s with c :: _ => code c = true | [] => True end.
Proof.
  unfold skipc. generalize false. induction s as [|c s IH]; intro b; cbn; [exact I|]. destruct b; [apply IH|].
  destruct (is_ws c) eqn:E; [apply IH|]. destruct (Ascii.eqb c "#") eqn:E2; [apply IH|]. unfold code. now rewrite E, E2.
Qed.
Lemma gap_nocode g s : gap g -> g <> [] -> nocode (g ++ s).
Proof. intros [|c g' Hc Hg|l g' Hl Hg] H; [congruence| |reflexivity]. cbn. unfold code. now rewrite Hc. Qed.
Lemma last_nocode g : last_gap g -> nocode g.
Proof.
  intros [g0 H|g0 l H Hl].
  - destruct g0 as [|c g0]; [exact I|]. rewrite <- (app_nil_r (c :: g0)). apply gap_nocode; [exact H|discriminate].
  - destruct g0 as [|c g0]; [reflexivity|]. apply gap_nocode; [exact H|discriminate].
Qed.

(* every '[' among the visible characters is followed by a ']' *)
Definition closed (u : chars) : Prop := forall x y, u = x ++ "["%char :: y -> In "]"%char y.
Lemma closed_tail c u : closed (c :: u) -> closed u.
Proof. intros H x y ->. apply (H (c :: x) y). reflexivity. Qed.
Lemma closed_app u v : closed u -> closed v -> closed (u ++ v).
Proof.
  intros Hu Hv x y E. assert (K : forall u x, (forall x y, u = x ++ "["%char :: y -> In "]"%char y) -> u ++ v = x ++ "["%char :: y -> In "]"%char y).
  { clear u x Hu E. induction u as [|c u IH]; intros x Hu E; [exact (Hv x y E)|]. destruct x as [|d x]; cbn in E.
    - injection E as -> <-. apply in_or_app. left. apply (Hu [] u). reflexivity.
    - injection E as -> E. apply (IH x); [|exact E]. intros x' y' ->. now apply (Hu (d :: x') y'). }
  exact (K u x Hu E).
Qed.
Lemma closed_nil : closed []. Proof. intros [|c x] y H; discriminate. Qed.
Lemma closed_none u : ~ In "["%char u -> closed u.
Proof. intros H x y ->. exfalso. apply H, in_or_app. right. now left. Qed.

Definition lay (s s' : chars) : Prop := (exists w, relayout w s s') /\ closed (codes s).
Lemma relayout_codes w s s' : relayout w s s' -> codes s = codes s'.
Proof.
  induction 1 as [w g g' Hg Hg'|w c s s' Hc _ IH|w g g' c s s' Hg Hg' _ _ Hc _ _ IH].
  - rewrite <- (codes_skipc g), <- (codes_skipc g'), skipc_last, skipc_last by assumption. reflexivity.
  - apply visible_code in Hc. now rewrite !codes_code, IH by exact Hc.
  - apply visible_code in Hc. rewrite <- (codes_skipc (g ++ _)), <- (codes_skipc (g' ++ _)), !skipc_gap by assumption. rewrite !skipc_code by assumption.
    now rewrite !codes_code, IH by exact Hc.
Qed.
Lemma lay_head s s' : lay s s' -> (exists c t t', s = c :: t /\ s' = c :: t' /\ code c = true /\ lay t t') \/ (nocode s /\ nocode s').
Proof.
  intros [[w H] Hc]. destruct H as [w g g' Hg Hg'|w c s s' Hv H|w g g' c s s' Hg Hg' Hn Hn' Hv Hs H].
  - right. split; now apply last_nocode.
  - left. pose proof (visible_code c Hv) as Hcode. exists c, s, s'. do 3 (split; [assumption || reflexivity|]). split; [now exists (is_idc c)|].
    rewrite codes_code in Hc by exact Hcode. now apply closed_tail in Hc.
  - right. split; now apply gap_nocode.
Qed.
Lemma lay_skip s s' : lay s s' -> lay (skipc s) (skipc s').
Proof.
  intros [[w H] Hc]. split; [|now rewrite codes_skipc]. destruct H as [w g g' Hg Hg'|w c s s' Hv H|w g g' c s s' Hg Hg' Hn Hn' Hv Hs H].
  - exists false. rewrite !skipc_last by assumption. apply relayout_end; constructor; constructor.
  - exists false. rewrite !skipc_code by now apply visible_code. now apply relayout_char.
  - exists false. rewrite !skipc_gap, !skipc_code by (assumption || now apply visible_code). now apply relayout_char.
Qed.
Lemma lay_nil : lay [] [].
Proof. split; [exists false; apply relayout_end; constructor; constructor|]. apply closed_nil. Qed.
Lemma lay_end s s' : lay s s' -> (skipc s = [] <-> skipc s' = []) /\ lay [] [].
Proof.
  intro H. split; [|apply lay_nil]. apply lay_skip in H. destruct (lay_head _ _ H) as [(c & t & t' & E & E' & _)|[N N']]; [rewrite E, E'; split; discriminate|].
  pose proof (skipc_head s) as K. pose proof (skipc_head s') as K'. destruct (skipc s), (skipc s'); cbn in *; split; congruence.
Qed.
Lemma codes_in_raw c s : forall b, In c (codes_in b s) -> In c s.
Proof.
  induction s as [|d s IH]; intros b; [tauto|]. cbn [codes_in]. destruct b; [intro H; right; now apply (IH _ H)|].
  destruct (is_ws d); [intro H; right; now apply (IH _ H)|]. destruct (Ascii.eqb d "#"); [intro H; right; now apply (IH _ H)|]. intros [->|H]; [now left|right; now apply (IH _ H)].
Qed.
Lemma bad_index_closed c t : c <> "]"%char -> In "]"%char t -> raw_bad_index (c :: t) = true.
Proof.
  intros Hc Ht. unfold raw_bad_index. cbn [span]. replace (negb (Ascii.eqb c "]")) with true by (symmetry; apply negb_true_iff, Ascii.eqb_neq, Hc).
  destruct (span (fun c0 => negb (Ascii.eqb c0 "]")) t) as [a r] eqn:E. destruct r as [|d r]; [|reflexivity]. exfalso.
  assert (G : forall t a, span (fun c0 => negb (Ascii.eqb c0 "]")) t = (a, []) -> ~ In "]"%char t).
  { clear. induction t as [|x t IH]; intros a H; [tauto|]. cbn [span] in H. destruct (Ascii.eqb x "]") eqn:Ex; cbn in H; [discriminate|].
    destruct (span _ t) as [a' r'] eqn:E. injection H as <- ->. intros [->|Hi]; [now rewrite Ascii.eqb_refl in Ex|now apply (IH _ eq_refl)]. }
  exact (G _ _ E Ht).
Qed.
Lemma lay_bad s s' : lay ("["%char :: s) ("["%char :: s') -> raw_bad_index (skipc s) = raw_bad_index (skipc s').
Proof.
  intro H. destruct (lay_head _ _ H) as [(c & t & t' & E & E' & Hc & Ht)|[N _]]; [|discriminate]. injection E as <- <-. injection E' as <-.
  destruct H as [_ Hcl]. rewrite codes_code in Hcl by reflexivity. specialize (Hcl [] _ eq_refl).
  pose proof (lay_skip _ _ Ht) as Hs. destruct (lay_head _ _ Hs) as [(c & u & u' & E & E' & Hc' & Hu)|[N N']].
  - rewrite E, E'. destruct (Ascii.eqb c "]") eqn:Ec.
    + apply Ascii.eqb_eq in Ec as ->. reflexivity.
    + apply Ascii.eqb_neq in Ec. rewrite <- codes_skipc, E, codes_code in Hcl by exact Hc'. destruct Hcl as [Hcl|Hcl]; [congruence|].
      destruct Hu as [[w Hu] _]. rewrite !bad_index_closed; [reflexivity|exact Ec| |exact Ec|].
      * rewrite (relayout_codes _ _ _ Hu) in Hcl. now apply codes_in_raw in Hcl.
      * now apply codes_in_raw in Hcl.
  - exfalso. pose proof (skipc_head s) as K. rewrite <- codes_skipc in Hcl. destruct (skipc s); [exact Hcl|]. cbn in *. congruence.
Qed.
Lemma spaces_gap g s : gap g -> g <> [] -> let '(sp, r) := span (Ascii.eqb " ") (g ++ s) in
  (only_spaces g /\ exists sp', span (Ascii.eqb " ") s = (sp', r) /\ sp = g ++ sp') \/ (~ only_spaces g /\ nocode r).
Proof.
  intros Hg _. induction Hg as [|c g Hc Hg IH|l g Hl Hg IH].
  - cbn [app]. destruct (span (Ascii.eqb " ") s) as [sp r] eqn:E. left. split; [intros ? []|]. exists sp. auto.
  - cbn [app span]. destruct (Ascii.eqb " " c) eqn:E.
    + apply Ascii.eqb_eq in E. subst c. destruct (span (Ascii.eqb " ") (g ++ s)) as [sp r]. destruct IH as [[IH1 (sp' & IH2 & ->)]|[IH1 IH2]].
      * left. split; [intros x [<-|Hx]; [reflexivity|now apply IH1]|]. exists sp'. auto.
      * right. split; [|exact IH2]. intro K. apply IH1. intros x Hx. apply K. now right.
    + right. split; [|cbn; unfold code; now rewrite Hc]. intro K. specialize (K c (or_introl eq_refl)). subst c. discriminate.
  - cbn. right. split; [|reflexivity]. intro K. specialize (K "#"%char (or_introl eq_refl)). discriminate.
Qed.
Lemma ident_nocode s : nocode s -> raw_ident s = None.
Proof. destruct s as [|c s]; cbn; [reflexivity|]. intro H. now rewrite (noncode_id0 c H). Qed.
Lemma ident_last_gap g : last_gap g -> let '(sp, r) := span (Ascii.eqb " ") g in raw_ident r = None.
Proof.
  intros [g0 H|g0 l H Hl].
  - destruct g0 as [|c g0]; [reflexivity|]. pose proof (spaces_gap (c :: g0) [] H ltac:(discriminate)) as K. rewrite app_nil_r in K.
    destruct (span (Ascii.eqb " ") (c :: g0)) as [sp r]. destruct K as [[_ (sp' & K & _)]|[_ K]]; [injection K as <- <-; reflexivity|now apply ident_nocode].
  - destruct g0 as [|c g0]; [reflexivity|]. pose proof (spaces_gap (c :: g0) ("#"%char :: l) H ltac:(discriminate)) as K.
    destruct (span (Ascii.eqb " ") ((c :: g0) ++ "#"%char :: l)) as [sp r]. destruct K as [[_ (sp' & K & _)]|[_ K]]; [injection K as <- <-; reflexivity|now apply ident_nocode].
Qed.
Lemma lay_words c s s' : is_idc c = true -> lay (c :: s) (c :: s') ->
  let '(sp, r) := span (Ascii.eqb " ") s in let '(sp', r') := span (Ascii.eqb " ") s' in
  (sp = sp' /\ sp <> [] /\ lay r r') \/ ((sp = [] \/ raw_ident r = None) /\ (sp' = [] \/ raw_ident r' = None)).
Proof.
  intros Hc H. destruct (lay_head _ _ H) as [(d & t & t' & E & E' & Hd & Ht)|[N _]]; [|cbn in N; rewrite (noncode_idc c N) in Hc; discriminate].
  injection E as <- <-. injection E' as <-.
  assert (Hr : relayout true s s').
  { destruct H as [[w H] _]. remember (c :: s) as z. remember (c :: s') as z'. destruct H as [w g g' Hg Hg'|w d x y Hv H|w g g' d x y Hg Hg' Hn Hn' Hv Hs H].
    - subst. apply last_nocode in Hg. cbn in Hg. congruence.
    - injection Heqz as -> ->. injection Heqz' as ->. now rewrite Hc in H.
    - pose proof (gap_nocode g (d :: x) Hg Hn) as N. rewrite Heqz in N. cbn in N. congruence. }
  destruct Ht as [_ Hcl]. clear H. assert (Hr2 : exists w, w = true /\ relayout w s s') by eauto. clear Hr. destruct Hr2 as (w & Heqw & Hr).
  destruct Hr as [w g g' Hg Hg'|w d x y Hv H|w g g' d x y Hg Hg' Hn Hn' Hv Hs H].
  - pose proof (ident_last_gap g Hg) as K. pose proof (ident_last_gap g' Hg') as K'.
    destruct (span (Ascii.eqb " ") g) as [sp r], (span (Ascii.eqb " ") g') as [sp' r']. right. auto.
  - assert (E : Ascii.eqb " " d = false) by (apply Ascii.eqb_neq; intros <-; destruct Hv; discriminate).
    cbn [span]. rewrite E. right. auto.
  - assert (Ed : Ascii.eqb " " d = false) by (apply Ascii.eqb_neq; intros <-; destruct Hv; discriminate).
    pose proof (spaces_gap g (d :: x) Hg Hn) as K. pose proof (spaces_gap g' (d :: y) Hg' Hn') as K'.
    destruct (span (Ascii.eqb " ") (g ++ d :: x)) as [sp r], (span (Ascii.eqb " ") (g' ++ d :: y)) as [sp' r'].
    destruct K as [[K1 (u & K2 & ->)]|[K1 K2]], K' as [[K1' (u' & K2' & ->)]|[K1' K2']];
      try (cbn [span] in K2; rewrite Ed in K2; injection K2 as <- <-); try (cbn [span] in K2'; rewrite Ed in K2'; injection K2' as <- <-); rewrite ?app_nil_r.
    + destruct (is_id0 d) eqn:Ei.
      * left. specialize (Hs Heqw eq_refl (or_introl K1)). subst g'. split; [reflexivity|]. split; [exact Hn|]. split; [exists false; now apply relayout_char|].
        rewrite <- codes_skipc, skipc_gap, codes_skipc in Hcl by exact Hg. exact Hcl.
      * right. cbn. rewrite Ei. auto.
    + destruct (is_id0 d) eqn:Ei.
      * exfalso. specialize (Hs Heqw eq_refl (or_introl K1)). subst g'. contradiction.
      * right. split; [right; cbn; now rewrite Ei|right; now apply ident_nocode].
    + destruct (is_id0 d) eqn:Ei.
      * exfalso. specialize (Hs Heqw eq_refl (or_intror K1')). subst g'. contradiction.
      * right. split; [right; now apply ident_nocode|right; cbn; now rewrite Ei].
    + right. split; right; now apply ident_nocode.
Qed.
