(* The comment-free parser accepts every text of the grammar *)
From Verif Require Import Common Expr_Model Expr_Spec Expr_Lex Expr_Proofs SymDict_Model Gcn_Lex Gcn_Model Gcn_Basic Gcn_Expr Gcn_Grammar Gcn_Sound.
Local Open Scope list_scope.
Local Open Scope parser_scope.

Lemma seq_f {A B} (p : parser A) (k : A -> parser B) s : p s = PFail -> seq p k s = PFail.
Proof. unfold seq. now intros ->. Qed.
Lemma alt_l {A} (p q : parser A) s a r : p s = POk a r -> alt p q s = POk a r.
Proof. unfold alt. now intros ->. Qed.
Lemma alt_r {A} (p q : parser A) s : p s = PFail -> alt p q s = q s.
Proof. unfold alt. now intros ->. Qed.
Lemma cut_c {A} (p : parser A) s a r : p s = POk a r -> cut p s = POk a r.
Proof. unfold cut. now intros ->. Qed.
Lemma opt_some {A} (p : parser A) s a r : p s = POk a r -> opt p s = POk (Some a) r.
Proof. unfold opt. now intros ->. Qed.
Lemma opt_none {A} (p : parser A) s : p s = PFail -> opt p s = POk None s.
Proof. unfold opt. now intros ->. Qed.
Lemma peek_f {A} (p : parser A) s : p s = PFail -> peek p s = PFail.
Proof. unfold peek. now intros ->. Qed.

(* the next character *)
Definition next (s : chars) (c : ascii) : Prop := exists r, skip s = c :: r.
Lemma next_ws w c r : ws w -> is_ws c = false -> next (w ++ c :: r) c.
Proof. intros Hw Hc. exists r. rewrite skip_ws by exact Hw. now apply skip_nonws. Qed.
Lemma lit_f (x : string) s c : next s c -> (match str x with d :: _ => d <> c | [] => False end) -> t_lit skip x s = PFail.
Proof.
  intros [r Hr] Hx. unfold t_lit, of_opt. rewrite Hr. destruct (str x) as [|d y]; [contradiction|]. cbn. destruct (Ascii.eqb_spec d c); [congruence|reflexivity].
Qed.
Lemma ident_f s c : next s c -> is_id0 c = false -> t_ident skip s = PFail.
Proof. intros [r Hr] Hc. unfold t_ident, of_opt. rewrite Hr. cbn. now rewrite Hc. Qed.
Lemma lower_idc c : is_idc (lower c) = is_idc c.
Proof. destruct c as [[] [] [] [] [] [] [] []]; reflexivity. Qed.
Lemma lower_ws c : is_ws (lower c) = is_ws c.
Proof. destruct c as [[] [] [] [] [] [] [] []]; reflexivity. Qed.
Lemma lower_not_ws c d : lower c = lower d -> is_ws c = is_ws d.
Proof. intro H. rewrite <- (lower_ws c), H. apply lower_ws. Qed.
Lemma kwc_f kw s c : next s c -> (match str kw with d :: _ => lower d <> lower c | [] => False end) -> t_kwc skip kw s = PFail.
Proof.
  intros [r Hr] Hx. unfold t_kwc, of_opt. rewrite Hr. destruct (str kw) as [|d y]; [contradiction|]. cbn. destruct (Ascii.eqb_spec (lower d) (lower c)); [congruence|reflexivity].
Qed.
Lemma tix_c w t ti r : ws w -> tix_text t ti -> p_tix skip (w ++ str "[" ++ ti ++ str "]" ++ r) = POk t r.
Proof. intros. rewrite tix_eq. now rewrite (p_time_index_complete w t ti r). Qed.
Lemma varref_c v s r : varref_text v s -> p_varref skip (s ++ r) = POk v r.
Proof.
  destruct v as [n t]. intros (w & w1 & ti & -> & Hw & Hn & Hw1 & Ht). cbn [fst snd] in *. unfold p_varref. repeat rewrite <- app_assoc.
  rewrite (seq_c _ _ _ n _ (ident_c w n _ Hw Hn (ws_lit_nidc w1 "[" _ Hw1 eq_refl))). now rewrite (seq_c _ _ _ t _ (tix_c w1 t ti r Hw1 Ht)).
Qed.
Lemma eat_ci_c x : forall y z, map lower y = map lower x -> eat_ci x (y ++ z) = Some z.
Proof. induction x as [|c x IH]; intros [|d y] z E; try discriminate; [reflexivity|]. injection E as E1 E2. cbn. rewrite E1, Ascii.eqb_refl. now apply IH. Qed.
Lemma kw_end_ws w c r : ws w -> is_idc c = false -> c <> "$"%char -> kw_end (w ++ c :: r) = true.
Proof.
  intros Hw Hc Hd. destruct w as [|x w]; cbn; [rewrite Hc; destruct (Ascii.eqb_spec c "$"); [congruence|reflexivity]|].
  cbn in Hw. apply andb_true_iff in Hw as [Hx _]. destruct (is_idc x) eqn:E; [apply idc_not_ws in E; congruence|]. destruct (Ascii.eqb_spec x "$") as [->|]; [discriminate Hx|reflexivity].
Qed.
Definition kwok (kw : string) : Prop := match str kw with c :: _ => is_ws c = false | [] => False end.
Lemma kwc_c kw w k r : ws w -> kwok kw -> keyword kw k -> kw_end r = true -> t_kwc skip kw (w ++ k ++ r) = POk tt r.
Proof.
  intros Hw Hs Hk Hr. unfold t_kwc, of_opt. rewrite skip_ws by exact Hw. assert (skip (k ++ r) = k ++ r) as ->.
  { unfold keyword, kwok in *. destruct (str kw) as [|d y]; [contradiction|]. destruct k as [|c k]; [discriminate|]. injection Hk as H1 _. cbn [app]. apply skip_nonws. rewrite (lower_not_ws c d H1). exact Hs. }
  now rewrite eat_ci_c, Hr.
Qed.
Lemma prefix_word x : forall n r r', forallb is_idc x = true -> forallb is_idc n = true -> head_not_idc r -> n ++ r = x ++ r' ->
  (x = n /\ r' = r) \/ exists c y z, is_idc c = true /\ r' = c :: y /\ n = x ++ c :: z.
Proof.
  induction x as [|d x IH]; intros n r r' Hx Hn Hr E.
  - destruct n as [|c n]; [left; cbn in E; auto|]. right. cbn in E, Hn. apply andb_true_iff in Hn as [Hc _]. exists c, (n ++ r), n. auto.
  - cbn in Hx. apply andb_true_iff in Hx as [Hd Hx]. destruct n as [|c n]; [cbn in E; specialize (Hr d _ E); congruence|]. cbn in E, Hn. apply andb_true_iff in Hn as [_ Hn]. injection E as -> E.
    destruct (IH n r r' Hx Hn Hr E) as [[-> ->]|(c & y & z & H1 & H2 & ->)]; [left; auto|right; exists c, y, z; auto].
Qed.
Lemma lower_word k n : map lower k = map lower n -> forallb is_idc n = true -> forallb is_idc k = true.
Proof.
  revert n. induction k as [|c k IH]; intros [|d n] E H; try discriminate; [reflexivity|]. injection E as E1 E2. cbn in *. apply andb_true_iff in H as [H1 H2].
  rewrite <- (lower_idc c), E1, lower_idc, H1. cbn. now apply (IH n).
Qed.
Definition word (kw : string) : Prop := forallb is_idc (str kw) = true.
Lemma kwc_other kw kw' w k r : ws w -> word kw -> word kw' -> kwok kw' -> keyword kw' k -> head_not_idc r -> map lower (str kw) <> map lower (str kw') ->
  t_kwc skip kw (w ++ k ++ r) = PFail.
Proof.
  intros Hw Hx Hx' Hs Hk Hr Hne. unfold t_kwc, of_opt. rewrite skip_ws by exact Hw. assert (skip (k ++ r) = k ++ r) as ->.
  { unfold keyword, kwok in *. destruct (str kw') as [|d y]; [contradiction|]. destruct k as [|c k]; [discriminate|]. injection Hk as H1 _. cbn [app]. apply skip_nonws. rewrite (lower_not_ws c d H1). exact Hs. }
  destruct (eat_ci (str kw) (k ++ r)) as [u|] eqn:E; [|reflexivity]. apply eat_ci_s in E as (k2 & E & Hk2).
  pose proof (lower_word _ _ Hk2 Hx) as H2. pose proof (lower_word _ _ Hk Hx') as H3. destruct (prefix_word k2 k r u H2 H3 Hr E) as [[-> _]|(c & y & z & Hc & -> & _)].
  - exfalso. apply Hne. rewrite <- Hk2. exact Hk.
  - cbn. now rewrite Hc.
Qed.
(* ---- longest match ---- *)
Inductive sorted_len : list chars -> Prop :=
| sl_nil : sorted_len []
| sl_cons n l : (forall m, In m l -> length m <= length n) -> sorted_len l -> sorted_len (n :: l).
Lemma longest_sorted l : sorted_len (longest l).
Proof.
  induction l as [|n l IH]; [constructor|]. cbn [longest]. revert IH. generalize (longest l). intro k. intro H.
  assert (G : forall x k, In x ((fix ins (l : list chars) := match l with [] => [n] | m :: l' => if Nat.leb (length m) (length n) then n :: l else m :: ins l' end) k) -> x = n \/ In x k).
  { clear. intros x k. induction k as [|m k IHk]; [cbn; intuition|]. destruct (Nat.leb (length m) (length n)); [cbn; intuition|]. cbn [In]. intros [->|Hx]; [auto|]. destruct (IHk Hx); auto. }
  induction H as [|m k Hm Hk IHk]; [constructor; [intros ? []|constructor]|]. destruct (Nat.leb (length m) (length n)) eqn:E.
  - apply Nat.leb_le in E. constructor; [|now constructor]. intros x [<-|Hx]; [exact E|]. specialize (Hm x Hx). lia.
  - apply Nat.leb_gt in E. constructor; [|exact IHk]. intros x Hx. apply G in Hx as [->|Hx]; [lia|auto].
Qed.
Lemma first_c (f : chars -> chars -> option chars) names s n r : sorted_len names -> In n names -> f n s = Some r ->
  (forall m r', In m names -> f m s = Some r' -> length m <= length n /\ (length m = length n -> m = n)) -> first_of f names s = Some (n, r).
Proof.
  intros Hs Hi Hf Hm. induction Hs as [|m l Hl Hs IH]; [contradiction|]. cbn. destruct (f m s) as [r'|] eqn:E.
  - destruct (Hm m r' (or_introl eq_refl) E) as [H1 H2]. assert (m = n) as ->; [|congruence]. destruct Hi as [->|Hi]; [reflexivity|]. apply H2. specialize (Hl n Hi). lia.
  - destruct Hi as [->|Hi]; [congruence|]. apply IH; [exact Hi|]. intros m' r' Hm'. apply Hm. now right.
Qed.
Lemma ident_idc n : ident n -> forallb is_idc n = true.
Proof. destruct n as [|c n]; cbn; [tauto|]. intros [H ->]. now rewrite (id0_idc c H). Qed.
Lemma oneof_c names w n r : (forall m, In m names -> ident m) -> In n names -> ws w -> head_not_idc r -> t_oneof skip names (w ++ n ++ r) = POk n r.
Proof.
  intros Ha Hi Hw Hr. unfold t_oneof, of_opt. rewrite skip_ws by exact Hw. rewrite ident_skip by auto. rewrite (first_c eat (longest names) (n ++ r) n r); [reflexivity|apply longest_sorted|now apply longest_In|apply eat_app|].
  intros m r' Hm E. apply (proj1 (longest_In _ _)) in Hm. apply eat_sound in E. destruct (prefix_word m n r r' (ident_idc m (Ha m Hm)) (ident_idc n (Ha n Hi)) Hr E) as [[-> _]|(c & y & z & _ & _ & ->)]; [split; auto|].
  rewrite app_length. cbn. lia.
Qed.
Lemma oneof_f names s c : (forall m, In m names -> ident m) -> next s c -> is_id0 c = false -> t_oneof skip names s = PFail.
Proof.
  intros Ha [r Hr] Hc. unfold t_oneof, of_opt. rewrite Hr. destruct (first_of eat (longest names) (c :: r)) as [[n u]|] eqn:E; [|reflexivity].
  apply first_s in E as [Hi He]. apply (proj1 (longest_In _ _)) in Hi. apply Ha in Hi. apply eat_sound in He. destruct n as [|d n]; [contradiction|]. injection He as -> _. destruct Hi. congruence.
Qed.
Lemma oneof_ci_c names w k n r : (forall m, In m names -> ident m /\ map lower m = m) -> In n names -> map lower k = n -> ws w -> head_not_idc r ->
  t_oneof_ci skip names (w ++ k ++ r) = POk n r.
Proof.
  intros Ha Hi Hk Hw Hr. destruct (Ha n Hi) as [Hid Hl]. assert (Hkn : map lower k = map lower n) by congruence. pose proof (lower_word _ _ Hkn (ident_idc n Hid)) as Hkw.
  unfold t_oneof_ci, of_opt. rewrite skip_ws by auto. assert (skip (k ++ r) = k ++ r) as ->.
  { destruct n as [|d n]; [contradiction|]. destruct k as [|c k]; [discriminate|]. cbn [app]. apply skip_nonws. cbn in Hkw. apply andb_true_iff in Hkw as [Hc _]. now apply idc_not_ws. }
  rewrite (first_c eat_ci (longest names) (k ++ r) n r); [reflexivity|apply longest_sorted|now apply longest_In|apply eat_ci_c; congruence|].
  intros m r' Hm E. apply (proj1 (longest_In _ _)) in Hm. destruct (Ha m Hm) as [Hmi Hml]. apply eat_ci_s in E as (k2 & E & Hk2). pose proof (lower_word _ _ Hk2 (ident_idc m Hmi)) as H2.
  assert (Lk : length k = length n) by (rewrite <- Hk; now rewrite map_length). assert (Lm : length m = length k2) by (rewrite <- (map_length lower k2), Hk2; now rewrite map_length).
  destruct (prefix_word k2 k r r' H2 Hkw Hr E) as [[-> _]|(c & y & z & _ & _ & ->)].
  - split; [lia|]. intros _. congruence.
  - rewrite app_length in Lk. cbn in Lk. lia.
Qed.
Lemma oneof_ci_f names s c : (forall m, In m names -> ident m) -> next s c -> is_idc c = false -> t_oneof_ci skip names s = PFail.
Proof.
  intros Ha [r Hr] Hc. unfold t_oneof_ci, of_opt. rewrite Hr. destruct (first_of eat_ci (longest names) (c :: r)) as [[n u]|] eqn:E; [|reflexivity].
  apply first_s in E as [Hi He]. apply (proj1 (longest_In _ _)) in Hi. apply Ha in Hi. apply eat_ci_s in He as (k & He & Hk). destruct n as [|d n]; [contradiction|]. destruct k as [|e k]; [discriminate|].
  injection Hk as Hk _. injection He as -> _. destruct Hi as [Hi _]. apply id0_idc in Hi. rewrite <- lower_idc, <- Hk, lower_idc in Hi. congruence.
Qed.
(* ---- repetition ---- *)
Lemma many_cf {A} (p : parser A) (P : A -> chars -> Prop) (fol : chars -> Prop) : lens true p ->
  (forall a s r, P a s -> fol r -> p (s ++ r) = POk a r) -> (forall a s r, P a s -> fol (s ++ r)) ->
  forall l t rest, sequence P l t -> (l <> [] -> fol rest) -> p rest = PFail -> many p (t ++ rest) = POk l rest.
Proof.
  intros Hl Hp Hf l t rest Hs Hfr Hrest. unfold many. assert (G : forall n, length (t ++ rest) < n -> many_f n p (t ++ rest) = POk l rest); [|apply G; lia].
  revert Hfr. induction Hs as [|a s l ss Ha Hs IH]; intros Hfr n Hn.
  - destruct n as [|n]; [lia|]. cbn. now rewrite Hrest.
  - destruct n as [|n]; [lia|]. cbn [many_f]. rewrite <- app_assoc. assert (fol (ss ++ rest)) as Hfo.
    { destruct Hs as [|b u l' us Hb]; [apply Hfr; discriminate|]. rewrite <- app_assoc. eapply Hf; exact Hb. }
    assert (Hlen : length (ss ++ rest) < length (s ++ ss ++ rest)) by (exact (Hl _ _ _ (Hp a s (ss ++ rest) Ha Hfo))).
    rewrite (Hp a s (ss ++ rest) Ha Hfo). rewrite IH; [reflexivity| |].
    + intro Hne. apply Hfr. discriminate.
    + rewrite <- app_assoc in Hn. lia.
Qed.
Lemma many_c {A} (p : parser A) (P : A -> chars -> Prop) : lens true p -> (forall a s r, P a s -> p (s ++ r) = POk a r) ->
  forall l t rest, sequence P l t -> p rest = PFail -> many p (t ++ rest) = POk l rest.
Proof. intros Hl Hp l t rest Hs. apply (many_cf p P (fun _ => True)); auto. Qed.
Lemma delimited_c {A} (p : parser A) (P : A -> chars -> Prop) (fol : chars -> Prop) : lens true p ->
  (forall a s r, P a s -> fol r -> p (s ++ r) = POk a r) -> (forall w r, ws w -> fol (w ++ str "," ++ r)) ->
  forall l t rest, commas P l t -> fol rest -> t_lit skip "," rest = PFail -> delimited skip p (t ++ rest) = POk l rest.
Proof.
  intros Hl Hp Hc l t rest Hs Hfr Hrest.
  assert (G : exists a l' t1 t2, l = a :: l' /\ t = t1 ++ t2 /\ P a t1 /\ sequence (fun a s => exists w u, s = w ++ str "," ++ u /\ ws w /\ P a u) l' t2).
  { clear Hfr Hrest. induction Hs as [a s Ha|a s w l ss Ha Hw Hs IH]; [exists a, [], s, []; rewrite app_nil_r; repeat split; auto; constructor|].
    destruct IH as (b & l' & t1 & t2 & -> & -> & Hb & H2). exists a, (b :: l'), s, ((w ++ str "," ++ t1) ++ t2). split; [reflexivity|]. split; [eqs|]. split; [exact Ha|].
    constructor; [exists w, t1; auto|exact H2]. }
  destruct G as (a & l' & t1 & t2 & -> & -> & Ha & H2). unfold delimited. rewrite <- app_assoc.
  assert (Hf2 : fol (t2 ++ rest)).
  { destruct H2 as [|b u k us (w & v & -> & Hw & _)]; [exact Hfr|]. repeat rewrite <- app_assoc. now apply Hc. }
  rewrite (seq_c _ _ _ a _ (Hp a t1 _ Ha Hf2)). erewrite seq_c; [reflexivity|].
  apply (many_cf (t_lit skip "," >> p) (fun a s => exists w u, s = w ++ str "," ++ u /\ ws w /\ P a u) fol); auto.
  - intros s b r H. apply seq_ok in H as (x & r1 & E & H). apply lit_s in E as (v & -> & _). specialize (Hl _ _ _ H). cbn in Hl. rewrite !app_length. cbn. lia.
  - intros b s r (w & u & -> & Hw & Hb) Hf. repeat rewrite <- app_assoc. rewrite (seq_c _ _ _ tt _ (lit_c "," w _ eq_refl Hw)). now apply Hp.
  - intros b s r (w & u & -> & Hw & Hb). repeat rewrite <- app_assoc. now apply Hc.
  - now apply seq_f.
Qed.
