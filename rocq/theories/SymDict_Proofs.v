From Verif Require Import Common TimeIndex_Model TimeIndex_Proofs SymDict_Model SymDict_Spec.
From Coq Require Import Permutation.
Local Open Scope list_scope.

Section P.
Context {A : Type} (A_dec : forall a b : A, {a = b} + {a <> b}) (noasm : A) {V : Type}.
Notation heap := (heap A V).
Notation obj := (obj A V).
Notation ca := (ca A V).
Notation cv := (cv A V).
Notation nxt := (nxt A V).
Notation items := (items A V).
Notation is_sympy := (is_sympy A V).
Notation ra := (ra A V).
Notation rv := (rv A V).
Implicit Types h : heap.

Lemma upd_same {X} (f : nat -> X) i x : upd f i x i = x.
Proof. unfold upd. now rewrite Nat.eqb_refl. Qed.
Lemma upd_other {X} (f : nat -> X) i x j : j <> i -> upd f i x j = f j.
Proof. unfold upd. intro H. apply Nat.eqb_neq in H. now rewrite H. Qed.

(* What may change: objects in TO, cells in TA / TV, and everything not yet allocated. *)
Definition frame (TO TA TV : nat -> Prop) h h' : Prop :=
  nxt h <= nxt h' /\
  (forall j, j < nxt h -> ~ TO j -> obj h' j = obj h j) /\
  (forall j, j < nxt h -> ~ TA j -> ca h' j = ca h j) /\
  (forall j, j < nxt h -> ~ TV j -> cv h' j = cv h j).
Definition none (_ : nat) := False.

Lemma frame_refl TO TA TV h : frame TO TA TV h h.
Proof. repeat split; auto. Qed.

Lemma frame_trans TO TA TV TO2 TA2 TV2 h h1 h2 :
  frame TO TA TV h h1 -> frame TO2 TA2 TV2 h1 h2 ->
  (forall j, TO2 j -> TO j \/ nxt h <= j) -> (forall j, TA2 j -> TA j \/ nxt h <= j) ->
  (forall j, TV2 j -> TV j \/ nxt h <= j) -> frame TO TA TV h h2.
Proof.
  intros (L & O & C & W) (L2 & O2 & C2 & W2) HO HA HV.
  split; [lia|]. split; [|split]; intros j Hj Hn.
  - rewrite O2; [apply O; auto|lia|]. intro H. destruct (HO j H); [auto|lia].
  - rewrite C2; [apply C; auto|lia|]. intro H. destruct (HA j H); [auto|lia].
  - rewrite W2; [apply W; auto|lia|]. intro H. destruct (HV j H); [auto|lia].
Qed.

Lemma frame_weaken (TO TA TV TO2 TA2 TV2 : nat -> Prop) h h1 :
  frame TO TA TV h h1 ->
  (forall j, TO j -> TO2 j \/ nxt h <= j) -> (forall j, TA j -> TA2 j \/ nxt h <= j) -> (forall j, TV j -> TV2 j \/ nxt h <= j) ->
  frame TO2 TA2 TV2 h h1.
Proof. intros F. apply (frame_trans TO2 TA2 TV2 TO TA TV h h h1); auto using frame_refl. Qed.

Lemma new_frame d h : frame none none none h (fst (new A V d h)).
Proof.
  unfold new. destruct (existsb _ _); [apply frame_refl|]. cbn.
  split; [cbn; lia|]. cbn. repeat split; intros j Hj _; apply upd_other; lia.
Qed.

(* A fresh object owns its cells. *)
Definition fresh_obj h h' r := r = nxt h /\ nxt h' = S (nxt h) /\ ra (obj h' r) = r /\ rv (obj h' r) = r.
Lemma new_ok d h h' r : new A V d h = (h', Ok r) -> fresh_obj h h' r /\ items (obj h' r) = d.
Proof.
  unfold new. destruct (existsb _ _); intro E; [discriminate|]. injection E as <- <-. cbn. unfold fresh_obj. cbn.
  rewrite upd_same. cbn. repeat split.
Qed.
Lemma new_res d h h' x : new A V d h = (h', x) -> frame none none none h h'.
Proof. intro E. pose proof (new_frame d h) as F. rewrite E in F. exact F. Qed.

Lemma copy_spec r h h' x : copy A V r h = (h', x) ->
  frame none none none h h' /\
  (forall c, x = Ok c -> c = nxt h /\ nxt h' = S (nxt h) /\
     obj h' c = obj h r).
Proof.
  unfold copy. destruct (new A V (items (obj h r)) h) as [h1 [c|e]] eqn:E; cbn.
  - apply new_ok in E as Hf. destruct Hf as ((-> & Hn & Ha & Hv) & Hi). apply new_res in E.
    intro H. injection H as <- <-. split.
    + apply (frame_trans none none none (fun j => j = nxt h) none none h h1); auto.
      * split; [cbn; lia|]. cbn. split; [|auto]. intros j Hj Hne. apply upd_other; auto.
      * intros j ->. right. lia.
    + intros c H. injection H as <-. cbn. rewrite upd_same, Hi. repeat split; auto. destruct (obj h r); reflexivity.
  - intro H. injection H as <- <-. split; [apply (new_res _ _ _ _ E)|discriminate].
Qed.

Lemma meta_update_frame r m iv h : frame none (eq (ra (obj h r))) (eq (rv (obj h r))) h (meta_update A V r m iv h).
Proof.
  unfold meta_update. cbn. split; [cbn; lia|]. cbn. repeat split; auto; intros j Hj Hn; apply upd_other; auto.
Qed.
Lemma meta_update_obj r m iv h j : obj (meta_update A V r m iv h) j = obj h j.
Proof. reflexivity. Qed.

Lemma set_obj_frame h r o : frame (eq r) none none h (set_obj A V h r o).
Proof. split; [cbn; lia|]. cbn. repeat split; auto. intros j Hj Hn. apply upd_other; auto. Qed.

Lemma update_frame r s h : frame (eq r) (eq (ra (obj h r))) (eq (rv (obj h r))) h (update A A_dec V r s h).
Proof.
  unfold update.
  set (h1 := set_obj A V h r _). set (h2 := meta_update A V r _ _ h1).
  assert (R1 : ra (obj h1 r) = ra (obj h r) /\ rv (obj h1 r) = rv (obj h r)) by (subst h1; cbn; rewrite upd_same; auto).
  assert (F2 : frame (eq r) (eq (ra (obj h r))) (eq (rv (obj h r))) h h2).
  { apply (frame_trans _ _ _ none (eq (ra (obj h1 r))) (eq (rv (obj h1 r))) h h1).
    - apply (frame_weaken (eq r) none none); [apply set_obj_frame|..]; unfold none; intros; tauto.
    - apply meta_update_frame.
    - unfold none; tauto.
    - destruct R1 as [-> _]; auto.
    - destruct R1 as [_ ->]; auto. }
  destruct (_ || _)%bool; [|exact F2].
  apply (frame_trans _ _ _ (eq r) none none h h2 _ F2 (set_obj_frame _ _ _)); unfold none; intros; tauto.
Qed.
Lemma update_refs r s h j : ra (obj (update A A_dec V r s h) j) = ra (obj h j) /\ rv (obj (update A A_dec V r s h) j) = rv (obj h j).
Proof.
  unfold update. set (h1 := set_obj A V h r _). 
  assert (R1 : forall j, ra (obj h1 j) = ra (obj h j) /\ rv (obj h1 j) = rv (obj h j)).
  { intro k. subst h1. cbn. unfold upd. destruct (Nat.eqb_spec k r); subst; auto. }
  destruct (_ || _)%bool; [|exact (R1 j)].
  cbn. unfold upd. destruct (Nat.eqb_spec j r); subst; cbn; [|auto]. unfold upd. rewrite Nat.eqb_refl. auto.
Qed.

Lemma clean_update_frame r s h :
  frame (eq r) (eq (ra (obj h r))) (eq (rv (obj h r))) h (clean_update A A_dec V r s h).
Proof.
  unfold clean_update. set (h1 := set_obj A V h r _). set (h2 := set_ca A V h1 _ _). set (h3 := set_cv A V h2 _ _).
  assert (R1 : ra (obj h1 r) = ra (obj h r) /\ rv (obj h1 r) = rv (obj h r)) by (subst h1; cbn; rewrite upd_same; auto).
  assert (F3 : frame (eq r) (eq (ra (obj h r))) (eq (rv (obj h r))) h h3).
  { subst h3 h2. destruct R1 as [Ra Rv]. change (obj (set_ca A V h1 (ra (obj h1 r)) []) r) with (obj h1 r).
    rewrite Ra, Rv. subst h1. split; [cbn; lia|]. cbn. repeat split; intros j Hj Hn; apply upd_other; auto. }
  apply (frame_trans _ _ _ _ _ _ h h3 _ F3 (update_frame r s h3)); auto.
  - change (obj h3 r) with (obj h1 r). destruct R1 as [-> _]; auto.
  - change (obj h3 r) with (obj h1 r). destruct R1 as [_ ->]; auto.
Qed.
Lemma clean_update_refs r s h j : ra (obj (clean_update A A_dec V r s h) j) = ra (obj h j) /\ rv (obj (clean_update A A_dec V r s h) j) = rv (obj h j).
Proof.
  unfold clean_update. set (h1 := set_obj A V h r _). set (h2 := set_ca A V h1 _ _). set (h3 := set_cv A V h2 _ _).
  destruct (update_refs r s h3 j) as [-> ->]. change (obj h3) with (obj h1). subst h1. cbn. unfold upd.
  destruct (Nat.eqb_spec j r); subst; auto.
Qed.

(* [good_step]: what a non-mutating operation that returns a freshly built dictionary does. *)
Definition builds h (x : heap * result nat) : Prop :=
  frame none none none h (fst x) /\
  (forall r, snd x = Ok r -> nxt h <= r < nxt (fst x) /\ nxt h <= ra (obj (fst x) r) < nxt (fst x) /\ nxt h <= rv (obj (fst x) r) < nxt (fst x)).

Lemma new_builds d h : builds h (new A V d h).
Proof.
  split; [apply new_frame|]. destruct (new A V d h) as [h' x] eqn:E. cbn. intros r ->.
  apply new_ok in E as ((-> & Hn & Ha & Hv) & _). rewrite Ha, Hv. lia.
Qed.

Lemma builds_step h h1 x : frame none none none h h1 -> builds h1 x -> builds h x.
Proof.
  intros F (F2 & R). split.
  - apply (frame_trans none none none none none none h h1); auto; unfold none; tauto.
  - intros r E. destruct F as (L & _). destruct (R r E) as (? & ? & ?). lia.
Qed.

Lemma replace_meta_frame d m iv h : frame none (eq (ra (obj h d))) (eq (rv (obj h d))) h (replace_meta A V d m iv h).
Proof. unfold replace_meta. split; [cbn; lia|]. cbn. repeat split; auto; intros j Hj Hn; apply upd_other; auto. Qed.

Lemma builds_replace_meta h h1 d m iv : builds h (h1, Ok d) -> builds h (replace_meta A V d m iv h1, Ok d).
Proof.
  intros (F & R). destruct (R d eq_refl) as (L1 & L2 & L3). cbn in *. split.
  - cbn [fst]. apply (frame_trans none none none _ _ _ h h1 _ F (replace_meta_frame d m iv h1)).
    + unfold none; tauto.
    + intros j <-. lia.
    + intros j <-. lia.
  - intros r E. injection E as <-. cbn. lia.
Qed.

Lemma to_sympy_builds r h : builds h (to_sympy A A_dec noasm V false r h).
Proof.
  unfold to_sympy, finish, andthen. pose proof (new_builds (string_keys_to_sympy A A_dec noasm V (items (obj h r)) (asm_of A V h r) (isv_of A V h r)) h) as B.
  destruct (new _ _ _ _) as [h1 [d|e]]; exact B.
Qed.

Definition to_string_core r h :=
    (andthen A V (copy A V r h) (fun c h1 =>
     andthen A V (new A V (sympy_keys_to_strings A A_dec V (items (obj h1 c))) h1) (fun d h2 =>
       (replace_meta A V d (asm_of A V h2 c) (isv_of A V h2 c) h2, Ok d)))).
Lemma to_string_unfold b r h : to_string A A_dec V b r h = finish A A_dec V b r (to_string_core r h).
Proof. reflexivity. Qed.
Lemma finish_false r x : finish A A_dec V false r x = x.
Proof. destruct x as [h [d|e]]; reflexivity. Qed.
Lemma builds_err h h1 e : frame none none none h h1 -> builds h (h1, Err e).
Proof. intro F. split; [exact F|discriminate]. Qed.

Lemma to_string_core_builds r h : builds h (to_string_core r h).
Proof.
  unfold to_string_core. destruct (copy A V r h) as [h1 [c|e]] eqn:E; apply copy_spec in E as (F & C); cbn.
  - apply builds_step with h1; [exact F|].
    pose proof (new_builds (sympy_keys_to_strings A A_dec V (items (obj h1 c))) h1) as B.
    destruct (new _ _ _ _) as [h2 [d|e]]; cbn; [|exact B]. apply builds_replace_meta, B.
  - apply builds_err, F.
Qed.

Definition step_core f r h :=
    (andthen A V (copy A V r h) (fun c h1 =>
     andthen A V (if is_sympy (obj h r) then (h1, Ok c) else to_sympy A A_dec noasm V true c h1) (fun c h2 =>
     match step_keys A A_dec V f (items (obj h2 c)) [] with
     | Err e => (h2, Err e)
     | Ok d => andthen A V (new A V d h2) (fun n h3 => if is_sympy (obj h r) then (h3, Ok n) else to_string A A_dec V true n h3)
     end))).
Lemma step_unfold f b r h : step_dict A A_dec noasm V f b r h = finish A A_dec V b r (step_core f r h).
Proof. reflexivity. Qed.
Lemma step_core_builds f r h : is_sympy (obj h r) = true -> builds h (step_core f r h).
Proof.
  intro Hs. unfold step_core. rewrite Hs. destruct (copy A V r h) as [h1 [c|e]] eqn:E; apply copy_spec in E as (F & C); cbn.
  - apply builds_step with h1; [exact F|]. destruct (step_keys _ _ _ _ _ _) as [d|e]; [|apply builds_err, frame_refl].
    pose proof (new_builds d h1) as B. destruct (new A V d h1) as [h2 [n|e]]; cbn; exact B.
  - apply builds_err, F.
Qed.

Definition sort_core r h :=
    (andthen A V (copy A V r h) (fun c h1 =>
     andthen A V (to_string A A_dec V false c h1) (fun s h2 =>
     andthen A V (new A V (sort_dictionary A V (items (obj h2 s))) h2) (fun d h3 =>
       let h4 := replace_meta A V d (asm_of A V h3 r) (isv_of A V h3 r) h3 in
       if is_sympy (obj h r) then to_sympy A A_dec noasm V false d h4 else (h4, Ok d))))).
Lemma sort_unfold b r h : sort_keys A A_dec noasm V b r h = finish A A_dec V b r (sort_core r h).
Proof. reflexivity. Qed.
Lemma sort_core_builds r h : builds h (sort_core r h).
Proof.
  unfold sort_core. destruct (copy A V r h) as [h1 [c|e]] eqn:E; apply copy_spec in E as (F & C); cbn; [|apply builds_err, F].
  apply builds_step with h1; [exact F|]. rewrite to_string_unfold, finish_false.
  pose proof (to_string_core_builds c h1) as B1. destruct (to_string_core c h1) as [h2 [s|e]]; cbn; [|exact B1].
  destruct B1 as (F1 & _). apply builds_step with h2; [exact F1|].
  pose proof (new_builds (sort_dictionary A V (items (obj h2 s))) h2) as B.
  destruct (new _ _ _ _) as [h3 [d|e]]; cbn [andthen]; [|exact B].
  pose proof (builds_replace_meta _ _ _ (asm_of A V h3 r) (isv_of A V h3 r) B) as B4. cbv zeta.
  destruct (is_sympy _); [|exact B4].
  apply builds_step with (replace_meta A V d (asm_of A V h3 r) (isv_of A V h3 r) h3); [apply B4|]. apply to_sympy_builds.
Qed.

(* in-place variants change only their own dictionary *)
Lemma finish_frame b r h x : builds h x -> r < nxt h ->
  frame (fun j => b = true /\ j = r) (fun j => b = true /\ j = ra (obj h r)) (fun j => b = true /\ j = rv (obj h r)) h (fst (finish A A_dec V b r x)).
Proof.
  intros (F & R) Hr. destruct x as [h1 [d|e]]; cbn.
  - destruct b; cbn.
    + assert (O : obj h1 r = obj h r) by (destruct F as (_ & O & _); apply O; [exact Hr|unfold none; tauto]).
      apply (frame_trans _ _ _ (eq r) (eq (ra (obj h1 r))) (eq (rv (obj h1 r))) h h1).
      * apply (frame_weaken none none none); [exact F|..]; unfold none; tauto.
      * apply clean_update_frame.
      * intros j <-; auto.
      * rewrite O. intros j <-; auto.
      * rewrite O. intros j <-; auto.
    + apply (frame_weaken none none none); [exact F|..]; unfold none; tauto.
  - apply (frame_weaken none none none); [exact F|..]; unfold none; tauto.
Qed.

(* object-level frame of the sharing operations *)
Definition any (_ : nat) := True.
Lemma to_any TO TA TV h h' : frame TO TA TV h h' -> frame TO any any h h'.
Proof. intro F. apply (frame_weaken TO TA TV); [exact F|..]; unfold any; tauto. Qed.

Lemma map_values_frame conv c d : forall h h' x, map_values A A_dec V conv c d h = (h', x) -> frame (eq c) any any h h' /\ (forall r, x = Ok r -> r = c).
Proof.
  induction d as [|[k v] d IH]; cbn; intros h h' x H.
  - injection H as <- <-. split; [apply frame_refl|congruence].
  - destruct (conv v) as [v'|]; [|eapply IH; eauto].
    destruct (setitem A A_dec V c k v' h) as [h1 [r|e]] eqn:E.
    + assert (F : frame (eq c) any any h h1).
      { unfold setitem in E. destruct (items (obj h c)); repeat match type of E with context [if ?b then _ else _] => destruct b end;
        try discriminate; injection E as <- <-; (split; [cbn; lia|]); cbn; unfold any; repeat split; try tauto;
        intros j Hj Hn; apply upd_other; auto. }
      cbn in H. apply IH in H as (F2 & R). split; [|exact R].
      apply (frame_trans _ _ _ (eq c) any any h h1 _ F F2); unfold any; tauto.
    + cbn in H. injection H as <- <-. split; [|discriminate].
      unfold setitem in E. destruct (items (obj h c)); repeat match type of E with context [if ?b then _ else _] => destruct b end;
      try discriminate; injection E as <- <-; apply frame_refl.
Qed.

Definition obuilds h (x : heap * result nat) : Prop :=
  frame none any any h (fst x) /\ (forall r, snd x = Ok r -> nxt h <= r < nxt (fst x)).
Lemma obuilds_err h h1 e : frame none any any h h1 -> obuilds h (h1, Err e).
Proof. intro F. split; [exact F|discriminate]. Qed.
Lemma builds_obuilds h x : builds h x -> obuilds h x.
Proof. intros (F & R). split; [eapply to_any; eauto|]. intros r E. apply R, E. Qed.
Lemma obuilds_step h h1 x : frame none any any h h1 -> obuilds h1 x -> obuilds h x.
Proof.
  intros F (F2 & R). split.
  - apply (frame_trans none any any none any any h h1); auto; unfold none, any; tauto.
  - intros r E. destruct F as (L & _). specialize (R r E). lia.
Qed.
(* an in-place change of an object that did not exist in h *)
Lemma frame_fresh_change c TA TV h h1 h2 : frame none any any h h1 -> frame (eq c) TA TV h1 h2 -> nxt h <= c -> frame none any any h h2.
Proof.
  intros F F2 L. apply (frame_trans none any any _ _ _ h h1 _ F F2); unfold any; try tauto. intros j <-. auto.
Qed.

Lemma finish_obuilds_fresh h h1 c x : obuilds h (h1, Ok c) -> builds h1 x -> obuilds h (finish A A_dec V true c x).
Proof.
  intros (F & R) B. destruct (R c eq_refl) as [L1 L2]. cbn in *.
  assert (FF : frame none any any h (fst (finish A A_dec V true c x))).
  { apply (frame_fresh_change c any any h h1); auto.
    apply (frame_weaken _ _ _ _ _ _ _ _ (finish_frame true c h1 x B L2)); unfold any; try tauto. intros j [_ ->]; auto. }
  destruct x as [h2 [d|e]]; cbn in *.
  - split; [exact FF|]. intros r E. injection E as <-. cbn. split; [exact L1|].
    pose proof (clean_update_frame c d h2) as (N & _). destruct B as ((N2 & _) & _). cbn in *. lia.
  - apply obuilds_err, FF.
Qed.

Lemma to_sympy_core b r h : to_sympy A A_dec noasm V b r h =
  finish A A_dec V b r (new A V (string_keys_to_sympy A A_dec noasm V (items (obj h r)) (asm_of A V h r) (isv_of A V h r)) h).
Proof. reflexivity. Qed.

Lemma step_core_obuilds f r h : obuilds h (step_core f r h).
Proof.
  destruct (is_sympy (obj h r)) eqn:Hs; [apply builds_obuilds, step_core_builds, Hs|].
  unfold step_core. rewrite Hs. destruct (copy A V r h) as [h1 [c|e]] eqn:E; apply copy_spec in E as (F & C); cbn [andthen].
  2:{ apply obuilds_err. eapply to_any; eauto. }
  destruct (C c eq_refl) as (-> & Hn & Ho).
  assert (B1 : obuilds h (h1, Ok (nxt h))).
  { split; [eapply to_any; eauto|]. intros x H. injection H as <-. cbn. lia. }
  rewrite to_sympy_core.
  pose proof (finish_obuilds_fresh h h1 (nxt h) _ B1 (new_builds (string_keys_to_sympy A A_dec noasm V (items (obj h1 (nxt h))) (asm_of A V h1 (nxt h)) (isv_of A V h1 (nxt h))) h1)) as B2.
  destruct (finish _ _ _ _ _ _) as [h2 [c2|e]]; cbn [andthen]; [|exact B2].
  destruct (step_keys _ _ _ _ _ _) as [d|e]; [|apply obuilds_err, B2].
  apply obuilds_step with h2; [apply B2|].
  pose proof (new_builds d h2) as B3. destruct (new A V d h2) as [h3 [n|e]]; cbn [andthen]; [|apply builds_obuilds, B3].
  rewrite to_string_unfold. apply finish_obuilds_fresh with h3; [apply builds_obuilds, B3|apply to_string_core_builds].
Qed.

Definition convert_core conv r h :=
  (andthen A V (copy A V r h) (fun c h1 =>
     andthen A V (map_values A A_dec V conv c (items (obj h1 c)) h1) (fun c h2 =>
       let m := asm_of A V h2 r in let iv := isv_of A V h2 r in
       let o := obj h2 c in
       let h3 := Heap A V (upd (obj h2) c (DObj A V (items o) (is_sympy o) (nxt h2) (nxt h2)))
                      (upd (ca h2) (nxt h2) m) (upd (cv h2) (nxt h2) iv) (S (nxt h2)) in
       (h3, Ok c)))).
Lemma convert_unfold conv b r h : convert_values A A_dec V conv b r h = finish A A_dec V b r (convert_core conv r h).
Proof. reflexivity. Qed.
Lemma convert_core_obuilds conv r h : obuilds h (convert_core conv r h).
Proof.
  unfold convert_core. destruct (copy A V r h) as [h1 [c|e]] eqn:E; apply copy_spec in E as (F & C); cbn [andthen].
  2:{ apply obuilds_err. eapply to_any; eauto. }
  destruct (C c eq_refl) as (-> & Hn & Ho).
  destruct (map_values _ _ _ _ _ _ _) as [h2 [c2|e]] eqn:E; apply map_values_frame in E as (F2 & R); cbn [andthen].
  2:{ apply obuilds_err. apply (frame_fresh_change (nxt h) any any h h1); auto. eapply to_any; eauto. }
  pose proof (R c2 eq_refl) as ->. destruct F2 as (L2 & F2).
  assert (FF : frame none any any h h2) by (apply (frame_fresh_change (nxt h) any any h h1); [eapply to_any; eauto|split; [exact L2|exact F2]|lia]).
  split; cbn.
  - apply (frame_fresh_change (nxt h) any any h h2); auto. split; [cbn; lia|]. cbn. unfold any. repeat split; try tauto.
    intros j Hj Hne. apply upd_other; auto.
  - intros x H. injection H as <-. lia.
Qed.

Lemma or_obuilds r s h : r < nxt h -> s < nxt h -> obuilds h (or_ A A_dec V r s h).
Proof.
  intros Hr Hs. unfold or_. destruct (copy A V r h) as [h1 [c|e]] eqn:E; apply copy_spec in E as (F & C); cbn [andthen].
  2:{ apply obuilds_err. eapply to_any; eauto. }
  destruct (C c eq_refl) as (-> & Hn & Ho). apply to_any in F.
  destruct (Nat.eqb _ 0).
  - destruct (copy A V s h1) as [h2 [c2|e]] eqn:E2; apply copy_spec in E2 as (F2 & C2); cbn [andthen].
    2:{ apply obuilds_err. apply (frame_trans _ _ _ none none none h h1 _ F F2); unfold none; tauto. }
    destruct (C2 c2 eq_refl) as (-> & Hn2 & _).
    split; cbn.
    + apply (frame_trans _ _ _ none any any h h1); auto; try (unfold none, any; tauto).
      apply (frame_trans _ _ _ none any any h1 h2 _ (to_any _ _ _ _ _ F2)); try (unfold none, any; tauto).
      eapply to_any, meta_update_frame. 
    + intros x H. injection H as <-. lia.
  - destruct (Nat.eqb _ 0); [|destruct (negb _)].
    + split; cbn.
      * apply (frame_trans _ _ _ none any any h h1 _ F); unfold none, any; try tauto. eapply to_any, meta_update_frame.
      * intros x H. injection H as <-. lia.
    + apply obuilds_err, F.
    + cbv zeta. split; cbn [fst snd].
      * apply (frame_fresh_change (nxt h) any any h h1); auto.
        apply (frame_trans _ _ _ none any any h1 (update A A_dec V (nxt h) s h1)); unfold any, none; try tauto.
        -- eapply to_any, update_frame.
        -- eapply to_any, meta_update_frame.
      * intros x H. injection H as <-. cbn. pose proof (update_frame (nxt h) s h1) as (L & _). lia.
Qed.

Lemma finish_oframe b r h x : obuilds h x -> r < nxt h ->
  frame (fun j => b = true /\ j = r) any any h (fst (finish A A_dec V b r x)).
Proof.
  intros (F & R) Hr. destruct x as [h1 [d|e]]; cbn.
  - destruct b; cbn.
    + apply (frame_trans _ _ _ (eq r) any any h h1).
      * apply (frame_weaken none any any); [exact F|..]; unfold none; tauto.
      * eapply to_any, clean_update_frame.
      * intros j <-; auto.
      * tauto.
      * tauto.
    + apply (frame_weaken none any any); [exact F|..]; unfold none; tauto.
  - apply (frame_weaken none any any); [exact F|..]; unfold none; tauto.
Qed.

Notation exec := (exec A A_dec noasm V).
Lemma setitem_frame r k v h : frame (eq r) (eq (ra (obj h r))) (eq (rv (obj h r))) h (fst (setitem A A_dec V r k v h)).
Proof.
  unfold setitem. destruct (_ && _)%bool; [apply frame_refl|]. destruct (_ && _)%bool; [apply frame_refl|]. cbn.
  split; [cbn; lia|]. cbn. repeat split; intros j Hj Hn; apply upd_other; auto.
Qed.

Lemma exec_oframe i h : (forall r, In r (operands (i : instr A V)) -> r < nxt h) ->
  frame (fun j => target i = Some j) any any h (fst (exec i h)).
Proof.
  intro Hop.
  assert (B : forall x, obuilds h x -> forall T : nat -> Prop, frame T any any h (fst x)).
  { intros x (F & _) T. apply (frame_weaken none any any); [exact F|..]; unfold none; tauto. }
  assert (G : forall (b : bool) r x, obuilds h x -> r < nxt h ->
            frame (fun j => (if b then Some r else None) = Some j) any any h (fst (finish A A_dec V b r x))).
  { intros b r x Hx Hr. apply (frame_weaken _ _ _ _ _ _ _ _ (finish_oframe b r h x Hx Hr)); try tauto. intros j [-> ->]; auto. }
  destruct i; cbn [target SymDict_Model.exec operands] in *.
  - apply B, builds_obuilds, new_builds.
  - destruct (copy A V r h) as [h1 x] eqn:E. apply copy_spec in E as (F & _). apply to_any in F.
    cbn. apply (frame_weaken none any any); [exact F|..]; unfold none; tauto.
  - apply B, or_obuilds; apply Hop; cbn; auto.
  - apply (frame_weaken _ _ _ _ _ _ _ _ (to_any _ _ _ _ _ (setitem_frame r k v h))); try tauto. intros j <-; auto.
  - apply (frame_weaken _ _ _ _ _ _ _ _ (to_any _ _ _ _ _ (update_frame r s h))); try tauto. intros j <-; auto.
  - cbn. apply (frame_weaken _ _ _ _ _ _ _ _ (to_any _ _ _ _ _ (set_obj_frame h r _))); try tauto. intros j <-; auto.
  - apply G; [apply builds_obuilds, new_builds|apply Hop; cbn; auto].
  - rewrite to_string_unfold. apply G; [apply builds_obuilds, to_string_core_builds|apply Hop; cbn; auto].
  - rewrite step_unfold. apply G; [apply step_core_obuilds|apply Hop; cbn; auto].
  - rewrite sort_unfold. apply G; [apply builds_obuilds, sort_core_builds|apply Hop; cbn; auto].
  - rewrite convert_unfold. apply G; [apply convert_core_obuilds|apply Hop; cbn; auto].
Qed.

(* Histories in which every operand is an allocated dictionary. *)
Fixpoint valid_history (p : list (instr A V)) h : Prop :=
  match p with
  | [] => True
  | i :: p' => (forall r, In r (operands i) -> r < nxt h) /\ valid_history p' (fst (exec i h))
  end.

Lemma entries_kept p : forall h r, valid_history p h -> r < nxt h ->
  (forall i, In i p -> target i <> Some r) ->
  obj (exec_all A A_dec noasm V p h) r = obj h r.
Proof.
  induction p as [|i p IH]; cbn [exec_all valid_history]; intros h r Hv Hr Ht; [reflexivity|].
  destruct Hv as [Hop Hv]. pose proof (exec_oframe i h Hop) as (L & O & _).
  rewrite IH; auto; [|lia|intros j Hj; apply Ht; now right].
  apply O; [exact Hr|]. intro E. apply (Ht i); [now left|exact E].
Qed.

(* ---- no sharing ---- *)
Definition sep (live : list nat) h : Prop :=
  (forall r, In r live -> r < nxt h /\ ra (obj h r) < nxt h /\ rv (obj h r) < nxt h) /\
  (forall r s, In r live -> In s live -> r <> s -> ra (obj h r) <> ra (obj h s) /\ rv (obj h r) <> rv (obj h s)).

(* one unshared call: frame with exact cells, and what it returns *)
Definition exact_frame (i : instr A V) h h' : Prop :=
  frame (fun j => target i = Some j)
        (fun j => exists r, target i = Some r /\ j = ra (obj h r))
        (fun j => exists r, target i = Some r /\ j = rv (obj h r)) h h' /\
  (forall r, r < nxt h -> ra (obj h' r) = ra (obj h r) /\ rv (obj h' r) = rv (obj h r)).

Lemma finish_exact (b : bool) r h x i : builds h x -> r < nxt h -> target (i : instr A V) = (if b then Some r else None) ->
  exact_frame i h (fst (finish A A_dec V b r x)) /\
  (forall q, snd (finish A A_dec V b r x) = Ok q -> target i = Some q \/
     (nxt h <= q < nxt (fst (finish A A_dec V b r x)) /\ nxt h <= ra (obj (fst (finish A A_dec V b r x)) q) < nxt (fst (finish A A_dec V b r x)) /\
      nxt h <= rv (obj (fst (finish A A_dec V b r x)) q) < nxt (fst (finish A A_dec V b r x)))).
Proof.
  intros B Hr Ht. split; [split|].
  - rewrite Ht. apply (frame_weaken _ _ _ _ _ _ _ _ (finish_frame b r h x B Hr)); intros j [-> ->]; eauto.
  - intros q Hq. destruct x as [h1 [d|e]]; cbn.
    + destruct B as ((_ & O & _) & _). cbn in O. destruct b; cbn.
      * destruct (clean_update_refs r d h1 q) as [-> ->]. rewrite O; auto.
      * rewrite O; auto.
    + destruct B as ((_ & O & _) & _). cbn in O. rewrite O; auto.
  - intros q Hq. destruct b.
    + left. destruct x as [h1 [d|e]]; cbn in Hq; [|discriminate]. congruence.
    + right. rewrite finish_false in *. apply B, Hq.
Qed.

Lemma exec_exact i h : (forall r, In r (operands i) -> r < nxt h) -> ~ shares (i : instr A V) h ->
  exact_frame i h (fst (exec i h)) /\
  (forall q, snd (exec i h) = Ok q -> target i = Some q \/
     (nxt h <= q < nxt (fst (exec i h)) /\ nxt h <= ra (obj (fst (exec i h)) q) < nxt (fst (exec i h)) /\
      nxt h <= rv (obj (fst (exec i h)) q) < nxt (fst (exec i h)))).
Proof.
  intros Hop Hs. destruct i; cbn [shares SymDict_Model.exec operands] in *; try tauto.
  - pose proof (new_builds (dupd (key_eqb A A_dec) [] d) h) as (F & R). split; [split|].
    + apply (frame_weaken none none none); [exact F|..]; unfold none; tauto.
    + intros r Hr. destruct F as (_ & O & _). rewrite O; auto.
    + intros q Hq. right. apply R, Hq.
  - split; [split|].
    + cbn. apply (frame_weaken _ _ _ _ _ _ _ _ (setitem_frame r k v h)); intros j <-; eauto.
    + intros q Hq. unfold setitem. destruct (_ && _)%bool; [auto|]. destruct (_ && _)%bool; [auto|]. cbn.
      unfold upd. destruct (Nat.eqb_spec q r); subst; auto.
    + intros q Hq. left. unfold setitem in Hq. destruct (_ && _)%bool; [discriminate|]. destruct (_ && _)%bool; [discriminate|].
      cbn in Hq. injection Hq as <-. reflexivity.
  - split; [split|].
    + cbn. apply (frame_weaken _ _ _ _ _ _ _ _ (update_frame r s h)); intros j <-; eauto.
    + intros q Hq. apply update_refs.
    + intros q Hq. left. cbn in Hq. injection Hq as <-. reflexivity.
  - split; [split|].
    + cbn. apply (frame_weaken _ _ _ _ _ _ _ _ (set_obj_frame h r _)); unfold none; try tauto. intros j <-; eauto.
    + intros q Hq. cbn. unfold upd. destruct (Nat.eqb_spec q r); subst; auto.
    + intros q Hq. left. cbn in Hq. injection Hq as <-. reflexivity.
  - rewrite to_sympy_core. apply finish_exact; [apply new_builds|apply Hop; cbn; auto|reflexivity].
  - rewrite to_string_unfold. apply finish_exact; [apply to_string_core_builds|apply Hop; cbn; auto|reflexivity].
  - rewrite step_unfold. apply finish_exact; [apply step_core_builds|apply Hop; cbn; auto|reflexivity].
    destruct (is_sympy (obj h r)); [reflexivity|]. tauto.
  - rewrite sort_unfold. apply finish_exact; [apply sort_core_builds|apply Hop; cbn; auto|reflexivity].
Qed.

Lemma target_operand (i : instr A V) r : target i = Some r -> In r (operands i).
Proof. destruct i; cbn; try discriminate; try (destruct inplace); intro H; inversion H; subst; cbn; auto. Qed.

Lemma sep_step i live h : sep live h -> (forall r, In r (operands i) -> In r live) -> ~ shares (i : instr A V) h ->
  sep (returned (exec i h) ++ live) (fst (exec i h)) /\
  (forall r, In r live -> target i <> Some r -> view (fst (exec i h)) r = view h r).
Proof.
  intros (S1 & S2) Hop Hs.
  assert (Hop' : forall r, In r (operands i) -> r < nxt h) by (intros r Hr; apply S1, Hop, Hr).
  destruct (exec_exact i h Hop' Hs) as ((F & R) & Q).
  destruct (exec i h) as [h' x] eqn:E. cbn [fst snd] in *.
  assert (L : forall r, In r live -> r < nxt h' /\ ra (obj h' r) < nxt h' /\ rv (obj h' r) < nxt h').
  { intros r Hr. destruct (S1 r Hr) as (A1 & A2 & A3). destruct (R r A1) as [-> ->]. destruct F as (N & _). lia. }
  assert (N : forall q, In q (returned (h', x)) -> In q live \/
     (nxt h <= q < nxt h' /\ nxt h <= ra (obj h' q) < nxt h' /\ nxt h <= rv (obj h' q) < nxt h')).
  { unfold returned. cbn. destruct x as [q'|e]; [|contradiction]. intros q [<-|[]].
    destruct (Q q' eq_refl) as [T|G]; auto. left. apply Hop. eapply target_operand; eauto. }
  assert (D : forall q, In q (returned (h', x) ++ live) -> In q live \/
     (nxt h <= q < nxt h' /\ nxt h <= ra (obj h' q) < nxt h' /\ nxt h <= rv (obj h' q) < nxt h')).
  { intros q Hq. apply in_app_iff in Hq as [Hq|Hq]; auto. }
  split; [split|].
  - intros r Hr. destruct (D r Hr) as [Hl|G]; [auto|lia].
  - intros r s Hr Hs' Hne.
    assert (U : forall a b, In a (returned (h', x)) -> ~ In a live -> In b (returned (h', x)) -> ~ In b live -> a = b).
    { unfold returned. cbn. destruct x as [q|e]; cbn; [|contradiction]. intros a b [<-|[]] _ [<-|[]] _. reflexivity. }
    destruct (in_dec Nat.eq_dec r live) as [Ir|Nr], (in_dec Nat.eq_dec s live) as [Is|Ns].
    + destruct (S1 r Ir) as (Ar & _), (S1 s Is) as (As & _). destruct (R r Ar) as [-> ->], (R s As) as [-> ->]. apply S2; auto.
    + destruct (D s Hs') as [|G]; [tauto|]. destruct (S1 r Ir) as (Ar & A2 & A3). destruct (R r Ar) as [-> ->]. lia.
    + destruct (D r Hr) as [|G]; [tauto|]. destruct (S1 s Is) as (Ar & A2 & A3). destruct (R s Ar) as [-> ->]. lia.
    + exfalso. apply Hne. apply U; auto; [apply in_app_iff in Hr as [|]|apply in_app_iff in Hs' as [|]]; tauto.
  - intros r Hr Ht. destruct (S1 r Hr) as (A1 & A2 & A3). destruct F as (_ & O & CA & CV).
    assert (Er : obj h' r = obj h r) by (apply O; auto).
    unfold view, asm_of, isv_of. rewrite Er. rewrite CA, CV; auto.
    + intros (t & Tt & Eq). assert (t <> r) by congruence.
      destruct (S2 r t Hr (Hop t (target_operand _ _ Tt)) ltac:(auto)) as [_ X]. congruence.
    + intros (t & Tt & Eq). assert (t <> r) by congruence.
      destruct (S2 r t Hr (Hop t (target_operand _ _ Tt)) ltac:(auto)) as [X _]. congruence.
Qed.

Lemma unshared_kept p : forall live h r, sep live h -> unshared A_dec noasm p live h -> In r live ->
  (forall i, In i p -> target i <> Some r) ->
  view (exec_all A A_dec noasm V p h) r = view h r.
Proof.
  induction p as [|i p IH]; cbn [unshared exec_all]; intros live h r Hs Hu Hr Ht; [reflexivity|].
  destruct Hu as (Hop & Hsh & Hu). destruct (sep_step i live h Hs Hop Hsh) as (Hs' & Hk).
  rewrite (IH _ _ r Hs' Hu); [|apply in_app_iff; now right|intros j Hj; apply Ht; now right].
  apply Hk; auto. apply Ht. now left.
Qed.

Lemma sep_run p : forall live h, sep live h -> unshared A_dec noasm p live h ->
  sep (live_after A_dec noasm p live h) (exec_all A A_dec noasm V p h).
Proof.
  induction p as [|i p IH]; cbn; intros live h Hs Hu; [exact Hs|].
  destruct Hu as (Hop & Hsh & Hu). apply IH; auto. apply sep_step; auto.
Qed.
Lemma unshared_app p1 : forall p2 live h, unshared A_dec noasm (p1 ++ p2) live h ->
  unshared A_dec noasm p1 live h /\ unshared A_dec noasm p2 (live_after A_dec noasm p1 live h) (exec_all A A_dec noasm V p1 h).
Proof.
  induction p1 as [|i p IH]; cbn; intros p2 live h Hu; [auto|].
  destruct Hu as (Hop & Hsh & Hu). apply IH in Hu as (H1 & H2). auto.
Qed.
Lemma exec_all_app p1 : forall p2 h, exec_all A A_dec noasm V (p1 ++ p2) h = exec_all A A_dec noasm V p2 (exec_all A A_dec noasm V p1 h).
Proof. induction p1; cbn; auto. Qed.
Lemma sep_empty : sep [] (empty_heap A V).
Proof. split; contradiction. Qed.
End P.
