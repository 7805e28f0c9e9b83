From Verif Require Import Common TimeIndex_Model.
Local Open Scope list_scope.

Section Suffix.
(* Splitting off a maximal trailing run of digits is unambiguous. *)
Lemma digits_prefix_unique (d1 d2 r1 r2 : chars) :
  forallb is_digit d1 = true -> forallb is_digit d2 = true ->
  (forall c r, r1 = c :: r -> is_digit c = false) ->
  (forall c r, r2 = c :: r -> is_digit c = false) ->
  d1 ++ r1 = d2 ++ r2 -> d1 = d2 /\ r1 = r2.
Proof.
  revert d2; induction d1 as [|a d1 IH]; intros d2 H1 H2 N1 N2 E.
  - destruct d2 as [|b d2]; [auto|]. cbn in E. subst r1.
    cbn in H2. apply andb_true_iff in H2 as [Hb _].
    rewrite (N1 _ _ eq_refl) in Hb. discriminate.
  - destruct d2 as [|b d2].
    + cbn in E. subst r2. cbn in H1. apply andb_true_iff in H1 as [Ha _].
      rewrite (N2 _ _ eq_refl) in Ha. discriminate.
    + cbn in E, H1, H2. apply andb_true_iff in H1 as [_ H1]. apply andb_true_iff in H2 as [_ H2].
      injection E as -> E. destruct (IH d2 H1 H2 N1 N2 E) as [-> ->]. auto.
Qed.
End Suffix.

Lemma forallb_rev {A} (f : A -> bool) l : forallb f (rev l) = forallb f l.
Proof.
  induction l as [|a l IH]; [reflexivity|]. cbn [rev]. rewrite forallb_app, IH. cbn.
  destruct (f a), (forallb f l); reflexivity.
Qed.

Lemma dec_zero n : dec n = str "0" -> n = 0%N.
Proof. intro H. apply dec_inj. exact H. Qed.

(* The three shapes a name can have. *)
Lemma name_of_ss b : name_of b TSs = b ++ str "_ss".
Proof. reflexivity. Qed.
Lemma name_of_0 b : name_of b (TInt 0) = b ++ str "_t".
Proof. reflexivity. Qed.
Lemma name_of_nz b z : z <> 0%Z ->
  name_of b (TInt z) = b ++ str "_t" ++ (if Z.ltb 0 z then str "+" else str "-") ++ dec (Z.abs_N z).
Proof.
  intro Hz. unfold name_of, determine_operator.
  destruct (chars_eqb (dec (Z.abs_N z)) (str "0")) eqn:E.
  - apply chars_eqb_eq, dec_zero in E. lia.
  - destruct (Z.ltb_spec 0 z); [reflexivity|]. destruct (Z.ltb_spec z 0); [reflexivity|lia].
Qed.

Lemma sign_nd (z : Z) c r :
  rev (if Z.ltb 0 z then str "+" else str "-") ++ r = c :: r -> is_digit c = false.
Proof. destruct (Z.ltb 0 z); cbn; intro H; injection H as <-; reflexivity. Qed.

(* Last character classification *)
Lemma dec_last n : exists d l, rev (dec n) = d :: l /\ is_digit d = true.
Proof.
  destruct (rev (dec n)) as [|d l] eqn:E.
  - exfalso. apply (dec_nonempty n). apply (f_equal (@rev _)) in E. rewrite rev_involutive in E. exact E.
  - exists d, l. split; [reflexivity|].
    pose proof (dec_digits n) as H. rewrite <- forallb_rev, E in H. cbn in H.
    apply andb_true_iff in H. tauto.
Qed.

Lemma rev_eq {A} (a b : list A) : a = b -> rev a = rev b.
Proof. congruence. Qed.

Lemma name_of_inj_gen (f : ascii -> ascii) b1 b2 t1 t2 :
  (forall c, is_digit (f c) = is_digit c) -> (forall c, is_digit c = true -> f c = c) ->
  f "t"%char = "t"%char -> f "_"%char = "_"%char -> f "s"%char = "s"%char ->
  is_digit (f "+"%char) = false -> is_digit (f "-"%char) = false ->
  f "+"%char <> f "-"%char ->
  map f (name_of b1 t1) = map f (name_of b2 t2) -> map f b1 = map f b2 /\ t1 = t2.
Proof.
  intros Hd Hid Ht Hu Hs Hp Hm Hpm H.
  assert (Hdec : forall n, map f (dec n) = dec n).
  { intro n. pose proof (dec_digits n) as D. induction (dec n) as [|c l IH]; [reflexivity|].
    cbn in D. apply andb_true_iff in D as [D1 D2]. cbn. rewrite Hid by exact D1. rewrite IH by exact D2. reflexivity. }
  destruct t1 as [z1|], t2 as [z2|].
  - destruct (Z.eq_dec z1 0) as [->|N1], (Z.eq_dec z2 0) as [->|N2].
    + rewrite !name_of_0, !map_app in H. apply app_inv_tail in H. auto.
    + exfalso. rewrite name_of_0, name_of_nz in H by exact N2. apply rev_eq in H.
      rewrite !map_app, !rev_app_distr in H. rewrite Hdec in H.
      destruct (dec_last (Z.abs_N z2)) as (d & l & E & D). rewrite E in H. cbn in H.
      injection H as H _. rewrite Ht in H. subst d. discriminate D.
    + exfalso. rewrite name_of_0, name_of_nz in H by exact N1. apply rev_eq in H.
      rewrite !map_app, !rev_app_distr in H. rewrite Hdec in H.
      destruct (dec_last (Z.abs_N z1)) as (d & l & E & D). rewrite E in H. cbn in H.
      injection H as H _. rewrite Ht in H. subst d. discriminate D.
    + rewrite !name_of_nz in H by assumption. apply rev_eq in H.
      rewrite !map_app, !rev_app_distr in H. rewrite !Hdec in H.
      rewrite <- !app_assoc in H.
      apply digits_prefix_unique in H.
      * destruct H as [H1 H2]. apply (f_equal (@rev _)) in H1. rewrite !rev_involutive in H1.
        apply dec_inj in H1.
        assert (HH : map f b1 = map f b2 /\ ((0 <? z1) = (0 <? z2))%Z).
        { destruct (Z.ltb 0 z1), (Z.ltb 0 z2); cbn in H2; injection H2; intros; try congruence;
            (split; [|reflexivity]);
            match goal with E : rev _ = rev _ |- _ => apply (f_equal (@rev _)) in E; rewrite !rev_involutive in E; exact E end. }
        destruct HH as [HH Hz]. split; [exact HH|]. f_equal.
        destruct (Z.ltb_spec 0 z1), (Z.ltb_spec 0 z2); try discriminate; lia.
      * rewrite forallb_rev. apply dec_digits.
      * rewrite forallb_rev. apply dec_digits.
      * intros c r E. destruct (Z.ltb 0 z1); cbn in E; injection E as <- _; assumption.
      * intros c r E. destruct (Z.ltb 0 z2); cbn in E; injection E as <- _; assumption.
  - exfalso. rewrite name_of_ss in H. apply rev_eq in H.
    destruct (Z.eq_dec z1 0) as [->|N1].
    + rewrite name_of_0 in H. rewrite !map_app, !rev_app_distr in H. cbn in H. injection H as H _. congruence.
    + rewrite name_of_nz in H by exact N1. rewrite !map_app, !rev_app_distr, Hdec in H.
      destruct (dec_last (Z.abs_N z1)) as (d & l & E & D). rewrite E in H. cbn in H.
      injection H as H _. rewrite Hs in H. subst d. discriminate D.
  - exfalso. rewrite name_of_ss in H. apply rev_eq in H.
    destruct (Z.eq_dec z2 0) as [->|N2].
    + rewrite name_of_0 in H. rewrite !map_app, !rev_app_distr in H. cbn in H. injection H as H _. congruence.
    + rewrite name_of_nz in H by exact N2. rewrite !map_app, !rev_app_distr, Hdec in H.
      destruct (dec_last (Z.abs_N z2)) as (d & l & E & D). rewrite E in H. cbn in H.
      injection H as H _. rewrite Hs in H. subst d. discriminate D.
  - rewrite !name_of_ss, !map_app in H. apply app_inv_tail in H. auto.
Qed.

Lemma name_inj {A} (s1 s2 : tsym A) : name s1 = name s2 -> base s1 = base s2 /\ tix s1 = tix s2.
Proof.
  unfold name. intro H.
  pose proof (name_of_inj_gen (fun c => c) (base s1) (base s2) (tix s1) (tix s2)) as L.
  rewrite !map_id in L. apply L; auto; discriminate.
Qed.

Lemma safe_char_digit c : is_digit (safe_char c) = is_digit c.
Proof.
  unfold safe_char. destruct (Ascii.eqb_spec c "+") as [->|]; [reflexivity|].
  destruct (Ascii.eqb_spec c "-") as [->|]; reflexivity.
Qed.
Lemma safe_char_id c : is_digit c = true -> safe_char c = c.
Proof.
  unfold safe_char. destruct (Ascii.eqb_spec c "+") as [->|]; [discriminate|].
  destruct (Ascii.eqb_spec c "-") as [->|]; [discriminate|reflexivity].
Qed.
Lemma safe_map_id b : ~ In "+"%char b -> ~ In "-"%char b -> map safe_char b = b.
Proof.
  induction b as [|c b IH]; intros Hp Hm; [reflexivity|]. cbn [map].
  rewrite IH by (cbn in *; tauto). f_equal. unfold safe_char.
  destruct (Ascii.eqb_spec c "+") as [->|]; [exfalso; apply Hp; left; reflexivity|].
  destruct (Ascii.eqb_spec c "-") as [->|]; [exfalso; apply Hm; left; reflexivity|reflexivity].
Qed.

Lemma safe_name_inj {A} (s1 s2 : tsym A) :
  ~ In "+"%char (base s1) -> ~ In "-"%char (base s1) ->
  ~ In "+"%char (base s2) -> ~ In "-"%char (base s2) ->
  safe_name s1 = safe_name s2 -> base s1 = base s2 /\ tix s1 = tix s2.
Proof.
  intros P1 M1 P2 M2 H. unfold safe_name, name in H.
  apply name_of_inj_gen in H; try reflexivity; try discriminate.
  - rewrite !safe_map_id in H by assumption. exact H.
  - apply safe_char_digit.
  - apply safe_char_id.
Qed.

Lemma back_fwd {A} (s : tsym A) t : tix s = TInt t -> bind (step_forward s) step_backward = Ok s.
Proof. destruct s as [b i a]; cbn. intros ->. cbn. do 3 f_equal. lia. Qed.
Lemma fwd_back {A} (s : tsym A) t : tix s = TInt t -> bind (step_backward s) step_forward = Ok s.
Proof. destruct s as [b i a]; cbn. intros ->. cbn. do 3 f_equal. lia. Qed.

Definition is_step (c : call) : bool := match c with CFwd | CBwd => true | _ => false end.
Definition step_val (c : call) : Z := match c with CFwd => 1 | CBwd => -1 | _ => 0 end.

Lemma run_steps {A} (cs : list call) : forall (s : tsym A) t, tix s = TInt t ->
  forallb is_step cs = true ->
  run cs s = set_t s (RInt (fold_left (fun z c => z + step_val c) cs t))%Z.
Proof.
  induction cs as [|c cs IH]; intros s t Ht Hs.
  - cbn. destruct s as [b i a]; cbn in *. subst i. reflexivity.
  - cbn [forallb] in Hs. apply andb_true_iff in Hs as [Hc Hs]. destruct s as [b i a]; cbn in Ht; subst i.
    destruct c; try discriminate Hc; cbn [run do_call step_forward step_backward bind tix base asm];
      (erewrite IH; [|reflexivity|exact Hs]); reflexivity.
Qed.

Lemma do_call_keeps {A} c (s s' : tsym A) : do_call c s = Ok s' -> base s' = base s /\ asm s' = asm s.
Proof.
  destruct s as [b i a], c as [| |[z|x]| |]; cbn; unfold step_forward, step_backward, exit_ss; cbn; intro H.
  - destruct i; inversion H; auto.
  - destruct i; inversion H; auto.
  - inversion H; auto.
  - destruct (negb _) in H; inversion H; auto.
  - inversion H; auto.
  - destruct i; inversion H; auto.
Qed.

Lemma run_keeps {A} cs : forall (s s' : tsym A), run cs s = Ok s' -> base s' = base s /\ asm s' = asm s.
Proof.
  induction cs as [|c cs IH]; cbn; intros s s' H; [inversion H; auto|].
  unfold bind in H. destruct (do_call c s) as [s1|] eqn:E; [|discriminate].
  apply do_call_keeps in E. apply IH in H. intuition congruence.
Qed.

(* A call sequence goes wrong only by a bad set_t string or by stepping a steady-state symbol. *)
Lemma set_t_forgets {A} (cs : list call) (s s1 : tsym A) r :
  run cs s = Ok s1 -> set_t s1 r = set_t s r.
Proof.
  intro H. apply run_keeps in H as [Hb Ha]. destruct r; cbn; rewrite Hb, Ha; reflexivity.
Qed.
Lemma to_ss_forgets {A} (cs : list call) (s s1 : tsym A) :
  run cs s = Ok s1 -> to_ss s1 = to_ss s.
Proof. intro H. apply run_keeps in H as [Hb Ha]. unfold to_ss. rewrite Hb, Ha; reflexivity. Qed.
Lemma exit_ss_spec {A} (s : tsym A) :
  exit_ss (to_ss s) = TSym (base s) (TInt 0) (asm s) /\
  (forall t, tix s = TInt t -> exit_ss s = s).
Proof. split; [reflexivity|]. intros t H. unfold exit_ss. rewrite H. reflexivity. Qed.

Lemma run_ok_iff {A} (cs : list call) : forall (s : tsym A),
  (forall c, In c cs -> forall x, c = CSetT (RStr x) -> x = str "ss") ->
  (exists s', run cs s = Ok s') \/
  (run cs s = Err TypeError /\
   exists pre c post s1, cs = pre ++ c :: post /\ is_step c = true /\ run pre s = Ok s1 /\ tix s1 = TSs).
Proof.
  induction cs as [|c cs IH]; intros s Hx; [left; eexists; reflexivity|].
  cbn [run]. destruct (do_call c s) as [s1|e] eqn:E; cbn [bind].
  - destruct (IH s1) as [[s' H]|[H (pre & c' & post & s2 & -> & Hc & Hr & Ht)]].
    + intros c' Hc'. apply Hx. right; exact Hc'.
    + left; eauto.
    + right; split; [exact H|]. exists (c :: pre), c', post, s2. cbn. rewrite E. cbn. auto.
  - right. destruct c as [| |[z|x]| |]; cbn in E; try discriminate.
    + unfold step_forward in E. destruct (tix s) eqn:T; [discriminate|]. inversion E; subst.
      split; [reflexivity|]. exists [], CFwd, cs, s. auto.
    + unfold step_backward in E. destruct (tix s) eqn:T; [discriminate|]. inversion E; subst.
      split; [reflexivity|]. exists [], CBwd, cs, s. auto.
    + rewrite (Hx _ (or_introl eq_refl) x eq_refl) in E. cbn in E. discriminate.
Qed.

Lemma ss_step_changes : exists s : tsym unit,
  step_forward (to_ss s) <> Ok (to_ss s) /\ step_backward (to_ss s) <> Ok (to_ss s).
Proof. exists (TSym (str "K") (TInt 0) tt). split; discriminate. Qed.
