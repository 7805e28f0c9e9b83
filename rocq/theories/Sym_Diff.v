From Verif Require Import Common Sym_Model Sym_Spec Sym_Proofs.
From Coq Require Import Permutation Reals Lra.
Local Open Scope list_scope.

Section D.
Variable ord : set_order.
Hypothesis Hord : set_order_ok ord.

Lemma constant_shift k e : param_only e -> shift k e = e.
Proof.
  intro H. unfold shift. rewrite <- (smap_id e) at 2. apply smap_ext. intros s Hs.
  destruct (H s Hs) as (n & ->). reflexivity.
Qed.
Lemma constant_no_ss e : param_only e -> no_ss e.
Proof. intros H b Hb. destruct (H _ Hb) as (n & E). discriminate. Qed.

Fixpoint q (L df : sx) (k : nat) : sx :=
  match k with O => L | S k' => Mu (shift 1 (q L df k')) df end.

Lemma q_no_ss L df k : no_ss L -> param_only df -> no_ss (q L df k).
Proof.
  intros HL Hdf. induction k as [|k IH]; cbn [q]; [exact HL|].
  intros b Hb. cbn [atoms] in Hb. apply in_app_or in Hb as [Hb|Hb].
  - exact (proj2 (shift_no_ss 1 _) IH b Hb).
  - exact (constant_no_ss df Hdf b Hb).
Qed.

Fixpoint acc (n : nat) (x : sym) (L df : sx) (j : nat) (total : sx) : sx :=
  match n with O => total | S n' => acc n' x L df (S j) (Ad total (diff x (q L df j))) end.

Lemma loop_acc n x L df : no_ss L -> param_only df -> forall j total,
  dtt_loop ord n x (q L df j) df total = Ok (acc n x L df j total).
Proof.
  intros HL Hdf. induction n as [|n IH]; intros j total; cbn [dtt_loop acc]; [reflexivity|].
  rewrite (proj1 (forward_spec ord Hord _) (q_no_ss L df j HL Hdf)). cbn [bind].
  rewrite (proj1 (forward_spec ord Hord _) (constant_no_ss df Hdf)). cbn [bind].
  rewrite (constant_shift 1 df Hdf). exact (IH (S j) _).
Qed.

Local Open Scope R_scope.
Variable G : smooth.
Notation evr := (ev (Ralg G)).

Lemma later_later j k (env : sym -> R) s : later j (later k env) s = later (j + k) env s.
Proof. destruct s; cbn; try reflexivity. do 2 f_equal. lia. Qed.
Lemma later_0 (env : sym -> R) s : later 0 env s = env s.
Proof. destruct s; cbn; try reflexivity. do 2 f_equal. lia. Qed.
Lemma constant_later k env e : param_only e -> evr (later k env) e = evr env e.
Proof. intro H. apply ev_ext. intros s Hs. destruct (H s Hs) as (n & ->). reflexivity. Qed.

Lemma ev_q env L df k : param_only df ->
  evr env (q L df k) = (evr env df) ^ k * evr (later (Z.of_nat k) env) L.
Proof.
  intro Hdf. revert env. induction k as [|k IH]; intro env; cbn [q].
  - cbn [pow]. rewrite Rmult_1_l. apply ev_ext. intros s _. now rewrite later_0.
  - cbn [ev a_mul Ralg]. rewrite ev_shift, IH, (constant_later 1 env df Hdf).
    rewrite (ev_ext _ (later (Z.of_nat k) (later 1 env)) (later (Z.of_nat (S k)) env)).
    + cbn [pow]. ring.
    + intros s _. rewrite later_later. f_equal. lia.
Qed.
Lemma defined_ext env env' e : (forall s, In s (atoms e) -> env s = env' s) -> defined G env e -> defined G env' e.
Proof.
  induction e as [z|s|a IHa b IHb|a IHa b IHb|a IH|h k a IH]; intros H; cbn [defined]; auto.
  - intros [H1 H2]. split; [apply IHa|apply IHb]; auto; intros s Hs; apply H; cbn; apply in_or_app; auto.
  - intros [H1 H2]. split; [apply IHa|apply IHb]; auto; intros s Hs; apply H; cbn; apply in_or_app; auto.
  - intros [H1 H2]. split; [apply IH; auto|]. rewrite <- (ev_ext (Ralg G) env env' a); auto.
Qed.
Lemma defined_shift env k e : defined G (later k env) e -> defined G env (shift k e).
Proof.
  induction e as [z|s|a IHa b IHb|a IHa b IHb|a IH|h j a IH]; cbn; auto; try tauto.
  - destruct s; cbn; auto.
  - intros [H1 H2]. split; [auto|]. change (s_dom G h (evr env (shift k a))). now rewrite ev_shift.
Qed.
Lemma defined_q L df k : param_only df -> forall env, defined G env df ->
  (forall j, (j <= k)%nat -> defined G (later (Z.of_nat j) env) L) -> defined G env (q L df k).
Proof.
  intros Hdf. induction k as [|k IH]; intros env Hd H; cbn [q defined].
  - specialize (H 0%nat (le_n _)). eapply defined_ext; [|exact H]. intros s _. apply later_0.
  - split; [|exact Hd]. apply defined_shift, IH.
    + eapply defined_ext; [|exact Hd]. intros s Hs. destruct (Hdf s Hs) as (n & ->). reflexivity.
    + intros j Hj. specialize (H (S j)). eapply defined_ext; [|apply H; lia].
      intros s _. rewrite later_later. f_equal. lia.
Qed.

Lemma ev_acc n x L df : forall j total env,
  evr env (acc (S n) x L df j total) = evr env total + sum_f_R0 (fun k => evr env (diff x (q L df (j + k)))) n.
Proof.
  induction n as [|n IH]; intros j total env.
  - cbn [acc sum_f_R0 ev a_add Ralg]. now rewrite Nat.add_0_r.
  - replace (acc (S (S n)) x L df j total) with (acc (S n) x L df (S j) (Ad total (diff x (q L df j)))) by reflexivity.
    rewrite IH. cbn [ev a_add Ralg]. rewrite (decomp_sum _ (S n)) by lia. cbn [Nat.pred].
    rewrite Nat.add_0_r. rewrite Rplus_assoc. do 2 f_equal. apply sum_eq. intros i _. replace (j + S i)%nat with (S j + i)%nat by lia. reflexivity.
Qed.

(* which dates of the variable occur in L *)
Lemma zmin_list_le l : forall z, (zmin_list z l <= z)%Z /\ forall w, In w l -> (zmin_list z l <= w)%Z.
Proof.
  induction l as [|a l IH]; intro z; cbn [zmin_list fold_left].
  - split; [lia|easy].
  - destruct (IH (Z.min z a)) as [H1 H2]. unfold zmin_list in *. split; [lia|].
    intros w [<-|Hw]; [lia|auto].
Qed.

Lemma term_derivative env L df k (x : sym) : param_only df -> defined G env df ->
  (forall j, (j <= k)%nat -> defined G (later (Z.of_nat j) env) L) ->
  derivable_pt_lim (fun y => (evr env df) ^ k * evr (later (Z.of_nat k) (with_value env x y)) L) (env x)
                   (evr env (diff x (q L df k))) \/ ~ (exists b t, x = SDate b t).
Proof.
  intros Hdf Hd HL. destruct x as [n|b t|b]; [right; intros (? & ? & E); discriminate| |right; intros (? & ? & E); discriminate].
  left. eapply derivable_pt_lim_ext; [|apply derivable_diff; [reflexivity|apply defined_q; assumption]].
  intro y. cbv beta. rewrite ev_q by assumption. f_equal. f_equal. apply ev_ext. intros s Hs.
  destruct (Hdf s Hs) as (n & ->). reflexivity.
Qed.

Lemma not_in_later b t k (L : sx) (env : sym -> R) y : ~ In (SDate b (t - k)) (atoms L) ->
  evr (later k (with_value env (SDate b t) y)) L = evr (later k env) L.
Proof.
  intro H. apply ev_ext. intros s Hs. destruct s as [n|b' t'|b']; cbn [later]; unfold with_value.
  - destruct (sym_eqb (SPar n) (SDate b t)) eqn:E; [apply sym_eqb_eq in E; discriminate|reflexivity].
  - destruct (sym_eqb (SDate b' (t' + k)) (SDate b t)) eqn:E; [|reflexivity].
    apply sym_eqb_eq in E. injection E as -> E. exfalso. apply H. replace (t - k)%Z with t' by lia. exact Hs.
  - destruct (sym_eqb (SSs b') (SDate b t)) eqn:E; [apply sym_eqb_eq in E; discriminate|reflexivity].
Qed.

Theorem dtt_correct (L df : sx) (b : chars) (t : Z) :
  no_ss L -> param_only df ->
  exists d n, diff_through_time ord L b t df = Ok d /\
    forall (env : sym -> R) H, (n <= H)%nat -> defined G env df -> (forall k, (k <= H)%nat -> defined G (later (Z.of_nat k) env) L) ->
      derivable_pt_lim (fun y => discounted_sum G L (evr env df) H (with_value env (SDate b t) y))
                       (env (SDate b t)) (evr env d).
Proof.
  intros HL Hdf. unfold diff_through_time. cbv zeta.
  assert (Hmine : forall t', In (SDate b t') (atoms L) -> In (SDate b t') (filter (same_base b) (atoms L))).
  { intros t' Hin. apply filter_In. split; [exact Hin|]. cbn. apply chars_eqb_refl. }
  destruct (filter (same_base b) (atoms L)) as [|s mine] eqn:Em.
  - exists (Cst 0), 0%nat. split; [reflexivity|]. intros env H _ Hd HLd.
    eapply (derivable_pt_lim_ext (fun _ => discounted_sum G L (evr env df) H env)); [|apply derivable_pt_lim_const].
    intro y. unfold discounted_sum. apply sum_eq. intros k _. f_equal. symmetry. apply not_in_later. intro Hin.
    exact (Hmine _ Hin).
  - destruct (existsb is_ss (s :: mine)) eqn:Ess.
    { exfalso. apply existsb_exists in Ess as (s' & Hs' & Ess). rewrite <- Em in Hs'. apply filter_In in Hs' as [Hs' _].
      destruct s'; try discriminate. exact (HL _ Hs'). }
    set (m := zmin_list (date s) (map date (s :: mine))).
    set (n := Z.to_nat (Z.max 0 (t - m))).
    eexists. exists n. split; [exact (loop_acc (S n) (SDate b t) L df HL Hdf 0 (Cst 0))|].
    intros env H HnH Hd HLd. rewrite ev_acc. cbn [ev a_cst Ralg Nat.add].
    assert (Hzero : forall k, (n < k)%nat -> ~ In (SDate b (t - Z.of_nat k)) (atoms L)).
    { intros k Hk Hin. apply Hmine in Hin.
      assert (Hle : (m <= t - Z.of_nat k)%Z).
      { destruct (zmin_list_le (map date (s :: mine)) (date s)) as [_ Hm]. apply Hm.
        change (t - Z.of_nat k)%Z with (date (SDate b (t - Z.of_nat k))). apply in_map. exact Hin. }
      subst n. lia. }
    (* split the sum at n *)
    rewrite Rplus_0_l.
    assert (Hsum : derivable_pt_lim
       (fun y => sum_f_R0 (fun k => (evr env df) ^ k * evr (later (Z.of_nat k) (with_value env (SDate b t) y)) L) n)
       (env (SDate b t)) (sum_f_R0 (fun k => evr env (diff (SDate b t) (q L df k))) n)).
    { apply (derivable_sum (fun k y => (evr env df) ^ k * evr (later (Z.of_nat k) (with_value env (SDate b t) y)) L)).
      intros k Hk. destruct (term_derivative env L df k (SDate b t) Hdf Hd) as [Hder|Hno].
      - intros j Hj. apply HLd. lia.
      - exact Hder.
      - exfalso. apply Hno. eauto. }
    destruct (Nat.eq_dec n H) as [<-|Hne].
    + exact Hsum.
    + set (rest := fun k => (evr env df) ^ (S n + k) * evr (later (Z.of_nat (S n + k)) env) L).
      eapply (derivable_pt_lim_ext (fun y =>
         sum_f_R0 (fun k => (evr env df) ^ k * evr (later (Z.of_nat k) (with_value env (SDate b t) y)) L) n
         + sum_f_R0 rest (H - S n))).
      * intro y. unfold discounted_sum. rewrite (tech2 _ n H) by lia. f_equal. apply sum_eq. intros k _.
        unfold rest. f_equal. symmetry. apply not_in_later. apply Hzero. lia.
      * replace (sum_f_R0 (fun k => evr env (diff (SDate b t) (q L df k))) n)
          with (sum_f_R0 (fun k => evr env (diff (SDate b t) (q L df k))) n + 0) by ring.
        apply (derivable_pt_lim_plus
          (fun y => sum_f_R0 (fun k => (evr env df) ^ k * evr (later (Z.of_nat k) (with_value env (SDate b t) y)) L) n)
          (fun _ => sum_f_R0 rest (H - S n))); [exact Hsum|apply derivable_pt_lim_const].
Qed.
Local Close Scope R_scope.

Lemma dtt_ss_fails (L df : sx) (b : chars) (t : Z) :
  ~ no_ss L -> (exists t', In (SDate b t') (atoms L)) -> diff_through_time ord L b t df = Err TypeError.
Proof.
  intros HL (t' & Hin). unfold diff_through_time. cbv zeta.
  destruct (filter (same_base b) (atoms L)) as [|s mine] eqn:Em.
  - exfalso. assert (Hf : In (SDate b t') (filter (same_base b) (atoms L))).
    { apply filter_In. split; [exact Hin|]. cbn. apply chars_eqb_refl. }
    rewrite Em in Hf. exact Hf.
  - destruct (existsb is_ss (s :: mine)); [reflexivity|].
    cbn [dtt_loop]. rewrite (proj2 (forward_spec ord Hord L) HL). reflexivity.
Qed.
End D.

(* expand_definition *)
Section E.
Variable ord : set_order.
Hypothesis Hord : set_order_ok ord.
Lemma iter_forward n : forall e, no_ss e -> iter_step (step_equation_forward ord) n e = Ok (shift (Z.of_nat n) e).
Proof.
  induction n as [|n IH]; intros e He; cbn [iter_step]; [now rewrite shift_0|].
  rewrite (proj1 (forward_spec ord Hord e) He). cbn [bind]. rewrite IH by (now apply shift_no_ss).
  rewrite shift_shift. do 2 f_equal. lia.
Qed.
Lemma iter_backward n : forall e, no_ss e -> iter_step (step_equation_backward ord) n e = Ok (shift (- Z.of_nat n) e).
Proof.
  induction n as [|n IH]; intros e He; cbn [iter_step]; [now rewrite shift_0|].
  rewrite (proj1 (backward_spec ord Hord e) He). cbn [bind]. rewrite IH by (now apply shift_no_ss).
  rewrite shift_shift. do 2 f_equal. lia.
Qed.
Lemma expand_definition_spec b t0 rhs : no_ss rhs ->
  expand_definition ord b t0 rhs =
  Ok (map (fun t => (Sy (SDate b t), shift (t - t0) rhs)) [-1; 0; 1]%Z).
Proof.
  intro Hr. unfold expand_definition. cbv zeta.
  assert (One : forall target,
     (l <- iter_step (if Z.ltb 0 (target - t0) then step_equation_forward ord else step_equation_backward ord)
             (Z.to_nat (Z.abs (target - t0))) (Sy (SDate b t0)) ;;
      r <- iter_step (if Z.ltb 0 (target - t0) then step_equation_forward ord else step_equation_backward ord)
             (Z.to_nat (Z.abs (target - t0))) rhs ;; Ok (l, r))
     = Ok (Sy (SDate b target), shift (target - t0) rhs)).
  { intro target. assert (Hl : no_ss (Sy (SDate b t0))) by (intros b' [E|[]]; discriminate).
    destruct (Z.ltb_spec 0 (target - t0)) as [H|H].
    - rewrite !iter_forward by assumption. cbn [bind shift smap]. do 3 f_equal; [f_equal|f_equal]; lia.
    - rewrite !iter_backward by assumption. cbn [bind shift smap]. do 3 f_equal; [f_equal|f_equal]; lia. }
  rewrite !One. reflexivity.
Qed.
End E.
