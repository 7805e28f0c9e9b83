(* Trust-region solvers. *)
From Verif Require Import Common SR_Model SR_Spec SR_Proofs SR_Props SR_Search_Props SR_Trust_Proofs.
From Coq Require Import Reals Lra Psatz.
Local Open Scope R_scope.

Lemma good_parts f s : good f s -> s_res s = residual f (s_x s) /\ s_jac s = jacobian f (s_x s).
Proof. unfold good, residual, jacobian. intro H. rewrite <- H. auto. Qed.
Lemma predicted_reduction n f x p : predicted n (jacobian f x) (tmv n (jacobian f x) (residual f x)) p = objective n f x - linear_model n f x p.
Proof.
  rewrite predicted_model, model_residual. unfold objective, linear_model.
  change (rsum n (fun i => (residual f x i + rsum n (fun j => jacobian f x i j * p j)) * (residual f x i + rsum n (fun j => jacobian f x i j * p j)))) with (dot n (vadd (residual f x) (mv n (jacobian f x) p)) (vadd (residual f x) (mv n (jacobian f x) p))).
  change (rsum n (fun i => residual f x i * residual f x i)) with (dot n (residual f x) (residual f x)). ring.
Qed.
Lemma within_norm n p d : 0 <= d -> norm n p <= d -> within n p d.
Proof. intros Hd H. now apply norm_le_iff. Qed.
Lemma pow_range s k : 0 < s <= 1 -> 0 < s ^ k <= 1.
Proof. intro Hs. split; [apply pow_lt; lra|]. induction k as [|k IH]; cbn; [lra|]. assert (0 < s ^ k) by (apply pow_lt; lra). nra. Qed.
(* what every rejected trial looked like *)
Lemma tr_loop_fail n f o sub s : good f s -> measured n f s -> 0 <= tr_eta o -> forall fuel delta rejects nfev delta' s' i,
  tr_loop n f o sub s fuel delta rejects nfev = Some (delta', s', i) -> i_accepted i = false ->
  forall k, (k < Nat.max 1 (max_reject o - rejects))%nat -> poor_step n f (tr_eta o) (s_x s) (sub (s_jac s) (s_res s) (tmv n (s_jac s) (s_res s)) (delta * shrink o ^ k)).
Proof.
  intros Hg Hm He. destruct (good_parts f s Hg) as [ER EJ]. induction fuel as [|fuel IH]; intros delta rejects nfev delta' s' i H Ha; [discriminate|]. cbn [tr_loop] in H.
  set (g := tmv n (s_jac s) (s_res s)) in *. set (p := sub (s_jac s) (s_res s) g delta) in *.
  destruct (f (vadd (s_x s) p)) as [rt Jt] eqn:Ef. assert (Et : merit n rt = objective n f (vadd (s_x s) p)) by (unfold objective, residual; rewrite Ef; reflexivity).
  assert (Hpred : predicted n (s_jac s) g p = objective n f (s_x s) - linear_model n f (s_x s) p) by (unfold g; rewrite ER, EJ; apply predicted_reduction).
  assert (Hrec : poor_step n f (tr_eta o) (s_x s) p ->
    (if Nat.leb (max_reject o) (S rejects) then Some (delta * shrink o, s, Info false vzero (S nfev)) else tr_loop n f o sub s fuel (delta * shrink o) (S rejects) (S nfev)) = Some (delta', s', i) ->
    forall k, (k < Nat.max 1 (max_reject o - rejects))%nat -> poor_step n f (tr_eta o) (s_x s) (sub (s_jac s) (s_res s) g (delta * shrink o ^ k))).
  { intros Hp HH k Hk. destruct k as [|k]; [cbn [pow]; rewrite Rmult_1_r; exact Hp|].
    destruct (Nat.leb_spec (max_reject o) (S rejects)) as [Hl|Hl]; [lia|]. cbn [pow]. rewrite <- Rmult_assoc.
    apply (IH _ _ _ _ _ _ HH Ha). lia. }
  destruct (rleb_spec (predicted n (s_jac s) g p) 0) as [Hp|Hp]; [apply Hrec; [left; lra|exact H]|].
  destruct (rltb_spec (tr_eta o) ((s_phi s - merit n rt) / predicted n (s_jac s) g p)) as [Hr|Hr].
  - injection H as _ _ <-. discriminate.
  - apply Hrec; [|exact H]. right. rewrite <- Hpred, <- Et, <- Hm.
    apply (Rmult_le_compat_r (predicted n (s_jac s) g p)) in Hr; [|lra]. unfold Rdiv in Hr. rewrite Rmult_assoc, Rinv_l in Hr by lra. lra.
Qed.

(* ---- C85 ---- *)
Definition sensible (o : tr_options) : Prop := 0 < delta0 o /\ 0 < delta_max o /\ 0 < shrink o <= 1 /\ 0 < grow o /\ 0 <= tr_eta o.
(* the trial step of a trust-region solver at x with radius d *)
Definition trial_step n f v (x : vec) (d : R) : option vec :=
  let g := tmv n (jacobian f x) (residual f x) in
  match v with
  | Dogleg _ lin => Some (dogleg_step n lin (jacobian f x) (residual f x) g d)
  | Gauss_newton _ => Some (steihaug n (jacobian f x) g d)
  | _ => None
  end.
Definition options_of (v : solver) : option tr_options := match v with Dogleg o _ | Gauss_newton o => Some o | _ => None end.
Lemma trust_facts n f v o m s m' s' i : options_of v = Some o -> sensible o -> good f s -> measured n f s ->
  0 < m_scalar m <= Rmax (delta0 o) (delta_max o) -> step n f v m s = Ok (Stepped m' s' i) ->
  0 < m_scalar m' <= Rmax (delta0 o) (delta_max o) /\
  (i_accepted i = true -> trust_step n f (tr_eta o) (Rmax (delta0 o) (delta_max o)) (s_x s) (s_x s')) /\
  (i_accepted i = false -> exists d, 0 < d <= Rmax (delta0 o) (delta_max o) /\ forall k p, (k < Nat.max 1 (max_reject o))%nat ->
     trial_step n f v (s_x s) (d * shrink o ^ k) = Some p -> poor_step n f (tr_eta o) (s_x s) p).
Proof.
  intros Hv (S1 & S2 & S3 & S4 & S5) Hg Hm Hd H. destruct (good_parts f s Hg) as [ER EJ].
  assert (Hgen : forall sub, (forall d, 0 < d -> norm n (sub (s_jac s) (s_res s) (tmv n (s_jac s) (s_res s)) d) <= d) ->
     (forall d, trial_step n f v (s_x s) d = Some (sub (s_jac s) (s_res s) (tmv n (s_jac s) (s_res s)) d)) ->
     of_loop m (tr_step n f o sub (m_scalar m) s) = Stepped m' s' i ->
     0 < m_scalar m' <= Rmax (delta0 o) (delta_max o) /\
     (i_accepted i = true -> trust_step n f (tr_eta o) (Rmax (delta0 o) (delta_max o)) (s_x s) (s_x s')) /\
     (i_accepted i = false -> exists d, 0 < d <= Rmax (delta0 o) (delta_max o) /\ forall k p, (k < Nat.max 1 (max_reject o))%nat ->
       trial_step n f v (s_x s) (d * shrink o ^ k) = Some p -> poor_step n f (tr_eta o) (s_x s) p)).
  { intros sub Hsub Htr HS. destruct (tr_loop_spec n f o sub s (S (max_reject o)) (m_scalar m) 0 0) as (d' & s2 & i2 & E & A1 & A2 & k & A3 & A4 & A5); [lia|lia|].
    unfold tr_step in HS. rewrite E in HS. cbn [of_loop] in HS. injection HS as <- <- <-. cbn [m_scalar].
    pose proof (pow_range (shrink o) k S3) as Hk. set (d := m_scalar m * shrink o ^ k) in *. assert (Hdk : 0 < d <= Rmax (delta0 o) (delta_max o)) by (unfold d; split; nra).
    split; [|split].
    - destruct (i_accepted i2).
      + destruct (A5 eq_refl) as (_ & _ & _ & _ & _ & _ & _ & _ & [-> | ->]); [lra|]. pose proof (Rmax_r (delta0 o) (delta_max o)). pose proof (Rmin_r (grow o * d) (delta_max o)).
        split; [apply Rmin_glb_lt; [nra|lra]|lra].
      + rewrite (A4 eq_refl). split; nra.
    - intro Ha. destruct (A5 Ha) as (B1 & B2 & B3 & B4 & B5 & B6 & B7 & B8 & B9).
      exists (sub (s_jac s) (s_res s) (tmv n (s_jac s) (s_res s)) d), d. split; [assumption|]. split; [assumption|]. split; [apply within_norm; [lra|]; apply Hsub; lra|].
      rewrite <- predicted_reduction, <- ER, <- EJ. split; [assumption|]. rewrite <- B4, <- Hm. assumption.
    - intro Ha. exists (m_scalar m). split; [assumption|]. intros k0 p Hk0 Hp. rewrite Htr in Hp. injection Hp as <-.
      eapply (tr_loop_fail n f o sub s Hg Hm S5 _ _ 0%nat _ _ _ _ E Ha). lia. }
  destruct v as [d g|o' lin|o'|o' lin]; cbn [options_of] in Hv; try discriminate; injection Hv as ->; cbn [step] in H; injection H as H.
  - apply (Hgen (dogleg_sub n lin)); [|intro; cbn [trial_step]; rewrite <- ER, <- EJ; reflexivity|exact H]. intros d Hdp. apply (dogleg_spec n (s_jac s) (s_res s) lin d Hdp).
  - apply (Hgen (gauss_newton_sub n)); [|intro; cbn [trial_step]; rewrite <- ER, <- EJ; reflexivity|exact H]. intros d Hdp. apply (steihaug_spec n (s_jac s) (s_res s) d Hdp).
Qed.
Theorem C85_trust_region : forall n f v o m x0 f_tol x_tol maxiter out m' calls, options_of v = Some o -> sensible o ->
  sparse_root n f v m x0 f_tol x_tol maxiter = Ok (Finished out m' calls) ->
  path (trust_step n f (tr_eta o) (Rmax (delta0 o) (delta_max o))) x0 (o_nit out) (o_x out) /\
  (* it gives up before the limit only where every radius it tried gave a poor step *)
  (o_success out = false -> o_nit out = maxiter \/
     exists d, 0 < d <= Rmax (delta0 o) (delta_max o) /\ forall k p, (k < Nat.max 1 (max_reject o))%nat -> trial_step n f v (o_x out) (d * shrink o ^ k) = Some p -> poor_step n f (tr_eta o) (o_x out) p).
Proof.
  intros n f v o m x0 f_tol x_tol maxiter out m' calls Hv Ho H.
  eapply (sparse_root_spec n f v (fun m _ => 0 < m_scalar m <= Rmax (delta0 o) (delta_max o)) (trust_step n f (tr_eta o) (Rmax (delta0 o) (delta_max o)))
    (fun x => exists d, 0 < d <= Rmax (delta0 o) (delta_max o) /\ forall k p, (k < Nat.max 1 (max_reject o))%nat -> trial_step n f v x (d * shrink o ^ k) = Some p -> poor_step n f (tr_eta o) x p)) in H.
  - destruct H as (o' & m'' & c & s' & E & _ & _ & B2 & _ & _ & _ & B6 & _). injection E as <- <- <-. split; [assumption|]. intro Hs. now destruct (B6 Hs).
  - destruct Ho as (S1 & S2 & _). destruct v; cbn [options_of] in Hv; try discriminate; injection Hv as ->; cbn [init m_scalar]; (split; [assumption|apply Rmax_l]).
  - intros m1 s m2 s2 i HI Hg Hm HS. apply (trust_facts n f v o m1 s m2 s2 i Hv Ho Hg); [|assumption|assumption]. apply Hm. destruct v; [discriminate|exact I|exact I|exact I].
Qed.
(* the objective falls at every iteration *)
Lemma trust_decreases n f eta D x k y : 0 <= eta -> path (trust_step n f eta D) x k y -> (k = 0%nat /\ y = x) \/ objective n f y < objective n f x.
Proof.
  intros He H. induction H as [x|x k y z Hp IH (p & d & _ & _ & _ & H1 & H2)]; [left; auto|]. right.
  assert (objective n f z < objective n f y) by nra. destruct IH as [[_ ->]|IH]; lra.
Qed.
Theorem C85_objective_falls : forall n f v o m x0 f_tol x_tol maxiter out m' calls, options_of v = Some o -> sensible o ->
  sparse_root n f v m x0 f_tol x_tol maxiter = Ok (Finished out m' calls) -> o_x out = x0 \/ objective n f (o_x out) < objective n f x0.
Proof.
  intros n f v o m x0 f_tol x_tol maxiter out m' calls Hv Ho H. destruct (C85_trust_region _ _ _ _ _ _ _ _ _ _ _ _ Hv Ho H) as [HP _].
  destruct Ho as (_ & _ & _ & _ & He). destruct (trust_decreases _ _ _ _ _ _ _ He HP) as [[_ ->]|Hlt]; auto.
Qed.
(* Levenberg-Marquardt *)
Definition sensible_lm (o : lm_options) : Prop := 0 < min_lam o /\ min_lam o <= lam0 o <= max_lam o /\ 1 <= lam_up o /\ lam_down o <= 1.
Lemma lm_predicted n f x p l : - (dot n (tmv n (jacobian f x) (residual f x)) p + / 2 * (dot n (mv n (jacobian f x) p) (mv n (jacobian f x) p) + l * dot n (scaling n (jacobian f x)) (fun i => p i * p i)))
  = objective n f x - (linear_model n f x p + damping n f x p l).
Proof.
  pose proof (predicted_reduction n f x p) as H. unfold predicted in H. unfold damping.
  change (rsum n (fun i => column_weight n f x i * (p i * p i))) with (dot n (scaling n (jacobian f x)) (fun i => p i * p i)). lra.
Qed.
Theorem C85_levenberg_marquardt : forall n f o lin m x0 f_tol x_tol maxiter out m' calls, sensible_lm o ->
  sparse_root n f (Levenberg_marquardt o lin) m x0 f_tol x_tol maxiter = Ok (Finished out m' calls) ->
  path (damped_step n f (lm_eta o) (min_lam o) (max_lam o)) x0 (o_nit out) (o_x out).
Proof.
  intros n f o lin m x0 f_tol x_tol maxiter out m' calls (S0 & S1 & S2 & S3) H.
  eapply (sparse_root_spec n f _ (fun m _ => min_lam o <= m_scalar m <= max_lam o) (damped_step n f (lm_eta o) (min_lam o) (max_lam o)) (fun _ => True)) in H.
  - destruct H as (o' & m'' & c & s' & E & _ & _ & B2 & _). now injection E as <- <- <-.
  - cbn [init m_scalar]. exact S1.
  - intros m1 s m2 s2 i HI Hg Hm HS. cbn [merit_ok] in Hm. specialize (Hm I). destruct (good_parts f s Hg) as [ER EJ]. cbn [step] in HS.
    destruct (lm_loop_spec n f o lin s (S (lm_max_reject o)) (m_scalar m1) 0 0) as (l' & s' & i' & E & A1 & A2 & A3 & A4); [lia|lia|].
    unfold lm_step in HS. rewrite E in HS. cbn [of_loop] in HS. injection HS as <- <- <-. cbn [m_scalar]. split; [apply A3; lra|]. split; [|trivial].
    intro Ha. destruct (A4 Ha) as (l & B1 & B2 & B3 & B4 & B5 & B6 & B7 & pred & B8 & B9 & B10).
    rewrite ER, EJ, lm_predicted in B8. exists (i_step i'), l. split; [assumption|]. split; [destruct B2; lra|]. rewrite <- B8. split; [assumption|]. rewrite <- B5, <- Hm. assumption.
Qed.
Theorem C85_lm_objective_falls : forall n f o lin m x0 f_tol x_tol maxiter out m' calls, sensible_lm o -> 0 <= lm_eta o ->
  sparse_root n f (Levenberg_marquardt o lin) m x0 f_tol x_tol maxiter = Ok (Finished out m' calls) -> o_x out = x0 \/ objective n f (o_x out) < objective n f x0.
Proof.
  intros n f o lin m x0 f_tol x_tol maxiter out m' calls Ho He H. pose proof (C85_levenberg_marquardt _ _ _ _ _ _ _ _ _ _ _ _ Ho H) as HP.
  assert (Hgen : forall x k y, path (damped_step n f (lm_eta o) (min_lam o) (max_lam o)) x k y -> y = x \/ objective n f y < objective n f x).
  { intros x k y Hp. induction Hp as [x|x k y z Hp IH (p & l & _ & _ & H1 & H2)]; [now left|]. right.
    assert (objective n f z < objective n f y) by nra. destruct IH as [-> | IH]; lra. }
  exact (Hgen _ _ _ HP).
Qed.

(* ---- C86: trial steps ---- *)
Definition gradient n f (x : vec) : vec := fun j => rsum n (fun i => jacobian f x i j * residual f x i).
Definition length_sq n (v : vec) : R := rsum n (fun i => v i * v i).
(* the dogleg step stays inside, and promises a reduction unless the curvature along the gradient is below 1e-30 *)
Theorem C86_dogleg : forall n f o lin x d p, 0 < d -> trial_step n f (Dogleg o lin) x d = Some p ->
  within n p d /\
  (/ 10 ^ 30 <= length_sq n (fun i => rsum n (fun j => jacobian f x i j * gradient n f x j)) ->
   (forall q, lin (jacobian f x) (fun i => - residual f x i) = Some q -> solves n (jacobian f x) (fun i => - residual f x i) q) ->
   linear_model n f x p < objective n f x /\
   (* the Newton step is taken when it fits *)
   forall q, lin (jacobian f x) (fun i => - residual f x i) = Some q -> within n q d -> p = q).
Proof.
  intros n f o lin x d p Hd H. cbn [trial_step] in H. injection H as <-. set (J := jacobian f x). set (r := residual f x).
  destruct (dogleg_spec n J r lin d Hd) as [D1 D2]. split; [apply within_norm; [lra|exact D1]|]. intros Hc Hsol. split.
  - specialize (D2 Hc Hsol). pose proof (predicted_reduction n f x (dogleg_step n lin J r (tmv n J r) d)) as E. rewrite predicted_model in E. fold J r in E. lra.
  - intros q Hq Hw. unfold dogleg_step. fold J r. destruct (rltb_spec (dot n (mv n J (tmv n J r)) (mv n J (tmv n J r))) tiny) as [C|_].
    { exfalso. change (/ 10 ^ 30 <= dot n (mv n J (tmv n J r)) (mv n J (tmv n J r))) in Hc. unfold tiny in C. lra. }
    change (vneg r) with (fun i => - r i). fold J r in Hq. rewrite Hq. destruct (rleb_spec (norm n q) d) as [_|C]; [reflexivity|].
    exfalso. pose proof (norm_le_iff n q d ltac:(lra)) as [_ Hi]. specialize (Hi Hw). lra.
Qed.
Theorem C86_gauss_newton : forall n f o x d p, 0 < d -> trial_step n f (Gauss_newton o) x d = Some p ->
  within n p d /\ (/ 10 ^ 15 * / 10 ^ 15 <= length_sq n (gradient n f x) -> linear_model n f x p < objective n f x).
Proof.
  intros n f o x d p Hd H. cbn [trial_step] in H. injection H as <-. set (J := jacobian f x). set (r := residual f x).
  destruct (steihaug_spec n J r d Hd) as (D1 & D2 & D3). split; [apply within_norm; [lra|exact D1]|]. intro Hc.
  assert (Hn : / 10 ^ 15 <= norm n (tmv n J r)).
  { pose proof (norm_sq n (tmv n J r)) as E. pose proof (norm_pos n (tmv n J r)). change (length_sq n (gradient n f x)) with (dot n (tmv n J r) (tmv n J r)) in Hc.
    assert (0 < / 10 ^ 15) by (apply Rinv_0_lt_compat, pow_lt; lra). nra. }
  specialize (D3 Hn). pose proof (predicted_reduction n f x (steihaug n J (tmv n J r) d)) as E. rewrite predicted_model in E. fold J r in E. lra.
Qed.
(* so, away from stationary points, a Gauss-Newton solver that gives up early does so because the actual objective did not fall enough *)
Theorem C86_why_it_stops : forall n f o m x0 f_tol x_tol maxiter out m' calls, sensible o ->
  sparse_root n f (Gauss_newton o) m x0 f_tol x_tol maxiter = Ok (Finished out m' calls) -> o_success out = false -> (o_nit out < maxiter)%nat ->
  / 10 ^ 15 * / 10 ^ 15 <= length_sq n (gradient n f (o_x out)) ->
  exists d, 0 < d /\ forall k, (k < Nat.max 1 (max_reject o))%nat -> exists p, within n p (d * shrink o ^ k) /\
    0 < objective n f (o_x out) - linear_model n f (o_x out) p /\
    objective n f (o_x out) - objective n f (vadd (o_x out) p) <= tr_eta o * (objective n f (o_x out) - linear_model n f (o_x out) p).
Proof.
  intros n f o m x0 f_tol x_tol maxiter out m' calls Ho H Hs Hlt Hg.
  destruct (C85_trust_region n f (Gauss_newton o) o m x0 f_tol x_tol maxiter out m' calls eq_refl Ho H) as [_ HF]. destruct (HF Hs) as [C|(d & Hd & Hk)]; [lia|].
  exists d. split; [lra|]. intros k Hlk. destruct Ho as (_ & _ & S3 & _). pose proof (pow_range (shrink o) k S3).
  assert (Hdk : 0 < d * shrink o ^ k) by nra. destruct (C86_gauss_newton n f o (o_x out) (d * shrink o ^ k) _ Hdk eq_refl) as [W1 W2]. specialize (W2 Hg).
  eexists. split; [exact W1|]. split; [lra|]. destruct (Hk k _ Hlk eq_refl) as [C|C]; [lra|exact C].
Qed.
(* below the curvature threshold the dogleg takes the whole radius along the gradient, though the Newton step would fit and the model rises:
   residual 9e-10, Jacobian 1e-3, radius 1 *)
Theorem C86_flat_refuted : ~ forall n f o lin x d p, 0 < d -> trial_step n f (Dogleg o lin) x d = Some p ->
  (forall q, lin (jacobian f x) (fun i => - residual f x i) = Some q -> solves n (jacobian f x) (fun i => - residual f x i) q) ->
  (exists i, (i < n)%nat /\ gradient n f x i <> 0) -> linear_model n f x p < objective n f x.
Proof.
  intro H. set (r := 9 * / 10 ^ 10). set (j := / 10 ^ 3). set (f := scalar (fun _ => r) (fun _ => j)). set (x := fun _ : nat => 0).
  assert (EJ : jacobian f x = fun _ _ => j) by reflexivity. assert (ER : residual f x = fun _ => r) by reflexivity.
  assert (Eg : forall i, gradient 1 f x i = j * r) by (intro i; unfold gradient; rewrite EJ, ER; cbn; ring).
  assert (Hj : 0 < j) by (unfold j; apply Rinv_0_lt_compat, pow_lt; lra). assert (Hr : 0 < r) by (unfold r; assert (0 < / 10 ^ 10) by (apply Rinv_0_lt_compat, pow_lt; lra); lra).
  pose proof (H 1%nat f (TR 1 100 (/ 10) (/ 4) 2 50) divide x 1 _ ltac:(lra) eq_refl) as C.
  assert (C1 : forall q, divide (jacobian f x) (fun i => - residual f x i) = Some q -> solves 1 (jacobian f x) (fun i => - residual f x i) q) by (intros q Hq; now apply divide_exact).
  assert (C2 : exists i, (i < 1)%nat /\ gradient 1 f x i <> 0) by (exists 0%nat; split; [lia|rewrite Eg; nra]). specialize (C C1 C2). clear C1 C2.
  set (g := tmv 1 (jacobian f x) (residual f x)) in C.
  assert (Gg : forall i, g i = j * r) by (intro i; unfold g, tmv; rewrite EJ, ER; cbn; ring).
  assert (Gn : norm 1 g = j * r). { unfold norm, dot. cbn [rsum]. rewrite Gg. replace (0 + j * r * (j * r)) with ((j * r) * (j * r)) by ring. apply sqrt_square. nra. }
  assert (Gq : dot 1 (mv 1 (jacobian f x) g) (mv 1 (jacobian f x) g) = (j * (j * r)) * (j * (j * r))) by (unfold dot, mv; rewrite EJ; cbn [rsum]; rewrite Gg; ring).
  unfold dogleg_step in C. rewrite Gq, Gn in C.
  assert (Ht : (j * (j * r)) * (j * (j * r)) < tiny).
  { unfold j, r, tiny. rewrite !Rinv_pow by lra. set (a := / 10). assert (a * 10 = 1) by (unfold a; lra). replace (a ^ 3 * (a ^ 3 * (9 * a ^ 10)) * (a ^ 3 * (a ^ 3 * (9 * a ^ 10)))) with (81 * a ^ 2 * a ^ 30) by ring.
    assert (0 < a ^ 30) by (apply pow_lt; unfold a; lra). assert (81 * a ^ 2 < 1) by (unfold a; lra). nra. }
  destruct (rltb_spec ((j * (j * r)) * (j * (j * r))) tiny) as [_|C0]; [|lra].
  assert (Ht2 : tiny <= j * r).
  { unfold j, r, tiny. rewrite !Rinv_pow by lra. set (a := / 10). replace (a ^ 3 * (9 * a ^ 10)) with (9 * a ^ 13) by ring. replace (a ^ 30) with (a ^ 17 * a ^ 13) by ring.
    assert (0 < a ^ 13) by (apply pow_lt; unfold a; lra). assert (a ^ 17 <= 9) by (apply Rle_trans with (1 ^ 17); [apply pow_incr; unfold a; lra|lra]). nra. }
  destruct (rltb_spec (j * r) tiny) as [C0|_]; [lra|].
  unfold linear_model, objective in C. rewrite EJ, ER in C. cbn [rsum] in C. unfold vscale in C. rewrite Gg in C.
  replace (- (1 / (j * r)) * (j * r)) with (-1) in C by (field; split; lra).
  assert (r < / 2 * j).
  { unfold r, j. rewrite !Rinv_pow by lra. set (a := / 10). replace (a ^ 10) with (a ^ 7 * a ^ 3) by ring. assert (0 < a ^ 3) by (apply pow_lt; unfold a; lra).
    assert (a ^ 7 < / 18) by (unfold a; lra). nra. }
  nra.
Qed.
(* Levenberg-Marquardt: the promised reduction is half the damped quadratic form, so it is positive unless the step is zero *)
Theorem C86_levenberg_marquardt : forall n f x p lam, 0 < lam ->
  solves n (fun i j => rsum n (fun k => jacobian f x k i * jacobian f x k j) + (if Nat.eqb i j then lam * column_weight n f x i else 0)) (fun i => - gradient n f x i) p ->
  let pred := objective n f x - (linear_model n f x p + damping n f x p lam) in
  pred = / 2 * (length_sq n (fun i => rsum n (fun j => jacobian f x i j * p j)) + lam * rsum n (fun i => column_weight n f x i * (p i * p i))) /\
  ((exists i, (i < n)%nat /\ gradient n f x i <> 0) -> 0 < pred).
Proof.
  intros n f x p lam Hl Hsol. cbv zeta. set (J := jacobian f x) in *. set (r := residual f x) in *. set (W := rsum n (fun i => column_weight n f x i * (p i * p i))).
  assert (Hdiag : forall i, (i < n)%nat -> rsum n (fun j => (if Nat.eqb i j then lam * column_weight n f x i else 0) * p j) = lam * column_weight n f x i * p i).
  { intros i Hi. assert (Hk : forall k, rsum k (fun j => (if Nat.eqb i j then lam * column_weight n f x i else 0) * p j) = if Nat.ltb i k then lam * column_weight n f x i * p i else 0).
    { induction k as [|k IHk]; [reflexivity|]. cbn [rsum]. rewrite IHk. destruct (Nat.eqb_spec i k) as [E|N]; destruct (Nat.ltb_spec i k); destruct (Nat.ltb_spec i (S k)); try lia; try rewrite <- E; ring. }
    rewrite Hk. destruct (Nat.ltb_spec i n); [reflexivity|lia]. }
  assert (Hrow : forall i, (i < n)%nat -> tmv n J (mv n J p) i + lam * column_weight n f x i * p i = - gradient n f x i).
  { intros i Hi. rewrite <- (Hsol i Hi), <- (Hdiag i Hi). unfold tmv, mv.
    rewrite (rsum_ext n (fun j => (rsum n (fun k => J k i * J k j) + _) * p j) (fun j => rsum n (fun k => J k i * J k j * p j) + (if Nat.eqb i j then lam * column_weight n f x i else 0) * p j)).
    - rewrite rsum_add. f_equal. rewrite rsum_swap. apply rsum_ext. intros k _. rewrite <- rsum_scale. apply rsum_ext. intros. ring.
    - intros j _. rewrite Rmult_plus_distr_r. f_equal. rewrite Rmult_comm, <- rsum_scale. apply rsum_ext. intros. ring. }
  assert (Hg : dot n (tmv n J r) p = - (dot n (mv n J p) (mv n J p) + lam * W)).
  { change (tmv n J r) with (gradient n f x). rewrite (dot_ext n (gradient n f x) p (fun i => -1 * (tmv n J (mv n J p) i + lam * column_weight n f x i * p i)) p); [|intros i Hi; rewrite (Hrow i Hi); ring|reflexivity].
    unfold dot at 1. rewrite (rsum_ext n _ (fun i => -1 * (tmv n J (mv n J p) i * p i + lam * (column_weight n f x i * (p i * p i))))) by (intros; ring).
    rewrite rsum_scale, rsum_add, rsum_scale. change (rsum n (fun i => tmv n J (mv n J p) i * p i)) with (dot n (tmv n J (mv n J p)) p). rewrite adjoint. fold W. ring. }
  assert (HE : objective n f x - (linear_model n f x p + damping n f x p lam) = / 2 * (dot n (mv n J p) (mv n J p) + lam * W)).
  { rewrite <- lm_predicted. fold J r. rewrite Hg. change (dot n (scaling n J) (fun i => p i * p i)) with W. field. }
  split; [exact HE|]. intros (i & Hi & Hgi). rewrite HE. pose proof (dot_pos n (mv n J p)) as Hq.
  assert (Hw1 : forall k, 1 <= column_weight n f x k) by (intro; apply Rmax_l).
  assert (HW : 0 <= W) by (apply rsum_nonneg; intros k _; specialize (Hw1 k); nra).
  destruct (Req_dec W 0) as [E|N]; [exfalso|nra].
  assert (Hp0 : forall k, (k < n)%nat -> p k = 0).
  { intros k Hk. pose proof (rsum_zero n _ E (fun k _ => ltac:(specialize (Hw1 k); nra)) k Hk) as Hz. cbn beta in Hz. specialize (Hw1 k). nra. }
  apply Hgi. specialize (Hrow i Hi). rewrite (Hp0 i Hi) in Hrow. assert (Ez : tmv n J (mv n J p) i = 0).
  { unfold tmv. rewrite (rsum_ext n _ (fun k => 0 * J k i)); [rewrite rsum_scale; ring|]. intros k _. unfold mv. rewrite (rsum_ext n _ (fun j => 0 * J k j)) by (intros j Hj; rewrite (Hp0 j Hj); ring). rewrite rsum_scale. ring. }
  lra.
Qed.
(* case: 2 x - 6 = 0 from 0 with radius 10: one dogleg step, the Newton step *)
Theorem C85_case : forall K, let o := TR 10 100 (/ 10) (/ 4) 2 K in sensible o /\
  exists out m' c, sparse_root 1 (scalar (fun x => 2 * x - 6) (fun _ => 2)) (Dogleg o divide) fresh (fun _ => 0) (/ 100) (/ 100) 1 = Ok (Finished out m' c) /\
    o_success out = true /\ o_nit out = 1%nat /\ o_x out 0%nat = 3.
Proof.
  intro K. cbv zeta. set (o := TR 10 100 (/ 10) (/ 4) 2 K). split; [unfold sensible, o; cbn; repeat split; lra|].
  set (f := scalar (fun x => 2 * x - 6) (fun _ => 2)). set (x0 := fun _ : nat => 0). set (q := fun i : nat => - residual f x0 i / 2).
  assert (ER : residual f x0 = fun _ => 2 * 0 - 6) by reflexivity. assert (EJ : jacobian f x0 = fun _ _ => 2) by reflexivity.
  assert (Hlin : divide (jacobian f x0) (fun i => - residual f x0 i) = Some q).
  { unfold divide. destruct (Req_EM_T (jacobian f x0 0%nat 0%nat) 0) as [C|_]; [rewrite EJ in C; lra|]. reflexivity. }
  assert (Eq3 : forall i, q i = 3) by (intro i; unfold q; rewrite ER; field).
  assert (Htr : trial_step 1 f (Dogleg o divide) x0 10 = Some q).
  { destruct (C86_dogleg 1 f o divide x0 10 _ ltac:(lra) eq_refl) as [_ W]. destruct W as [_ W].
    - unfold length_sq, gradient. rewrite ER, EJ. cbn [rsum]. assert (/ 10 ^ 30 <= 1) by (rewrite <- Rinv_1; apply Rinv_le_contravar; [lra|apply pow_R1_Rle; lra]). lra.
    - intros p Hp. now apply divide_exact.
    - cbn [trial_step]. f_equal. apply W; [exact Hlin|]. unfold within. cbn [rsum]. rewrite Eq3. lra. }
  cbn [trial_step] in Htr. injection Htr as Htr.
  unfold sparse_root. cbn [Nat.eqb]. assert (Ema : forall v, maxabs 1 v = Rabs (v 0%nat)) by (intro v; unfold maxabs; cbn; apply Rmax_right, Rabs_pos).
  assert (Est : start 1 f x0 = ST x0 (residual f x0) (jacobian f x0) (objective 1 f x0) 0 1) by reflexivity.
  rewrite Est. cbn [s_res]. rewrite Ema, ER. destruct (rltb_spec (Rabs (2 * 0 - 6)) (/ 100)) as [C|_]; [rewrite Rabs_left in C; lra|]. rewrite <- ER.
  cbn [iterate step init m_scalar delta0 o]. unfold tr_step. cbn [max_reject o tr_loop s_jac s_res s_x]. unfold dogleg_sub. fold o. rewrite Htr.
  unfold f at 1, scalar at 1. assert (EX : vadd x0 q 0%nat = 3) by (unfold vadd, x0; rewrite Eq3; ring). rewrite EX. rewrite predicted_reduction.
  assert (EO : objective 1 f x0 = 18) by (unfold objective; rewrite ER; cbn [rsum]; lra). assert (EM : linear_model 1 f x0 q = 0) by (unfold linear_model; rewrite ER, EJ; cbn [rsum]; rewrite Eq3; lra).
  rewrite EO, EM. cbn [s_phi tr_eta o]. destruct (rleb_spec (18 - 0) 0) as [C|_]; [lra|].
  assert (Emt : merit 1 (fun _ => 2 * 3 - 6) = 0) by (unfold merit, dot; cbn [rsum]; lra). rewrite Emt.
  destruct (rltb_spec (/ 10) ((18 - 0) / (18 - 0))) as [_|C]; [|replace ((18 - 0) / (18 - 0)) with 1 in C by field; lra].
  cbn [bind of_loop i_accepted negb i_step i_calls]. unfold converged. cbn [s_res advance]. rewrite Ema.
  destruct (rltb_spec (Rabs (2 * 3 - 6)) (/ 100)) as [_|C]; [|rewrite Rabs_right in C; lra]. cbn [orb].
  eexists _, _, _. split; [reflexivity|]. split; [reflexivity|]. split; [reflexivity|]. exact EX.
Qed.
