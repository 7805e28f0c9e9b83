(* Vectors, one step of each solver, the outer loop. *)
From Verif Require Import Common SR_Model SR_Spec.
From Coq Require Import Reals Lra Psatz.
Local Open Scope R_scope.

Lemma rsum_ext n f g : (forall i, (i < n)%nat -> f i = g i) -> rsum n f = rsum n g.
Proof. induction n as [|n IH]; intro H; cbn; [reflexivity|]. rewrite IH by (intros; apply H; lia). now rewrite H by lia. Qed.
Lemma rsum_add n f g : rsum n (fun i => f i + g i) = rsum n f + rsum n g.
Proof. induction n as [|n IH]; cbn; [ring|]. rewrite IH. ring. Qed.
Lemma rsum_scale n a f : rsum n (fun i => a * f i) = a * rsum n f.
Proof. induction n as [|n IH]; cbn; [ring|]. rewrite IH. ring. Qed.
Lemma rsum_nonneg n f : (forall i, (i < n)%nat -> 0 <= f i) -> 0 <= rsum n f.
Proof. induction n as [|n IH]; intro H; cbn; [lra|]. pose proof (IH (fun i Hi => H i (Nat.lt_lt_succ_r _ _ Hi))). pose proof (H n (Nat.lt_succ_diag_r n)). lra. Qed.
Lemma rsum_zero n f : rsum n f = 0 -> (forall i, (i < n)%nat -> 0 <= f i) -> forall i, (i < n)%nat -> f i = 0.
Proof.
  induction n as [|n IH]; intros H H0 i Hi; [lia|]. cbn in H.
  assert (H1 : 0 <= rsum n f) by (apply rsum_nonneg; intros; apply H0; lia). pose proof (H0 n (Nat.lt_succ_diag_r n)).
  destruct (Nat.eq_dec i n) as [->|N]; [lra|]. apply IH; [lra|intros; apply H0; lia|lia].
Qed.
Lemma rsum_swap n m (g : nat -> nat -> R) : rsum n (fun i => rsum m (g i)) = rsum m (fun j => rsum n (fun i => g i j)).
Proof.
  induction n as [|n IH]; cbn.
  - induction m as [|m IHm]; cbn; [reflexivity|]. rewrite <- IHm. ring.
  - rewrite IH, <- rsum_add. reflexivity.
Qed.
Section Vec.
Variable n : nat.
Notation "u · v" := (dot n u v) (at level 40).
Lemma dot_ext u v u' v' : (forall i, (i < n)%nat -> u i = u' i) -> (forall i, (i < n)%nat -> v i = v' i) -> u · v = u' · v'.
Proof. intros H H'. apply rsum_ext. intros i Hi. now rewrite H, H'. Qed.
Lemma dot_comm u v : u · v = v · u.
Proof. apply rsum_ext. intros. ring. Qed.
Lemma dot_add u v w : u · vadd v w = u · v + u · w.
Proof. unfold dot. rewrite <- rsum_add. apply rsum_ext. intros. unfold vadd. ring. Qed.
Lemma dot_scale u a v : u · vscale a v = a * (u · v).
Proof. unfold dot. rewrite <- rsum_scale. apply rsum_ext. intros. unfold vscale. ring. Qed.
Lemma dot_neg u v : u · vneg v = - (u · v).
Proof. replace (- (u · v)) with (-1 * (u · v)) by ring. rewrite <- dot_scale. apply dot_ext; [reflexivity|]. intros. unfold vneg, vscale. ring. Qed.
Lemma dot_sub u v w : u · vsub v w = u · v - u · w.
Proof. replace (u · v - u · w) with (u · v + u · vneg w) by (rewrite dot_neg; ring). rewrite <- dot_add. apply dot_ext; [reflexivity|]. intros. unfold vsub, vadd, vneg. ring. Qed.
Lemma dot_zero u : u · vzero = 0.
Proof. replace 0 with (0 * (u · u)) by ring. rewrite <- dot_scale. apply dot_ext; [reflexivity|]. intros. unfold vzero, vscale. ring. Qed.
Lemma dot_add_l u v w : vadd v w · u = v · u + w · u. Proof. rewrite !(dot_comm _ u). apply dot_add. Qed.
Lemma dot_scale_l u a v : vscale a v · u = a * (v · u). Proof. rewrite !(dot_comm _ u). apply dot_scale. Qed.
Lemma dot_neg_l u v : vneg v · u = - (v · u). Proof. rewrite !(dot_comm _ u). apply dot_neg. Qed.
Lemma dot_sub_l u v w : vsub v w · u = v · u - w · u. Proof. rewrite !(dot_comm _ u). apply dot_sub. Qed.
Lemma dot_zero_l u : vzero · u = 0. Proof. rewrite dot_comm. apply dot_zero. Qed.
Lemma dot_pos u : 0 <= u · u.
Proof. apply rsum_nonneg. intros. nra. Qed.
Lemma dot_self_zero u : u · u = 0 -> forall i, (i < n)%nat -> u i = 0.
Proof. intros H i Hi. assert (u i * u i = 0) by (apply (rsum_zero n (fun i => u i * u i) H); [intros; nra|assumption]). nra. Qed.
Lemma dot_self_zero_l u w : u · u = 0 -> u · w = 0.
Proof. intro H. rewrite <- (dot_zero_l w). apply dot_ext; [|reflexivity]. intros. now apply dot_self_zero. Qed.
Lemma adjoint J r p : tmv n J r · p = r · mv n J p.
Proof.
  unfold dot, tmv, mv. transitivity (rsum n (fun i => rsum n (fun k => J k i * r k * p i))).
  - apply rsum_ext. intros i _. rewrite Rmult_comm, <- rsum_scale. apply rsum_ext. intros. ring.
  - rewrite rsum_swap. apply rsum_ext. intros k _. rewrite <- rsum_scale. apply rsum_ext. intros. ring.
Qed.
Lemma mv_add J u v i : mv n J (vadd u v) i = mv n J u i + mv n J v i.
Proof. unfold mv. rewrite <- rsum_add. apply rsum_ext. intros. unfold vadd. ring. Qed.
Lemma mv_scale J a u i : mv n J (vscale a u) i = a * mv n J u i.
Proof. unfold mv. rewrite <- rsum_scale. apply rsum_ext. intros. unfold vscale. ring. Qed.
Lemma mv_neg J u i : mv n J (vneg u) i = - mv n J u i.
Proof. replace (- mv n J u i) with (-1 * mv n J u i) by ring. rewrite <- mv_scale. apply rsum_ext. intros. unfold vneg, vscale. ring. Qed.
Lemma dot_mv_add w J u v : w · mv n J (vadd u v) = w · mv n J u + w · mv n J v.
Proof. rewrite <- dot_add. apply dot_ext; [reflexivity|]. intros. apply mv_add. Qed.
Lemma dot_mv_scale w J a u : w · mv n J (vscale a u) = a * (w · mv n J u).
Proof. rewrite <- dot_scale. apply dot_ext; [reflexivity|]. intros. apply mv_scale. Qed.
Lemma dot_mv_neg w J u : w · mv n J (vneg u) = - (w · mv n J u).
Proof. rewrite <- dot_neg. apply dot_ext; [reflexivity|]. intros. apply mv_neg. Qed.
Lemma norm_sq v : norm n v * norm n v = v · v.
Proof. apply sqrt_sqrt, dot_pos. Qed.
Lemma norm_pos v : 0 <= norm n v.
Proof. apply sqrt_pos. Qed.
Lemma norm_scale a v : norm n (vscale a v) = Rabs a * norm n v.
Proof.
  unfold norm. rewrite dot_scale, dot_scale_l. rewrite <- Rmult_assoc, sqrt_mult_alt by nra. f_equal. apply sqrt_Rsqr_abs.
Qed.
Lemma norm_le_iff v d : 0 <= d -> (norm n v <= d <-> v · v <= d * d).
Proof. intro Hd. pose proof (norm_sq v). pose proof (norm_pos v). split; intro; nra. Qed.
Lemma norm_zero_iff v : norm n v = 0 <-> v · v = 0.
Proof. pose proof (norm_sq v). pose proof (norm_pos v). split; intro H1; [rewrite H1 in *; lra|nra]. Qed.
End Vec.
Lemma rleb_spec a b : BoolSpec (a <= b) (b < a) (rleb a b).
Proof. unfold rleb. destruct (Rle_dec a b); constructor; lra. Qed.
Lemma rltb_spec a b : BoolSpec (a < b) (b <= a) (rltb a b).
Proof. unfold rltb. destruct (Rlt_dec a b); constructor; lra. Qed.

(* ---- one step ---- *)
Section Step.
Variables (n : nat) (f : vec -> vec * mat).
Definition good (s : state) : Prop := (s_res s, s_jac s) = f (s_x s).
Definition measured (s : state) : Prop := s_phi s = objective n f (s_x s).
Lemma objective_merit x : objective n f x = merit n (residual f x).
Proof. reflexivity. Qed.
Lemma start_good x0 : good (start n f x0) /\ measured (start n f x0) /\ s_x (start n f x0) = x0 /\ s_nit (start n f x0) = 0%nat.
Proof. unfold start, good, measured, objective, residual. destruct (f x0) as [r J] eqn:E. cbn. rewrite E. auto. Qed.

Definition test (mf : option (vec -> vec)) (x : vec) : R := match mf with None => objective n f x | Some g => merit n (g x) end.
(* what the line search returns *)
Lemma backtrack_spec c1 beta mf x dx slope ref : forall k alpha ev ls,
  backtrack n f c1 beta mf x dx slope ref k alpha ev = Some ls ->
  exists j, (j < k)%nat /\ f_alpha ls = alpha * beta ^ j /\ f_x ls = vadd x (vscale (alpha * beta ^ j) dx) /\
    (f_res ls, f_jac ls) = f (f_x ls) /\ f_phi ls = test mf (f_x ls) /\
    f_phi ls <= ref + c1 * (alpha * beta ^ j) * slope /\
    (forall i, (i < j)%nat -> ref + c1 * (alpha * beta ^ i) * slope < test mf (vadd x (vscale (alpha * beta ^ i) dx))) /\
    f_evals ls = (ev + j + match mf with None => 0 | Some _ => 1 end)%nat /\ f_calls ls = match mf with None => (ev + j)%nat | Some _ => 1%nat end.
Proof.
  induction k as [|k IH]; intros alpha ev ls H; [discriminate|]. cbn [backtrack] in H.
  set (xt := vadd x (vscale alpha dx)) in *.
  assert (Hnow : test mf xt <= ref + c1 * alpha * slope -> ls = Found xt (fst (f xt)) (snd (f xt)) (test mf xt) alpha
            (ev + match mf with None => 0 | Some _ => 1 end) (match mf with None => ev | Some _ => 1%nat end) ->
    exists j, (j < S k)%nat /\ f_alpha ls = alpha * beta ^ j /\ f_x ls = vadd x (vscale (alpha * beta ^ j) dx) /\
    (f_res ls, f_jac ls) = f (f_x ls) /\ f_phi ls = test mf (f_x ls) /\
    f_phi ls <= ref + c1 * (alpha * beta ^ j) * slope /\
    (forall i, (i < j)%nat -> ref + c1 * (alpha * beta ^ i) * slope < test mf (vadd x (vscale (alpha * beta ^ i) dx))) /\
    f_evals ls = (ev + j + match mf with None => 0 | Some _ => 1 end)%nat /\ f_calls ls = match mf with None => (ev + j)%nat | Some _ => 1%nat end).
  { intros Hle ->. exists 0%nat. cbn [f_alpha f_x f_res f_jac f_phi f_evals f_calls pow]. rewrite Rmult_1_r, <- surjective_pairing.
    fold xt. split; [lia|]. split; [reflexivity|]. split; [reflexivity|]. split; [reflexivity|]. split; [reflexivity|]. split; [assumption|].
    split; [intros; lia|]. rewrite Nat.add_0_r. split; [reflexivity|]. destruct mf; lia. }
  assert (Hlater : ref + c1 * alpha * slope < test mf xt -> backtrack n f c1 beta mf x dx slope ref k (alpha * beta) (S ev) = Some ls ->
    exists j, (j < S k)%nat /\ f_alpha ls = alpha * beta ^ j /\ f_x ls = vadd x (vscale (alpha * beta ^ j) dx) /\
    (f_res ls, f_jac ls) = f (f_x ls) /\ f_phi ls = test mf (f_x ls) /\
    f_phi ls <= ref + c1 * (alpha * beta ^ j) * slope /\
    (forall i, (i < j)%nat -> ref + c1 * (alpha * beta ^ i) * slope < test mf (vadd x (vscale (alpha * beta ^ i) dx))) /\
    f_evals ls = (ev + j + match mf with None => 0 | Some _ => 1 end)%nat /\ f_calls ls = match mf with None => (ev + j)%nat | Some _ => 1%nat end).
  { intros Hgt Hrec. apply IH in Hrec. destruct Hrec as (j & J1 & J2 & J3 & J4 & J5 & J6 & J7 & J8 & J9). exists (S j).
    assert (EP : forall i, alpha * beta * beta ^ i = alpha * beta ^ S i) by (intro; cbn [pow]; ring).
    rewrite EP in J2, J3, J6. split; [lia|]. split; [assumption|]. split; [assumption|]. split; [assumption|]. split; [assumption|]. split; [assumption|]. split.
    - intros [|i] Hi; [cbn [pow]; rewrite Rmult_1_r; exact Hgt|]. rewrite <- EP. apply J7. lia.
    - split; [lia|]. destruct mf; lia. }
  destruct mf as [g|].
  - destruct (rleb_spec (merit n (g xt)) (ref + c1 * alpha * slope)) as [Hle|Hgt].
    + destruct (f xt) as [r J] eqn:E. injection H as <-. apply Hnow; [assumption|]. f_equal. 
    + apply Hlater; assumption.
  - destruct (f xt) as [r J] eqn:E. assert (Ht : test None xt = merit n r) by (unfold test, objective, residual; rewrite E; reflexivity).
    rewrite <- Ht in H. destruct (rleb_spec (test None xt) (ref + c1 * alpha * slope)) as [Hle|Hgt].
    + injection H as <-. apply Hnow; [assumption|]. cbn [fst snd]. now rewrite Nat.add_0_r.
    + apply Hlater; assumption.
Qed.
Lemma backtrack_none c1 beta mf x dx slope ref : forall k alpha ev,
  backtrack n f c1 beta mf x dx slope ref k alpha ev = None <->
  forall i, (i < k)%nat -> ref + c1 * (alpha * beta ^ i) * slope < test mf (vadd x (vscale (alpha * beta ^ i) dx)).
Proof.
  induction k as [|k IH]; intros alpha ev; [split; [intros; lia|reflexivity]|]. cbn [backtrack].
  set (xt := vadd x (vscale alpha dx)).
  assert (EP : forall i, alpha * beta * beta ^ i = alpha * beta ^ S i) by (intro; cbn [pow]; ring).
  assert (Hrec : ref + c1 * alpha * slope < test mf xt -> (backtrack n f c1 beta mf x dx slope ref k (alpha * beta) (S ev) = None <->
     forall i, (i < S k)%nat -> ref + c1 * (alpha * beta ^ i) * slope < test mf (vadd x (vscale (alpha * beta ^ i) dx)))).
  { intro Hgt. rewrite IH. split.
    - intros H [|i] Hi; [cbn [pow]; rewrite Rmult_1_r; exact Hgt|]. rewrite <- EP. apply H. lia.
    - intros H i Hi. rewrite EP. apply H. lia. }
  assert (Hno : test mf xt <= ref + c1 * alpha * slope -> ~ forall i, (i < S k)%nat -> ref + c1 * (alpha * beta ^ i) * slope < test mf (vadd x (vscale (alpha * beta ^ i) dx))).
  { intros Hle H. specialize (H 0%nat (Nat.lt_0_succ k)). cbn [pow] in H. rewrite Rmult_1_r in H. fold xt in H. lra. }
  destruct mf as [g|].
  - destruct (rleb_spec (merit n (g xt)) (ref + c1 * alpha * slope)) as [Hle|Hgt].
    + destruct (f xt) as [r J] eqn:E. split; [discriminate|]. intro H. destruct (Hno Hle H).
    + now apply Hrec.
  - destruct (f xt) as [r J] eqn:E. assert (Ht : test None xt = merit n r) by (unfold test, objective, residual; rewrite E; reflexivity).
    rewrite <- Ht. destruct (rleb_spec (test None xt) (ref + c1 * alpha * slope)) as [Hle|Hgt].
    + split; [discriminate|]. intro H. destruct (Hno Hle H).
    + now apply Hrec.
Qed.
Lemma test_same mf x : same_residuals f mf -> test mf x = objective n f x.
Proof. destruct mf as [g|]; cbn; intro H; [|reflexivity]. rewrite H. reflexivity. Qed.
Lemma orient_spec r J dx : let p := orient dx (dot n r (mv n J dx)) in d_slope p = dot n r (mv n J (d_dir p)) /\ d_slope p <= 0 /\ (d_dir p = dx \/ d_dir p = vneg dx).
Proof.
  cbv zeta. unfold orient. destruct (rleb_spec 0 (dot n r (mv n J dx))); cbn [d_slope d_dir].
  - rewrite dot_mv_neg. split; [reflexivity|]. split; [lra|auto].
  - split; [reflexivity|]. split; [lra|auto].
Qed.
Lemma compute_slope d ds r J ds' p : compute n d ds r J = Ok (ds', p) -> d_slope p = dot n r (mv n J (d_dir p)) /\ d_slope p <= 0.
Proof.
  unfold compute. destruct d as [lin|lin every|solve emax emin ew].
  - intro H. injection H as _ <-. pose proof (orient_spec r J (or_gradient n (lin J (vneg r)) J r)). cbv zeta in *. tauto.
  - destruct (match cached_jac ds with Some _ => _ | None => _ end) as [rf|]; [|discriminate]. cbn [bind]. intro H. injection H as _ <-.
    match goal with |- d_slope (orient ?dx _) = _ /\ _ => pose proof (orient_spec r J dx) end. cbv zeta in *. tauto.
  - destruct solve as [fn|]; [|discriminate]. intro H. injection H as _ <-.
    match goal with |- d_slope (orient ?dx _) = _ /\ _ => pose proof (orient_spec r J dx) end. cbv zeta in *. tauto.
Qed.

(* the trust-region loop *)
Lemma tr_loop_spec o sub s : forall fuel delta rejects nfev,
  (max_reject o < fuel + rejects)%nat -> (1 <= fuel)%nat ->
  exists delta' s' i, tr_loop n f o sub s fuel delta rejects nfev = Some (delta', s', i) /\
    (i_accepted i = false -> s' = s) /\
    (i_calls i <= nfev + Nat.max 1 (max_reject o - rejects))%nat /\
    exists k, let d := delta * shrink o ^ k in let g := tmv n (s_jac s) (s_res s) in
      (k < Nat.max 1 (max_reject o - rejects))%nat /\
      (i_accepted i = false -> delta' = d * shrink o) /\
      (i_accepted i = true -> let p := sub (s_jac s) (s_res s) g d in
         i_step i = p /\ s_x s' = vadd (s_x s) p /\ (s_res s', s_jac s') = f (s_x s') /\ s_phi s' = objective n f (s_x s') /\
         s_nit s' = S (s_nit s) /\ s_nfev s' = (s_nfev s + i_calls i)%nat /\
         0 < predicted n (s_jac s) g p /\ tr_eta o * predicted n (s_jac s) g p < s_phi s - s_phi s' /\
         (delta' = d \/ delta' = Rmin (grow o * d) (delta_max o))).
Proof.
  induction fuel as [|fuel IH]; intros delta rejects nfev Hf H1; [lia|]. cbn [tr_loop].
  set (g := tmv n (s_jac s) (s_res s)) in *. set (p := sub (s_jac s) (s_res s) g delta).
  destruct (f (vadd (s_x s) p)) as [rt Jt] eqn:Ef.
  match goal with |- exists delta' s' i, (if rleb _ _ then ?rej else _) = _ /\ _ =>
    assert (Hrej : exists delta' s' i, rej = Some (delta', s', i) /\
      (i_accepted i = false -> s' = s) /\ (i_calls i <= nfev + Nat.max 1 (max_reject o - rejects))%nat /\
      exists k, let d := delta * shrink o ^ k in
      (k < Nat.max 1 (max_reject o - rejects))%nat /\ (i_accepted i = false -> delta' = d * shrink o) /\
      (i_accepted i = true -> let p := sub (s_jac s) (s_res s) g d in
         i_step i = p /\ s_x s' = vadd (s_x s) p /\ (s_res s', s_jac s') = f (s_x s') /\ s_phi s' = objective n f (s_x s') /\
         s_nit s' = S (s_nit s) /\ s_nfev s' = (s_nfev s + i_calls i)%nat /\
         0 < predicted n (s_jac s) g p /\ tr_eta o * predicted n (s_jac s) g p < s_phi s - s_phi s' /\
         (delta' = d \/ delta' = Rmin (grow o * d) (delta_max o))))
  end.
  { destruct (Nat.leb_spec (max_reject o) (S rejects)) as [Hl|Hl].
    - eexists _, _, _. split; [reflexivity|]. cbn [i_accepted i_calls]. split; [reflexivity|]. split; [lia|].
      exists 0%nat. cbn [pow]. cbv zeta. rewrite Rmult_1_r. split; [lia|]. split; [reflexivity|discriminate].
    - destruct (IH (delta * shrink o) (S rejects) (S nfev)) as (d' & s' & i & E & A1 & A2 & k & A3 & A4 & A5); [lia|lia|].
      exists d', s', i. split; [exact E|]. split; [exact A1|]. split; [lia|]. exists (S k). cbv zeta in *.
      replace (delta * shrink o * shrink o ^ k) with (delta * shrink o ^ S k) in * by (cbn [pow]; ring).
      split; [lia|]. split; [exact A4|exact A5]. }
  destruct (rleb_spec (predicted n (s_jac s) g p) 0) as [Hp|Hp]; [exact Hrej|].
  destruct (rltb_spec (tr_eta o) ((s_phi s - merit n rt) / predicted n (s_jac s) g p)) as [Hr|Hr]; [|exact Hrej].
  eexists _, _, _. split; [reflexivity|]. cbn [i_accepted i_calls i_step]. split; [discriminate|]. split; [lia|].
  exists 0%nat. cbn [pow]. cbv zeta. rewrite Rmult_1_r. split; [lia|]. split; [discriminate|]. intros _. fold p.
  unfold advance. cbn [s_x s_res s_jac s_phi s_nit s_nfev]. split; [reflexivity|]. split; [reflexivity|]. split; [symmetry; exact Ef|]. split.
  { unfold objective, residual. rewrite Ef. reflexivity. }
  split; [reflexivity|]. split; [reflexivity|]. split; [assumption|]. split.
  - apply (Rmult_lt_compat_r (predicted n (s_jac s) g p)) in Hr; [|assumption]. unfold Rdiv in Hr. rewrite Rmult_assoc, Rinv_l in Hr by lra. lra.
  - destruct (_ && _)%bool; auto.
Qed.
Lemma lm_loop_spec o lin s : forall fuel lam rejects nfev,
  (lm_max_reject o < fuel + rejects)%nat -> (1 <= fuel)%nat ->
  exists lam' s' i, lm_loop n f o lin s fuel lam rejects nfev = Some (lam', s', i) /\
    (i_accepted i = false -> s' = s) /\
    (i_calls i <= nfev + Nat.max 1 (lm_max_reject o - rejects))%nat /\
    (min_lam o <= lam <= max_lam o -> 0 < lam -> 1 <= lam_up o -> lam_down o <= 1 -> min_lam o <= lam' <= max_lam o) /\
    (i_accepted i = true -> exists l, let g := tmv n (s_jac s) (s_res s) in let p := i_step i in
         lin (damped n (s_jac s) l) (vneg g) = Some p /\
         (min_lam o <= lam <= max_lam o -> 0 < lam -> 1 <= lam_up o -> lam <= l <= max_lam o) /\
         s_x s' = vadd (s_x s) p /\ (s_res s', s_jac s') = f (s_x s') /\ s_phi s' = objective n f (s_x s') /\
         s_nit s' = S (s_nit s) /\ s_nfev s' = (s_nfev s + i_calls i)%nat /\
         exists pred, pred = - (dot n g p + / 2 * (dot n (mv n (s_jac s) p) (mv n (s_jac s) p) + l * dot n (scaling n (s_jac s)) (fun i => p i * p i))) /\
           0 < pred /\ lm_eta o * pred < s_phi s - s_phi s').
Proof.
  induction fuel as [|fuel IH]; intros lam rejects nfev Hf H1; [lia|]. cbn [lm_loop].
  set (g := tmv n (s_jac s) (s_res s)) in *.
  assert (Hrej : forall nf, (nf <= S nfev)%nat -> exists lam' s' i,
      (if (Nat.leb (lm_max_reject o) (S rejects) || rleb (max_lam o) (Rmin (lam * lam_up o) (max_lam o)))%bool
        then Some (Rmin (lam * lam_up o) (max_lam o), s, Info false vzero nf)
        else lm_loop n f o lin s fuel (Rmin (lam * lam_up o) (max_lam o)) (S rejects) nf) = Some (lam', s', i) /\
    (i_accepted i = false -> s' = s) /\
    (i_calls i <= nfev + Nat.max 1 (lm_max_reject o - rejects))%nat /\
    (min_lam o <= lam <= max_lam o -> 0 < lam -> 1 <= lam_up o -> lam_down o <= 1 -> min_lam o <= lam' <= max_lam o) /\
    (i_accepted i = true -> exists l, let p := i_step i in
         lin (damped n (s_jac s) l) (vneg g) = Some p /\
         (min_lam o <= lam <= max_lam o -> 0 < lam -> 1 <= lam_up o -> lam <= l <= max_lam o) /\
         s_x s' = vadd (s_x s) p /\ (s_res s', s_jac s') = f (s_x s') /\ s_phi s' = objective n f (s_x s') /\
         s_nit s' = S (s_nit s) /\ s_nfev s' = (s_nfev s + i_calls i)%nat /\
         exists pred, pred = - (dot n g p + / 2 * (dot n (mv n (s_jac s) p) (mv n (s_jac s) p) + l * dot n (scaling n (s_jac s)) (fun i => p i * p i))) /\
           0 < pred /\ lm_eta o * pred < s_phi s - s_phi s')).
  { intros nf Hnf.
    assert (Hup : min_lam o <= lam <= max_lam o -> 0 < lam -> 1 <= lam_up o -> lam <= Rmin (lam * lam_up o) (max_lam o) <= max_lam o).
    { intros B P U. split; [apply Rmin_glb; nra|apply Rmin_r]. }
    destruct (Nat.leb_spec (lm_max_reject o) (S rejects)) as [Hl|Hl]; cbn [orb].
    - eexists _, _, _. split; [reflexivity|]. cbn [i_accepted i_calls]. split; [reflexivity|]. split; [lia|]. split; [|discriminate].
      intros B P U _. destruct (Hup B P U). lra.
    - destruct (rleb_spec (max_lam o) (Rmin (lam * lam_up o) (max_lam o))) as [Hm|Hm].
      + eexists _, _, _. split; [reflexivity|]. cbn [i_accepted i_calls]. split; [reflexivity|]. split; [lia|]. split; [|discriminate].
        intros B P U _. destruct (Hup B P U). lra.
      + destruct (IH (Rmin (lam * lam_up o) (max_lam o)) (S rejects) nf) as (l' & s' & i & E & A1 & A2 & A3 & A4); [lia|lia|].
        exists l', s', i. split; [exact E|]. split; [exact A1|]. split; [lia|]. split.
        * intros B P U D. destruct (Hup B P U). apply A3; lra.
        * intro Ha. destruct (A4 Ha) as (l & A5 & A6 & A7). exists l. split; [exact A5|]. split; [|exact A7].
          intros B P U. destruct (Hup B P U). destruct A6; lra. }
  destruct (lin (damped n (s_jac s) lam) (vneg g)) as [p|] eqn:El; [|apply Hrej; lia].
  destruct (f (vadd (s_x s) p)) as [rt Jt] eqn:Ef. set (pred := - (dot n g p + _)).
  destruct (rleb_spec pred 0) as [Hp|Hp]; [apply Hrej; lia|].
  destruct (rltb_spec (lm_eta o) ((s_phi s - merit n rt) / pred)) as [Hr|Hr]; [|apply Hrej; lia].
  eexists _, _, _. split; [reflexivity|]. cbn [i_accepted i_calls i_step]. split; [discriminate|]. split; [lia|]. split.
  { intros B P U D. split; [apply Rmax_r|]. apply Rmax_lub; [nra|lra]. }
  intros _. exists lam. cbv zeta. split; [exact El|]. split; [intros; lra|].
  unfold advance. cbn [s_x s_res s_jac s_phi s_nit s_nfev]. split; [reflexivity|]. split; [symmetry; exact Ef|]. split.
  { unfold objective, residual. rewrite Ef. reflexivity. }
  split; [reflexivity|]. split; [reflexivity|]. exists pred. split; [reflexivity|]. split; [assumption|].
  apply (Rmult_lt_compat_r pred) in Hr; [|assumption]. unfold Rdiv in Hr. rewrite Rmult_assoc, Rinv_l in Hr by lra. lra.
Qed.

(* any solver *)
Definition merit_ok (v : solver) : Prop := match v with Line_search _ g => same_residuals f (search_merit g) | _ => True end.
Definition per_step (v : solver) : nat :=
  match v with
  | Line_search _ g => match search_merit g with None => search_iterations g | Some _ => 1 end
  | Dogleg o _ | Gauss_newton o => Nat.max 1 (max_reject o)
  | Levenberg_marquardt o _ => Nat.max 1 (lm_max_reject o)
  end.
Lemma search_spec g h x phi p h' r : search n f g h x phi p = Ok (h', r) ->
  exists c1 beta ref, r = backtrack n f c1 beta (search_merit g) x (d_dir p) (d_slope p) ref (search_iterations g) 1 1.
Proof.
  destruct g as [c1 beta k mf|c1 beta k mem mf]; cbn [search search_merit search_iterations].
  - intro H. injection H as _ <-. eauto.
  - destruct (push mem h phi) as [|y l]; [discriminate|]. intro H. injection H as _ <-. eauto.
Qed.
Lemma step_facts v m s r : good s -> step n f v m s = Ok r ->
  exists m' s' i, r = Stepped m' s' i /\ (i_calls i <= per_step v)%nat /\ (i_accepted i = false -> s' = s) /\
    (i_accepted i = true -> good s' /\ s_x s' = vadd (s_x s) (i_step i) /\ s_nit s' = S (s_nit s) /\
       (merit_ok v -> measured s')).
Proof.
  intros Hg H. destruct v as [d g|o lin|o|o lin]; cbn [step] in H.
  - unfold line_step in H. destruct (compute n d (fst (m_dir m, m_history m)) (s_res s) (s_jac s)) as [[ds p]|] eqn:EC; [|discriminate]. cbn [bind fst snd] in H.
    destruct (search n f g (m_history m) (s_x s) (s_phi s) p) as [[h' ls]|] eqn:ES; [|discriminate]. cbn [bind fst snd] in H.
    destruct (search_spec _ _ _ _ _ _ _ ES) as (c1 & beta & ref & E). destruct ls as [ls|]; cbn [bind] in H; injection H as <-.
    + symmetry in E. apply backtrack_spec in E. destruct E as (j & J1 & J2 & J3 & J4 & J5 & J6 & J7 & J8 & J9).
      eexists _, _, _. split; [reflexivity|]. cbn [i_calls i_accepted i_step per_step]. split; [rewrite J9; destruct (search_merit g); lia|].
      split; [discriminate|]. intros _. unfold advance, good, measured. cbn [s_x s_res s_jac s_phi s_nit].
      split; [exact J4|]. split; [rewrite J3, J2; reflexivity|]. split; [reflexivity|]. cbn [merit_ok]. intro Hm. rewrite J5. now apply test_same.
    + eexists _, _, _. split; [reflexivity|]. cbn [i_calls i_accepted per_step]. split; [unfold failed_calls; destruct (search_merit g); lia|].
      split; [reflexivity|discriminate].
  - injection H as <-. destruct (tr_loop_spec o (dogleg_sub n lin) s (S (max_reject o)) (m_scalar m) 0 0) as (d' & s' & i & E & A1 & A2 & k & A3 & A4 & A5); [lia|lia|].
    unfold tr_step. rewrite E. cbn [of_loop]. eexists _, _, _. split; [reflexivity|]. cbn [per_step]. split; [lia|]. split; [exact A1|].
    intro Ha. destruct (A5 Ha) as (B1 & B2 & B3 & B4 & B5 & B6 & _). rewrite B1. unfold good, measured. auto.
  - injection H as <-. destruct (tr_loop_spec o (gauss_newton_sub n) s (S (max_reject o)) (m_scalar m) 0 0) as (d' & s' & i & E & A1 & A2 & k & A3 & A4 & A5); [lia|lia|].
    unfold tr_step. rewrite E. cbn [of_loop]. eexists _, _, _. split; [reflexivity|]. cbn [per_step]. split; [lia|]. split; [exact A1|].
    intro Ha. destruct (A5 Ha) as (B1 & B2 & B3 & B4 & B5 & B6 & _). rewrite B1. unfold good, measured. auto.
  - injection H as <-. destruct (lm_loop_spec o lin s (S (lm_max_reject o)) (m_scalar m) 0 0) as (d' & s' & i & E & A1 & A2 & A3 & A4); [lia|lia|].
    unfold lm_step. rewrite E. cbn [of_loop]. eexists _, _, _. split; [reflexivity|]. cbn [per_step]. split; [lia|]. split; [exact A1|].
    intro Ha. destruct (A4 Ha) as (l & B1 & B2 & B3 & B4 & B5 & B6 & _). unfold good, measured. auto.
Qed.

(* ---- the outer loop ---- *)
Lemma iterate_spec v (Inv : memory -> state -> Prop) (Rel : vec -> vec -> Prop) (Stuck : vec -> Prop) f_tol x_tol x0 :
  (forall m s m' s' i, Inv m s -> good s -> (merit_ok v -> measured s) -> step n f v m s = Ok (Stepped m' s' i) ->
     Inv m' s' /\ (i_accepted i = true -> Rel (s_x s) (s_x s')) /\ (i_accepted i = false -> Stuck (s_x s))) ->
  forall k m s calls r, Inv m s -> good s -> (merit_ok v -> measured s) -> path Rel x0 (s_nit s) (s_x s) -> f_tol <= maxabs n (s_res s) ->
  iterate n f v f_tol x_tol k m s calls = Ok r ->
  exists o m' c s', r = Finished o m' c /\ Inv m' s' /\ s_x s' = o_x o /\ path Rel x0 (o_nit o) (o_x o) /\ (o_fun o, o_jac o) = f (o_x o) /\
    (s_nit s <= o_nit o <= s_nit s + k)%nat /\ (c <= calls + k * per_step v)%nat /\
    (o_success o = false -> f_tol <= maxabs n (o_fun o) /\ (o_nit o = (s_nit s + k)%nat \/ Stuck (o_x o))) /\
    (o_success o = true -> maxabs n (o_fun o) < f_tol \/
       exists y dx, Rel y (o_x o) /\ o_x o = vadd y dx /\ maxabs n dx < x_tol * (1 + maxabs n (o_x o))).
Proof.
  intro Hstep. induction k as [|k IH]; intros m s calls r HI Hg Hm Hp Hf H; cbn [iterate] in H.
  - injection H as <-. exists (make_result s false), m, calls, s. split; [reflexivity|]. unfold make_result. cbn. rewrite Nat.add_0_r.
    repeat (split; [first [assumption | lia | reflexivity]|]). split; [intros _; split; [assumption|now left]|discriminate].
  - destruct (step n f v m s) as [st|] eqn:ES; [|discriminate]. cbn [bind] in H.
    destruct (step_facts v m s st Hg ES) as (m' & s' & i & -> & C1 & C2 & C3). destruct (Hstep m s m' s' i HI Hg Hm ES) as (HI' & HR & HS).
    destruct (i_accepted i) eqn:EA; cbn [negb] in H.
    + destruct (C3 eq_refl) as (G1 & G2 & G3 & G4). specialize (HR eq_refl).
      assert (HP' : path Rel x0 (s_nit s') (s_x s')) by (rewrite G3; econstructor; eassumption).
      destruct (converged n s' f_tol x_tol (i_step i)) eqn:EC.
      * injection H as <-. exists (make_result s' true), m', (calls + i_calls i)%nat, s'. split; [reflexivity|]. unfold make_result. cbn [o_x o_fun o_jac o_nit o_success].
        split; [assumption|]. split; [reflexivity|]. split; [assumption|]. split; [exact G1|]. split; [lia|]. split; [cbn [Nat.mul]; lia|]. split; [discriminate|].
        intros _. unfold converged in EC. apply orb_true_iff in EC. destruct EC as [EC|EC].
        -- left. destruct (rltb_spec (maxabs n (s_res s')) f_tol); [assumption|discriminate].
        -- right. exists (s_x s), (i_step i). split; [assumption|]. split; [assumption|].
           unfold small_step in EC. destruct (rltb_spec (maxabs n (i_step i)) (x_tol * (1 + maxabs n (s_x s')))); [assumption|discriminate].
      * assert (Hf' : f_tol <= maxabs n (s_res s')).
        { unfold converged in EC. apply orb_false_iff in EC. destruct EC as [EC _]. destruct (rltb_spec (maxabs n (s_res s')) f_tol); [discriminate|assumption]. }
        destruct (IH m' s' (calls + i_calls i)%nat r HI' G1 G4 HP' Hf' H) as (o & m'' & c & s'' & -> & B1 & B0 & B2 & B3 & B4 & B5 & B6 & B7).
        exists o, m'', c, s''. split; [reflexivity|]. split; [assumption|]. split; [assumption|]. split; [assumption|]. split; [assumption|]. split; [lia|]. split; [cbn [Nat.mul]; lia|].
        split; [|assumption]. intro Hs. destruct (B6 Hs) as [D1 [D2 | D2]]; (split; [assumption|]); [left; lia|right; assumption].
    + injection H as <-. rewrite (C2 eq_refl) in *. exists (make_result s false), m', (calls + i_calls i)%nat, s. split; [reflexivity|]. unfold make_result. cbn [o_x o_fun o_jac o_nit o_success].
      split; [assumption|]. split; [reflexivity|]. split; [assumption|]. split; [exact Hg|]. split; [lia|]. split; [cbn [Nat.mul]; lia|].
      split; [intros _; split; [assumption|right; now apply HS]|discriminate].
Qed.
Lemma sparse_root_spec v (Inv : memory -> state -> Prop) (Rel : vec -> vec -> Prop) (Stuck : vec -> Prop) m x0 f_tol x_tol maxiter r :
  Inv (init v m) (start n f x0) ->
  (forall m s m' s' i, Inv m s -> good s -> (merit_ok v -> measured s) -> step n f v m s = Ok (Stepped m' s' i) ->
     Inv m' s' /\ (i_accepted i = true -> Rel (s_x s) (s_x s')) /\ (i_accepted i = false -> Stuck (s_x s))) ->
  sparse_root n f v m x0 f_tol x_tol maxiter = Ok r ->
  exists o m' c s', r = Finished o m' c /\ Inv m' s' /\ s_x s' = o_x o /\ path Rel x0 (o_nit o) (o_x o) /\ (o_fun o, o_jac o) = f (o_x o) /\
    (o_nit o <= maxiter)%nat /\ (c <= 1 + maxiter * per_step v)%nat /\
    (o_success o = false -> f_tol <= maxabs n (o_fun o) /\ (o_nit o = maxiter \/ Stuck (o_x o))) /\
    (o_success o = true -> maxabs n (o_fun o) < f_tol \/
       exists y dx, Rel y (o_x o) /\ o_x o = vadd y dx /\ maxabs n dx < x_tol * (1 + maxabs n (o_x o))).
Proof.
  intros HI Hs. unfold sparse_root. destruct (Nat.eqb n 0); [discriminate|].
  destruct (start_good x0) as (G1 & G2 & G3 & G4). destruct (rltb_spec (maxabs n (s_res (start n f x0))) f_tol) as [Hl|Hl]; intro H.
  - injection H as <-. exists (make_result (start n f x0) true), (init v m), 1%nat, (start n f x0). split; [reflexivity|]. unfold make_result. cbn [o_x o_fun o_jac o_nit o_success]. rewrite G4.
    split; [assumption|]. split; [reflexivity|]. rewrite G3. split; [constructor|]. split; [unfold good in G1; rewrite G3 in G1; exact G1|]. split; [lia|]. split; [lia|]. split; [discriminate|]. intros _. left. assumption.
  - eapply iterate_spec in H; try eassumption; [|tauto|rewrite G3, G4; constructor].
    rewrite G4 in H. exact (match H with ex_intro _ o (ex_intro _ m' (ex_intro _ c (ex_intro _ s' (conj A (conj B (conj C (conj D (conj E (conj F G)))))))))
      => ex_intro _ o (ex_intro _ m' (ex_intro _ c (ex_intro _ s' (conj A (conj B (conj C (conj D (conj E (conj (proj2 F) G))))))))) end).
Qed.
(* fewer or more passes *)
Lemma iterate_last v f_tol x_tol : forall k m s calls o m' c, good s -> iterate n f v f_tol x_tol k m s calls = Ok (Finished o m' c) -> o_success o = true ->
  exists j o1 m1 c1 dx, o_nit o = S (s_nit s + j) /\ iterate n f v f_tol x_tol j m s calls = Ok (Finished o1 m1 c1) /\ o_success o1 = false /\
    o_nit o1 = (s_nit s + j)%nat /\ o_x o = vadd (o_x o1) dx /\ (maxabs n (o_fun o) < f_tol \/ maxabs n dx < x_tol * (1 + maxabs n (o_x o))).
Proof.
  induction k as [|k IH]; intros m s calls o m' c Hg H Hs; cbn [iterate] in H; [injection H as <- _ _; discriminate|].
  destruct (step n f v m s) as [st|] eqn:ES; [|discriminate]. cbn [bind] in H.
  destruct (step_facts v m s st Hg ES) as (m2 & s2 & i & -> & C1 & C2 & C3).
  destruct (i_accepted i) eqn:EA; cbn [negb] in H; [|injection H as <- _ _; discriminate].
  destruct (C3 eq_refl) as (G1 & G2 & G3 & G4). destruct (converged n s2 f_tol x_tol (i_step i)) eqn:EC.
  - injection H as <- _ _. exists 0%nat, (make_result s false), m, calls, (i_step i). unfold make_result. cbn [o_nit o_x o_fun o_success iterate].
    rewrite Nat.add_0_r. split; [assumption|]. split; [reflexivity|]. split; [reflexivity|]. split; [reflexivity|]. split; [assumption|].
    unfold converged in EC. apply orb_true_iff in EC. destruct EC as [EC|EC].
    + left. destruct (rltb_spec (maxabs n (s_res s2)) f_tol); [assumption|discriminate].
    + right. unfold small_step in EC. destruct (rltb_spec (maxabs n (i_step i)) (x_tol * (1 + maxabs n (s_x s2)))); [assumption|discriminate].
  - destruct (IH m2 s2 (calls + i_calls i)%nat o m' c G1 H Hs) as (j & o1 & m1 & c1 & dx & D1 & D2 & D3 & D4 & D5 & D6).
    exists (S j), o1, m1, c1, dx. rewrite D1, D4, G3. split; [lia|]. split; [|split; [assumption|split; [lia|split; assumption]]].
    cbn [iterate]. rewrite ES. cbn [bind]. rewrite EA. cbn [negb]. rewrite EC. exact D2.
Qed.
Lemma iterate_longer v f_tol x_tol more : forall k m s calls o m' c, good s -> iterate n f v f_tol x_tol k m s calls = Ok (Finished o m' c) ->
  o_success o = true \/ (o_nit o < s_nit s + k)%nat -> iterate n f v f_tol x_tol (k + more) m s calls = Ok (Finished o m' c).
Proof.
  induction k as [|k IH]; intros m s calls o m' c Hg H Hs; cbn [iterate] in H.
  - injection H as <- _ _. destruct Hs as [Hs|Hs]; [discriminate|]. cbn in Hs. lia.
  - cbn [Nat.add iterate]. destruct (step n f v m s) as [st|] eqn:ES; [|discriminate]. cbn [bind] in *.
    destruct (step_facts v m s st Hg ES) as (m2 & s2 & i & -> & C1 & C2 & C3).
    destruct (i_accepted i) eqn:EA; cbn [negb] in *; [|exact H].
    destruct (C3 eq_refl) as (G1 & G2 & G3 & G4). destruct (converged n s2 f_tol x_tol (i_step i)) eqn:EC; [exact H|].
    apply IH; [assumption|assumption|]. destruct Hs; [now left|right; lia].
Qed.
(* it finishes *)
Lemma iterate_finishes v f_tol x_tol : (forall m s, exists r, step n f v m s = Ok r) ->
  forall k m s calls, good s -> exists o m' c, iterate n f v f_tol x_tol k m s calls = Ok (Finished o m' c).
Proof.
  intro Hs. induction k as [|k IH]; intros m s calls Hg; cbn [iterate]; [eauto|].
  destruct (Hs m s) as [st ES]. rewrite ES. cbn [bind]. destruct (step_facts v m s st Hg ES) as (m2 & s2 & i & -> & C1 & C2 & C3).
  destruct (i_accepted i); cbn [negb]; [|eauto]. destruct (C3 eq_refl) as (G1 & _). destruct (converged n s2 f_tol x_tol (i_step i)); [eauto|]. now apply IH.
Qed.
Lemma maxabs_le v b : 0 <= b -> (forall i, (i < n)%nat -> Rabs (v i) <= b) -> maxabs n v <= b.
Proof.
  intros Hb. unfold maxabs. induction n as [|k IH]; intro H; cbn [max_upto]; [assumption|]. apply Rmax_lub; [apply IH; intros; apply H; lia|apply H; lia].
Qed.
Lemma maxabs_ge v i : (i < n)%nat -> Rabs (v i) <= maxabs n v.
Proof.
  unfold maxabs. induction n as [|k IH]; intro H; [lia|]. cbn [max_upto]. destruct (Nat.eq_dec i k) as [->|N]; [apply Rmax_r|].
  eapply Rle_trans; [apply IH; lia|apply Rmax_l].
Qed.
Lemma maxabs_largest v : (0 < n)%nat -> largest n v (maxabs n v).
Proof.
  intro Hn. split; [intros; now apply maxabs_ge|]. unfold maxabs. destruct n as [|k]; [lia|]. clear Hn.
  induction k as [|k IH]; [exists 0%nat; split; [lia|]; cbn; apply Rmax_right, Rabs_pos|].
  destruct IH as (i & Hi & E). change (max_upto (S (S k)) v) with (Rmax (max_upto (S k) v) (Rabs (v (S k)))).
  destruct (Rle_dec (max_upto (S k) v) (Rabs (v (S k)))) as [H|H].
  - exists (S k). split; [lia|]. now apply Rmax_right.
  - exists i. split; [lia|]. rewrite Rmax_left by lra. exact E.
Qed.
End Step.
