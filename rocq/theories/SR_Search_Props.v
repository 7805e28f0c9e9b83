(* Line searches: sufficient decrease, when they succeed, the nonmonotone one. *)
From Verif Require Import Common SR_Model SR_Spec SR_Proofs SR_Props.
From Coq Require Import Reals Lra Psatz.
Local Open Scope R_scope.

Lemma slope_dot n f s d : good f s -> slope_at n f (s_x s) d = dot n (s_res s) (mv n (s_jac s) d).
Proof. unfold good, slope_at, residual, jacobian. intro H. rewrite <- H. reflexivity. Qed.
(* what one step of a line-search solver does *)
Lemma line_facts n f d g m s m' s' i : same_residuals f (search_merit g) -> good f s -> measured n f s ->
  step n f (Line_search d g) m s = Ok (Stepped m' s' i) ->
  exists ds p h r, compute n d (m_dir m) (s_res s) (s_jac s) = Ok (ds, p) /\ search n f g (m_history m) (s_x s) (objective n f (s_x s)) p = Ok (h, r) /\
    m_history m' = h /\ m_dir m' = ds /\ d_slope p = slope_at n f (s_x s) (d_dir p) /\ d_slope p <= 0 /\
    (i_accepted i = true -> exists ls, r = Some ls /\ s_x s' = f_x ls /\ s_phi s' = objective n f (s_x s')) /\
    (i_accepted i = false -> r = None /\ s' = s).
Proof.
  intros Hmf Hg Hm H. cbn [step] in H. unfold line_step in H. cbn [fst snd] in H.
  destruct (compute n d (m_dir m) (s_res s) (s_jac s)) as [[ds p]|] eqn:EC; [|discriminate]. cbn [bind fst snd] in H.
  destruct (search n f g (m_history m) (s_x s) (s_phi s) p) as [[h r]|] eqn:ES; [|discriminate]. cbn [bind fst snd] in H.
  exists ds, p, h, r. split; [reflexivity|]. split; [rewrite <- Hm; assumption|]. destruct (compute_slope n f _ _ _ _ _ _ EC) as [C1 C2].
  assert (HH : m_history m' = h /\ m_dir m' = ds /\ (i_accepted i = true -> exists ls, r = Some ls /\ s_x s' = f_x ls /\ s_phi s' = objective n f (s_x s')) /\
    (i_accepted i = false -> r = None /\ s' = s)).
  { destruct r as [ls|]; cbn [bind] in H; injection H as <- <- <-; cbn [m_history m_dir i_accepted].
    - split; [reflexivity|]. split; [reflexivity|]. split; [|discriminate]. intros _. exists ls. split; [reflexivity|]. split; [reflexivity|].
      unfold advance. cbn [s_phi s_x]. destruct (search_spec _ _ _ _ _ _ _ _ _ ES) as (c1 & beta & ref & E). symmetry in E. apply backtrack_spec in E.
      destruct E as (j & J1 & J2 & J3 & J4 & J5 & _). rewrite J5. now apply test_same.
    - split; [reflexivity|]. split; [reflexivity|]. split; [discriminate|]. auto. }
  destruct HH as (H1 & H2 & H3 & H4). split; [assumption|]. split; [assumption|]. split; [rewrite C1; symmetry; now apply slope_dot|]. auto.
Qed.
(* Armijo's rule, in terms of the residual function *)
Lemma armijo_found n f c1 beta mf x dx slope k ls : same_residuals f mf -> backtrack n f c1 beta mf x dx slope (objective n f x) k 1 1 = Some ls ->
  exists j, (j < k)%nat /\ f_x ls = vadd x (vscale (beta ^ j) dx) /\ objective n f (f_x ls) <= objective n f x + c1 * beta ^ j * slope /\
    forall i, (i < j)%nat -> objective n f x + c1 * beta ^ i * slope < objective n f (vadd x (vscale (beta ^ i) dx)).
Proof.
  intros Hm H. apply backtrack_spec in H. destruct H as (j & J1 & J2 & J3 & J4 & J5 & J6 & J7 & _). exists j. split; [assumption|].
  rewrite Rmult_1_l in J3, J6. split; [assumption|]. rewrite <- (test_same n f mf) by assumption. rewrite <- J5. split; [assumption|].
  intros i Hi. specialize (J7 i Hi). rewrite !Rmult_1_l in J7. rewrite <- (test_same n f mf (vadd x (vscale (beta ^ i) dx))) by assumption. exact J7.
Qed.
Lemma armijo_not_found n f c1 beta mf x dx slope k : same_residuals f mf -> backtrack n f c1 beta mf x dx slope (objective n f x) k 1 1 = None ->
  forall i, (i < k)%nat -> objective n f x + c1 * beta ^ i * slope < objective n f (vadd x (vscale (beta ^ i) dx)).
Proof.
  intros Hm H i Hi. apply backtrack_none with (i := i) in H; [|assumption]. rewrite !Rmult_1_l in H. now rewrite <- (test_same n f mf (vadd x (vscale (beta ^ i) dx))) by assumption.
Qed.
(* directions the strategies may return *)
Definition proposes n f d (x e : vec) : Prop := match d with Newton lin => newton_direction n f lin x e | _ => True end.
Lemma proposes_ok n f d ds s ds' p : good f s -> compute n d ds (s_res s) (s_jac s) = Ok (ds', p) -> proposes n f d (s_x s) (d_dir p).
Proof.
  intros Hg H. destruct d as [lin|lin every|method emax emin ew]; cbn [proposes]; try exact I. cbn [compute] in H. injection H as _ <-.
  unfold good in Hg. assert (ER : s_res s = residual f (s_x s)) by (unfold residual; now rewrite <- Hg). assert (EJ : s_jac s = jacobian f (s_x s)) by (unfold jacobian; now rewrite <- Hg).
  rewrite ER, EJ. set (x := s_x s). set (e := or_gradient n (lin (jacobian f x) (vneg (residual f x))) (jacobian f x) (residual f x)).
  exists e. split.
  - unfold e, or_gradient. change (fun i => - residual f x i) with (vneg (residual f x)). destruct (lin (jacobian f x) (vneg (residual f x))); [left; reflexivity|right; split; reflexivity].
  - change (dot n (residual f x) (mv n (jacobian f x) e)) with (slope_at n f x e). unfold orient.
    destruct (rleb_spec 0 (slope_at n f x e)); cbn [d_dir]; [right|left]; split; auto.
Qed.

(* ---- C82: Armijo ---- *)
Theorem C82_every_step : forall n f d c1 beta k mf m x0 f_tol x_tol maxiter o m' calls, same_residuals f mf ->
  sparse_root n f (Line_search d (Armijo c1 beta k mf)) m x0 f_tol x_tol maxiter = Ok (Finished o m' calls) ->
  let dirs := match d with Newton lin => newton_direction n f lin | _ => any_direction end in
  path (armijo_step n f dirs c1 beta k) x0 (o_nit o) (o_x o) /\
  (* it gives up before the limit exactly where no permitted length works *)
  (o_success o = false -> o_nit o = maxiter \/ no_armijo_step n f dirs c1 beta k (o_x o)).
Proof.
  intros n f d c1 beta k mf m x0 f_tol x_tol maxiter o m' calls Hmf H dirs.
  eapply (sparse_root_spec n f _ (fun _ _ => True) (armijo_step n f dirs c1 beta k) (no_armijo_step n f dirs c1 beta k)) in H; [|exact I|].
  - destruct H as (o' & m'' & c & s' & E & _ & _ & B2 & _ & _ & _ & B6 & _). injection E as <- <- <-. split; [assumption|]. intro Hs. now destruct (B6 Hs).
  - intros m1 s m2 s2 i _ Hg Hm HS. split; [exact I|]. cbn [merit_ok search_merit] in Hm. specialize (Hm Hmf).
    destruct (line_facts n f d (Armijo c1 beta k mf) m1 s m2 s2 i Hmf Hg Hm HS) as (ds & p & h & r & C1 & C2 & C3 & C4 & C5 & C6 & C7 & C8).
    cbn [search] in C2. injection C2 as <- <-. assert (Hd : dirs (s_x s) (d_dir p)).
    { pose proof (proposes_ok n f d _ s _ p Hg C1) as HP. destruct d; [exact HP|exact I|exact I]. }
    split; intro Ha.
    + destruct (C7 Ha) as (ls & D1 & D2 & _). destruct (armijo_found n f c1 beta mf _ _ _ _ _ Hmf D1) as (j & J1 & J2 & J3 & J4).
      rewrite D2. exists (d_dir p), j. rewrite <- C5. split; [assumption|]. split; [assumption|]. split; [assumption|]. split; [assumption|]. split; assumption.
    + destruct (C8 Ha) as [D1 _]. exists (d_dir p). rewrite <- C5. split; [assumption|]. split; [assumption|].
      intros j Hj. now apply (armijo_not_found n f c1 beta mf _ _ _ k Hmf D1).
Qed.
Lemma armijo_decreases n f dirs c1 beta k x j y : 0 <= c1 -> 0 <= beta -> path (armijo_step n f dirs c1 beta k) x j y -> objective n f y <= objective n f x.
Proof.
  intros Hc Hb H. induction H as [x|x j y z Hp IH (d & e & _ & _ & Hy & Hs & Hle & _)]; [lra|]. 
  assert (0 <= beta ^ e) by (apply pow_le; exact Hb). assert (0 <= c1 * beta ^ e) by nra. nra.
Qed.
Theorem C82_never_increases : forall n f d c1 beta k mf m x0 f_tol x_tol maxiter o m' calls, same_residuals f mf -> 0 <= c1 -> 0 <= beta ->
  sparse_root n f (Line_search d (Armijo c1 beta k mf)) m x0 f_tol x_tol maxiter = Ok (Finished o m' calls) ->
  objective n f (o_x o) <= objective n f x0.
Proof.
  intros n f d c1 beta k mf m x0 f_tol x_tol maxiter o m' calls Hmf Hc Hb H. destruct (C82_every_step _ _ _ _ _ _ _ _ _ _ _ _ _ _ _ Hmf H) as [HP _].
  exact (armijo_decreases n f _ c1 beta k x0 (o_nit o) (o_x o) Hc Hb HP).
Qed.
(* case: 2 x - 6 = 0 from 0 ends at 3, which is a full Newton step away *)
Theorem C82_case : armijo_step 1 (scalar (fun x => 2 * x - 6) (fun _ => 2)) (newton_direction 1 (scalar (fun x => 2 * x - 6) (fun _ => 2)) divide) (/ 10000) (/ 2) 20 (fun _ => 0) (fun _ => 3).
Proof.
  set (f := scalar (fun x => 2 * x - 6) (fun _ => 2)).
  assert (ES : slope_at 1 f (fun _ => 0) (fun _ => 3) = -36) by (unfold slope_at, f, scalar, residual, jacobian; cbn; ring).
  exists (fun _ => 3), 0%nat. split.
  - exists (fun i => - residual f (fun _ => 0) i / 2). split.
    + left. unfold divide. destruct (Req_EM_T (jacobian f (fun _ => 0) 0%nat 0%nat) 0) as [C|_]; [cbn in C; lra|]. reflexivity.
    + left. assert (E : (fun i => - residual f (fun _ => 0) i / 2) = (fun _ => 3)) by (unfold residual, f, scalar; cbn; apply FunctionalExtensionality.functional_extensionality; intro; field).
      rewrite E, ES. split; [lra|reflexivity].
  - split; [lia|]. split; [unfold vadd, vscale; apply FunctionalExtensionality.functional_extensionality; intro; cbn; ring|]. rewrite ES. split; [lra|].
    split; [unfold objective, residual, f, scalar; cbn; lra|]. intros j Hj. lia.
Qed.

(* ---- C83: the search succeeds when enough reductions are allowed ---- *)
(* along d, each residual has at x the derivative that the Jacobian gives *)
Definition jacobian_correct n f (x d : vec) : Prop := forall i, (i < n)%nat ->
  derivable_pt_lim (fun a => residual f (vadd x (vscale a d)) i) 0 (rsum n (fun j => jacobian f x i j * d j)).
Lemma derivable_pt_lim_ext g h x l : (forall y, g y = h y) -> derivable_pt_lim g x l -> derivable_pt_lim h x l.
Proof. intros E H eps He. destruct (H eps He) as [del Hd]. exists del. intros u Hu1 Hu2. rewrite <- !E. now apply Hd. Qed.
Lemma derivable_rsum k (g : nat -> R -> R) (l : nat -> R) : (forall i, (i < k)%nat -> derivable_pt_lim (g i) 0 (l i)) ->
  derivable_pt_lim (fun a => rsum k (fun i => g i a)) 0 (rsum k l).
Proof.
  induction k as [|k IH]; intro H; cbn [rsum]; [apply derivable_pt_lim_const|].
  apply (derivable_pt_lim_plus (fun a => rsum k (fun i => g i a)) (g k)); [apply IH; intros; apply H; lia|apply H; lia].
Qed.
Lemma residual_here f x d i : residual f (vadd x (vscale 0 d)) i = residual f x i.
Proof. assert (E : vadd x (vscale 0 d) = x) by (apply FunctionalExtensionality.functional_extensionality; intro; unfold vadd, vscale; ring). now rewrite E. Qed.
Lemma objective_slope n f x d : jacobian_correct n f x d -> derivable_pt_lim (fun a => objective n f (vadd x (vscale a d))) 0 (slope_at n f x d).
Proof.
  intro H. set (l := fun i => rsum n (fun j => jacobian f x i j * d j)). set (g := fun (i : nat) (a : R) => residual f (vadd x (vscale a d)) i).
  assert (G0 : forall i, g i 0 = residual f x i) by (intro; apply residual_here).
  assert (D : derivable_pt_lim (fun a => rsum n (fun i => g i a * g i a)) 0 (rsum n (fun i => l i * g i 0 + g i 0 * l i))).
  { apply (derivable_rsum n (fun i a => g i a * g i a) (fun i => l i * g i 0 + g i 0 * l i)). intros i Hi. exact (derivable_pt_lim_mult (g i) (g i) 0 (l i) (l i) (H i Hi) (H i Hi)). }
  apply (derivable_pt_lim_scal _ (/ 2)) in D. replace (slope_at n f x d) with (/ 2 * rsum n (fun i => l i * g i 0 + g i 0 * l i)).
  - exact D.
  - unfold slope_at. rewrite <- rsum_scale. apply rsum_ext. intros i _. rewrite G0. unfold l. field.
Qed.
Lemma search_succeeds (phi : R -> R) slope c1 beta : derivable_pt_lim phi 0 slope -> slope < 0 -> 0 <= c1 < 1 -> 0 < beta < 1 ->
  exists j, phi (beta ^ j) <= phi 0 + c1 * beta ^ j * slope.
Proof.
  intros HD Hs Hc Hb. destruct (HD ((1 - c1) * - slope)) as [del Hdel]; [nra|].
  destruct (pow_lt_1_zero beta (Rabs_def1 _ _ (proj2 Hb) (Rlt_trans _ _ _ (Ropp_lt_gt_0_contravar 1 Rlt_0_1) (proj1 Hb))) del (cond_pos del)) as [N HN].
  exists N. specialize (HN N (le_n N)). assert (Hp : 0 < beta ^ N) by (apply pow_lt; lra).
  specialize (Hdel (beta ^ N) ltac:(lra) HN). rewrite Rplus_0_l in Hdel.
  apply Rabs_def2 in Hdel. destruct Hdel as [Hd _]. set (q := (phi (beta ^ N) - phi 0) / beta ^ N) in *.
  assert (Eq : phi (beta ^ N) - phi 0 = q * beta ^ N) by (unfold q; field; lra). nra.
Qed.
Lemma vec_ext (u v : vec) : (forall i, u i = v i) -> u = v.
Proof. apply FunctionalExtensionality.functional_extensionality. Qed.
Lemma newton_slope n f x p : solves n (jacobian f x) (fun i => - residual f x i) p -> slope_at n f x p = - (2 * objective n f x).
Proof.
  intro H. unfold slope_at, objective. rewrite (rsum_ext n _ (fun i => -1 * (residual f x i * residual f x i))) by (intros i Hi; rewrite (H i Hi); ring).
  rewrite rsum_scale. field.
Qed.
Lemma steepest_slope n f x : slope_at n f x (steepest n f x) = - rsum n (fun i => steepest n f x i * steepest n f x i).
Proof.
  change (slope_at n f x (steepest n f x)) with (dot n (residual f x) (mv n (jacobian f x) (steepest n f x))). rewrite <- adjoint.
  change (steepest n f x) with (vneg (tmv n (jacobian f x) (residual f x))). rewrite dot_neg.
  change (rsum n (fun i => vneg (tmv n (jacobian f x) (residual f x)) i * vneg (tmv n (jacobian f x) (residual f x)) i)) with (dot n (vneg (tmv n (jacobian f x) (residual f x))) (vneg (tmv n (jacobian f x) (residual f x)))).
  rewrite dot_neg, dot_neg_l. ring.
Qed.
Lemma rsum_sq_pos n u : (exists i, (i < n)%nat /\ u i <> 0) -> 0 < rsum n (fun i => u i * u i).
Proof.
  intros (i & Hi & Hu). pose proof (dot_pos n u) as H. unfold dot in H. destruct (Req_dec (rsum n (fun i => u i * u i)) 0) as [E|N]; [|lra].
  pose proof (dot_self_zero n u E i Hi). contradiction.
Qed.
(* where the linear system can be solved exactly the direction is the solution and the slope is minus twice the objective; where not,
   it is minus the gradient, and the slope is minus its square *)
Theorem C83_newton_direction : forall n f lin x d, newton_direction n f lin x d ->
  (forall p, lin (jacobian f x) (fun i => - residual f x i) = Some p -> solves n (jacobian f x) (fun i => - residual f x i) p ->
     0 < objective n f x -> d = p /\ slope_at n f x d = - (2 * objective n f x)) /\
  (lin (jacobian f x) (fun i => - residual f x i) = None -> (exists i, (i < n)%nat /\ steepest n f x i <> 0) ->
     d = steepest n f x /\ slope_at n f x d = - rsum n (fun i => steepest n f x i * steepest n f x i)).
Proof.
  intros n f lin x d (e & He & Hd). split.
  - intros p Hp Hsol Hpos. pose proof (newton_slope n f x p Hsol) as HS. destruct He as [He|[He _]]; [|congruence]. assert (e = p) as -> by congruence.
    destruct Hd as [[_ ->]|[Hd _]]; [auto|lra].
  - intros Hn Hst. pose proof (steepest_slope n f x) as HS. pose proof (rsum_sq_pos n _ Hst). destruct He as [He|[_ ->]]; [congruence|].
    destruct Hd as [[_ ->]|[Hd _]]; [auto|lra].
Qed.
Lemma path_first A x k y : path A x (S k) y -> exists z, A x z /\ path A z k y.
Proof.
  revert y. induction k as [|k IH]; intros y H; inversion H as [|x' k' y' z' Hp Ha]; subst.
  - inversion Hp; subst. exists y. split; [assumption|constructor].
  - destruct (IH _ Hp) as (z & Hz & Hz'). exists z. split; [assumption|]. econstructor; eassumption.
Qed.
Theorem C83_search_succeeds : forall n f lin c1 beta x0 d, 0 < c1 < 1 -> 0 < beta < 1 ->
  (* the direction: the Newton direction where the system is solved, minus the gradient where the solver fails *)
  lin (jacobian f x0) (fun i => - residual f x0 i) = Some d /\ solves n (jacobian f x0) (fun i => - residual f x0 i) d /\ 0 < objective n f x0 \/
  lin (jacobian f x0) (fun i => - residual f x0 i) = None /\ d = steepest n f x0 /\ (exists i, (i < n)%nat /\ steepest n f x0 i <> 0) ->
  jacobian_correct n f x0 d ->
  exists K, forall k m f_tol x_tol maxiter o m' calls, (K <= k)%nat -> (0 < maxiter)%nat -> ~ (forall i, (i < n)%nat -> Rabs (residual f x0 i) < f_tol) ->
    sparse_root n f (Line_search (Newton lin) (Armijo c1 beta k None)) m x0 f_tol x_tol maxiter = Ok (Finished o m' calls) ->
    (0 < o_nit o)%nat /\ objective n f (o_x o) < objective n f x0.
Proof.
  intros n f lin c1 beta x0 d Hc Hb Hd HJ.
  assert (Hneg : slope_at n f x0 d < 0).
  { destruct Hd as [(H1 & H2 & H3)|(H1 & -> & H3)]; [rewrite newton_slope by assumption; lra|]. rewrite steepest_slope. pose proof (rsum_sq_pos n _ H3). lra. }
  assert (Hdir : forall e, newton_direction n f lin x0 e -> e = d).
  { intros e He. destruct (C83_newton_direction n f lin x0 e He) as [N1 N2]. destruct Hd as [(H1 & H2 & H3)|(H1 & -> & H3)]; [now apply N1|now apply N2]. }
  destruct (search_succeeds _ _ c1 beta (objective_slope n f x0 d HJ) Hneg ltac:(lra) Hb) as [j0 Hj].
  assert (E0 : vadd x0 (vscale 0 d) = x0) by (apply vec_ext; intro; unfold vadd, vscale; ring). rewrite E0 in Hj.
  exists (S j0). intros k m f_tol x_tol maxiter o m' calls Hk Hmax Hnot H.
  destruct (C82_every_step n f (Newton lin) c1 beta k None m x0 f_tol x_tol maxiter o m' calls I H) as [HP HF].
  destruct (C35_result _ _ _ _ _ _ _ _ _ _ _ H) as (R1 & R2 & R3 & R4 & R5).
  assert (Hnit : (0 < o_nit o)%nat).
  { destruct (o_nit o) as [|q] eqn:EN; [exfalso|lia]. assert (EX : o_x o = x0) by (inversion HP; reflexivity || (symmetry; assumption)). rewrite EX in *.
    destruct (o_success o).
    - destruct (R5 eq_refl) as [C|(j & o1 & m1 & c2 & dx & md & mx & C & _)]; [apply Hnot; rewrite R1 in C; exact C|discriminate].
    - destruct (HF eq_refl) as [C|(e & He & _ & Hno)]; [lia|]. rewrite (Hdir e He) in Hno. specialize (Hno j0 ltac:(lia)). lra. }
  split; [assumption|]. destruct (o_nit o) as [|q]; [lia|]. destruct (path_first _ _ _ _ HP) as (z & (e & j & He & Hjk & Ez & _ & Hle & _) & HP').
  rewrite (Hdir e He) in *. apply armijo_decreases in HP'; [|lra|lra]. assert (0 < beta ^ j) by (apply pow_lt; lra). assert (0 < c1 * beta ^ j) by nra. nra.
Qed.
(* case: x^2 - 2 = 0 from 1 *)
Theorem C83_case : let f := scalar (fun x => x * x - 2) (fun x => 2 * x) in
  let d := fun i : nat => - residual f (fun _ => 1) i / 2 in
  divide (jacobian f (fun _ => 1)) (fun i => - residual f (fun _ => 1) i) = Some d /\ solves 1 (jacobian f (fun _ => 1)) (fun i => - residual f (fun _ => 1) i) d /\
  0 < objective 1 f (fun _ => 1) /\ jacobian_correct 1 f (fun _ => 1) d.
Proof.
  cbv zeta. set (f := scalar (fun x => x * x - 2) (fun x => 2 * x)). set (d := fun i : nat => - residual f (fun _ => 1) i / 2).
  assert (Ed : divide (jacobian f (fun _ => 1)) (fun i => - residual f (fun _ => 1) i) = Some d).
  { unfold divide. destruct (Req_EM_T (jacobian f (fun _ => 1) 0%nat 0%nat) 0) as [C|_]; [cbn in C; lra|]. f_equal. apply vec_ext. intro i. unfold d, jacobian, f, scalar. cbn. field. }
  split; [assumption|]. split; [now apply divide_exact|]. split; [unfold objective, residual, f, scalar; cbn; lra|].
  intros i Hi. replace i with 0%nat by lia. cbn [rsum].
  apply (derivable_pt_lim_ext (fun a => (1 + a * d 0%nat) * (1 + a * d 0%nat) - 2)); [reflexivity|].
  assert (D1 : derivable_pt_lim (fun a => 1 + a * d 0%nat) 0 (0 + (1 * d 0%nat + 0 * 0))).
  { apply (derivable_pt_lim_plus (fun _ => 1) (fun a => a * d 0%nat)); [apply derivable_pt_lim_const|]. apply (derivable_pt_lim_mult (fun a => a) (fun _ => d 0%nat)); [apply derivable_pt_lim_id|apply derivable_pt_lim_const]. }
  pose proof (derivable_pt_lim_mult _ _ _ _ _ D1 D1) as D2. pose proof (derivable_pt_lim_minus _ _ _ _ _ D2 (derivable_pt_lim_const 2 0)) as D3.
  cbn beta in D3.
  match type of D3 with derivable_pt_lim _ _ ?l => replace (0 + jacobian f (fun _ => 1) 0%nat 0%nat * d 0%nat) with l by (unfold jacobian, f, scalar; cbn; ring) end. exact D3.
Qed.

(* ---- C84: the nonmonotone search ---- *)
(* a list of successive points, newest first *)
Definition largest_of (l : list R) (m : R) : Prop := In m l /\ forall y, In y l -> y <= m.
Definition nonmonotone_trail n f (c1 beta : R) (memory : nat) (trail : list vec) : Prop :=
  forall newer z y older, trail = (newer ++ z :: y :: older)%list ->
    exists d j ref, z = vadd y (vscale (beta ^ j) d) /\ slope_at n f y d <= 0 /\ largest_of (firstn memory (map (objective n f) (y :: older))) ref /\
      objective n f z <= ref + c1 * beta ^ j * slope_at n f y d.
Lemma list_max_spec : forall l y, largest_of (y :: l) (list_max y l).
Proof.
  induction l as [|z l IH]; intro y; cbn [list_max].
  - split; [now left|]. intros x [->|[]]. lra.
  - destruct (IH z) as [I1 I2]. unfold Rmax. destruct (Rle_dec y (list_max z l)).
    + split; [right; assumption|]. intros x [<-|Hx]; [assumption|now apply I2].
    + split; [now left|]. intros x [<-|Hx]; [lra|]. specialize (I2 x Hx). lra.
Qed.
(* the deque holds the newest [memory] values, oldest first *)
Lemma push_firstn memory l x : (0 < memory)%nat -> push memory (rev (firstn memory l)) x = rev (firstn memory (x :: l)).
Proof.
  intro Hm. destruct memory as [|q]; [lia|]. unfold push. change (firstn (S q) (x :: l)) with (x :: firstn q l). cbn [rev].
  destruct (le_lt_dec (S q) (length l)) as [H|H].
  - assert (EL : length (rev (firstn (S q) l) ++ [x]) = S (S q)) by (rewrite app_length, rev_length, firstn_length_le by lia; cbn [length]; lia). rewrite EL.
    replace (S (S q) - S q)%nat with 1%nat by lia.
    assert (Hsp : exists a, firstn (S q) l = firstn q l ++ [a]).
    { clear -H. revert l H. induction q as [|q IH]; intros [|b l] H; cbn in H; try lia; [exists b; reflexivity|]. destruct (IH l ltac:(lia)) as [a Ha]. exists a.
      change (firstn (S (S q)) (b :: l)) with (b :: firstn (S q) l). rewrite Ha. reflexivity. }
    destruct Hsp as [a ->]. rewrite rev_app_distr. reflexivity.
  - rewrite (firstn_all2 l) by lia. assert (EL : length (rev l ++ [x]) = S (length l)) by (rewrite app_length, rev_length; cbn; lia). rewrite EL.
    replace (S (length l) - S q)%nat with 0%nat by lia. cbn [skipn]. rewrite (firstn_all2 l) by lia. reflexivity.
Qed.
Lemma largest_rev l m : largest_of (rev l) m -> largest_of l m.
Proof. intros [H1 H2]. split; [now apply in_rev|]. intros y Hy. apply H2. now apply in_rev in Hy. Qed.
Lemma nonmonotone_reference n f c1 beta k memory mf older h x p h' r : (0 < memory)%nat -> h = rev (firstn memory older) ->
  search n f (Nonmonotone c1 beta k memory mf) h x (objective n f x) p = Ok (h', r) ->
  h' = rev (firstn memory (objective n f x :: older)) /\ exists ref, largest_of (firstn memory (objective n f x :: older)) ref /\
    r = backtrack n f c1 beta mf x (d_dir p) (d_slope p) ref k 1 1.
Proof.
  intros Hm -> H. cbn [search] in H. rewrite push_firstn in H by assumption. set (l := firstn memory (objective n f x :: older)) in *.
  destruct (rev l) as [|y w] eqn:E; [discriminate|]. injection H as <- <-. split; [reflexivity|]. exists (list_max y w). split; [|reflexivity].
  apply largest_rev. rewrite E. apply list_max_spec.
Qed.
Lemma trail_grows n f c1 beta k memory mf m s m' s' i trail : (0 < memory)%nat -> same_residuals f mf -> good f s -> measured n f s ->
  m_history m = rev (firstn memory (map (objective n f) (tl trail))) -> hd_error trail = Some (s_x s) -> nonmonotone_trail n f c1 beta memory trail ->
  forall d, step n f (Line_search d (Nonmonotone c1 beta k memory mf)) m s = Ok (Stepped m' s' i) -> i_accepted i = true ->
  m_history m' = rev (firstn memory (map (objective n f) trail)) /\ nonmonotone_trail n f c1 beta memory (s_x s' :: trail).
Proof.
  intros Hmem Hmf Hg Hm Hh Ht Htr d HS Ha. destruct trail as [|x0 older]; [discriminate|]. injection Ht as ->. cbn [tl] in Hh.
  destruct (line_facts n f d (Nonmonotone c1 beta k memory mf) m s m' s' i Hmf Hg Hm HS) as (ds & p & h & r & C1 & C2 & C3 & C4 & C5 & C6 & C7 & C8).
  destruct (nonmonotone_reference n f c1 beta k memory mf (map (objective n f) older) (m_history m) (s_x s) p h r Hmem Hh C2) as (E1 & ref & E2 & E3).
  split; [rewrite C3; exact E1|]. destruct (C7 Ha) as (ls & D1 & D2 & _). rewrite D1 in E3. symmetry in E3. apply backtrack_spec in E3.
  destruct E3 as (j & J1 & J2 & J3 & J4 & J5 & J6 & _). rewrite Rmult_1_l in J3, J6.
  intros newer z y older' E. destruct newer as [|w newer]; cbn [app] in E.
  - injection E as Ez <- <-. exists (d_dir p), j, ref. rewrite <- Ez. split; [rewrite D2; exact J3|]. rewrite <- C5. split; [assumption|].
    split; [exact E2|]. rewrite D2, <- (test_same n f mf) by assumption. rewrite <- J5. exact J6.
  - injection E as _ Eo. apply (Htr newer z y older' Eo).
Qed.
Theorem C84_every_step : forall n f d c1 beta k memory mf m x0 f_tol x_tol maxiter o m' calls, same_residuals f mf -> (0 < memory)%nat -> m_history m = nil ->
  sparse_root n f (Line_search d (Nonmonotone c1 beta k memory mf)) m x0 f_tol x_tol maxiter = Ok (Finished o m' calls) ->
  exists trail, length trail = S (o_nit o) /\ hd_error trail = Some (o_x o) /\ last trail (o_x o) = x0 /\ nonmonotone_trail n f c1 beta memory trail.
Proof.
  intros n f d c1 beta k memory mf m x0 f_tol x_tol maxiter o m' calls Hmf Hmem Hh H. set (v := Line_search d _) in *.
  destruct (start_good n f x0) as (G1 & G2 & G3 & G4).
  set (P := fun (s : state) (trail : list vec) => length trail = S (s_nit s) /\ hd_error trail = Some (s_x s) /\ last trail (s_x s) = x0 /\ nonmonotone_trail n f c1 beta memory trail).
  assert (Hfin : forall s b, (exists trail, P s trail) -> exists trail, length trail = S (o_nit (make_result s b)) /\ hd_error trail = Some (o_x (make_result s b)) /\
     last trail (o_x (make_result s b)) = x0 /\ nonmonotone_trail n f c1 beta memory trail) by (intros s b Hx; exact Hx).
  assert (Hit : forall kk m s c, good f s -> measured n f s -> (exists trail, P s trail /\ m_history m = rev (firstn memory (map (objective n f) (tl trail)))) ->
     iterate n f v f_tol x_tol kk m s c = Ok (Finished o m' calls) ->
     exists trail, length trail = S (o_nit o) /\ hd_error trail = Some (o_x o) /\ last trail (o_x o) = x0 /\ nonmonotone_trail n f c1 beta memory trail).
  { induction kk as [|kk IH]; intros m1 s c Hg Hm (trail & (T1 & T2 & T3 & T4) & T5) HI; cbn [iterate] in HI.
    - injection HI as <- _ _. apply Hfin. exists trail. unfold P. auto.
    - destruct (step n f v m1 s) as [st|] eqn:ES; [|discriminate]. cbn [bind] in HI.
      destruct (step_facts n f v m1 s st Hg ES) as (m2 & s2 & i & -> & F1 & F2 & F3). destruct (i_accepted i) eqn:EA; cbn [negb] in HI.
      + destruct (F3 eq_refl) as (F4 & F5 & F6 & F7). destruct (trail_grows n f c1 beta k memory mf m1 s m2 s2 i trail Hmem Hmf Hg Hm T5 T2 T4 d ES EA) as [U1 U2].
        assert (HP : P s2 (s_x s2 :: trail)).
        { unfold P. cbn [length hd_error]. split; [lia|]. split; [reflexivity|]. split; [|assumption]. destruct trail as [|w t]; [discriminate|].
          cbn [last]. rewrite <- T3. clear. revert w. induction t as [|w' t IHt]; intro w; [reflexivity|]. cbn [last] in *. exact (IHt w'). }
        destruct (converged n s2 f_tol x_tol (i_step i)).
        * injection HI as <- _ _. apply Hfin. eauto.
        * apply (IH m2 s2 (c + i_calls i)%nat); [assumption|apply F7; exact Hmf| |assumption]. exists (s_x s2 :: trail). split; [assumption|]. exact U1.
      + injection HI as <- _ _. rewrite (F2 eq_refl). apply Hfin. exists trail. unfold P. auto. }
  assert (H0 : P (start n f x0) [x0]).
  { unfold P. rewrite G3, G4. split; [reflexivity|]. split; [reflexivity|]. split; [reflexivity|]. intros newer z y older E. destruct newer as [|a [|b newer]]; discriminate. }
  unfold sparse_root in H. destruct (Nat.eqb n 0); [discriminate|]. destruct (rltb (maxabs n (s_res (start n f x0))) f_tol).
  - injection H as <- _ _. apply Hfin. eauto.
  - apply Hit in H; [assumption|assumption|assumption|]. exists [x0]. split; [assumption|]. cbn. rewrite Hh. destruct memory; reflexivity.
Qed.
Lemma trail_below n f c1 beta memory B x0 : 0 <= c1 -> 0 <= beta -> forall trail, nonmonotone_trail n f c1 beta memory trail ->
  last trail x0 = x0 -> objective n f x0 <= B -> forall x, In x trail -> objective n f x <= B.
Proof.
  intros Hc Hb trail. induction trail as [|z trail IH]; intros H Hl HB x Hx; [destruct Hx|]. destruct trail as [|y older].
  - destruct Hx as [<-|[]]. cbn in Hl. now rewrite Hl.
  - assert (Hold : forall w, In w (y :: older) -> objective n f w <= B).
    { apply IH; [|exact Hl|assumption]. intros newer z' y' older' E. apply (H (z :: newer) z' y' older'). rewrite E. reflexivity. }
    destruct Hx as [<-|Hx]; [|now apply Hold]. destruct (H nil z y older eq_refl) as (d & j & ref & _ & A1 & [A2 _] & A3).
    assert (ref <= B). { assert (HIn : In ref (map (objective n f) (y :: older))) by (rewrite <- (firstn_skipn memory); apply in_or_app; now left).
      apply in_map_iff in HIn. destruct HIn as (w & <- & Hw). now apply Hold. }
    assert (0 <= beta ^ j) by now apply pow_le. assert (0 <= c1 * beta ^ j) by nra. nra.
Qed.
Lemma last_any {A} (l : list A) a b : l <> nil -> last l a = last l b.
Proof. induction l as [|x [|y l] IH]; intro H; [contradiction|reflexivity|]. cbn [last] in *. apply IH. discriminate. Qed.
(* the objective may rise on the way, but not above where it started *)
Theorem C84_bounded_by_start : forall n f d c1 beta k memory mf m x0 f_tol x_tol maxiter o m' calls, same_residuals f mf -> (0 < memory)%nat -> m_history m = nil -> 0 <= c1 -> 0 <= beta ->
  sparse_root n f (Line_search d (Nonmonotone c1 beta k memory mf)) m x0 f_tol x_tol maxiter = Ok (Finished o m' calls) ->
  objective n f (o_x o) <= objective n f x0.
Proof.
  intros n f d c1 beta k memory mf m x0 f_tol x_tol maxiter o m' calls Hmf Hmem Hh Hc Hb H.
  destruct (C84_every_step _ _ _ _ _ _ _ _ _ _ _ _ _ _ _ _ Hmf Hmem Hh H) as (trail & T1 & T2 & T3 & T4). destruct trail as [|z t]; [discriminate|]. injection T2 as ->.
  rewrite (last_any _ _ x0) in T3 by discriminate.
  apply (trail_below n f c1 beta memory (objective n f x0) x0 Hc Hb _ T4 T3); [lra|now left].
Qed.
(* memory one is Armijo's rule, whatever the object did before *)
Lemma push_one h x : push 1 h x = [x].
Proof. unfold push. rewrite app_length. cbn [length]. replace (length h + 1 - 1)%nat with (length h) by lia. rewrite skipn_app, skipn_all, Nat.sub_diag. reflexivity. Qed.
Lemma memory_one_iterate n f d c1 beta k mf f_tol x_tol : forall q s c sc ds h2 h1 o m' calls,
  iterate n f (Line_search d (Armijo c1 beta k mf)) f_tol x_tol q (Mem ds h1 sc) s c = Ok (Finished o m' calls) ->
  exists m'', iterate n f (Line_search d (Nonmonotone c1 beta k 1 mf)) f_tol x_tol q (Mem ds h2 sc) s c = Ok (Finished o m'' calls).
Proof.
  induction q as [|q IH]; intros s c sc ds h2 h1 o m' calls H; cbn [iterate] in *; [injection H as <- _ <-; eauto|].
  cbn [step] in *. unfold line_step in *. cbn [fst snd m_dir m_history] in *. destruct (compute n d ds (s_res s) (s_jac s)) as [[ds' p]|]; [|discriminate]. cbn [bind fst snd search] in *.
  rewrite push_one. cbn [list_max bind fst snd search_iterations search_merit] in *. destruct (backtrack n f c1 beta mf (s_x s) (d_dir p) (d_slope p) (s_phi s) k 1 1) as [ls|]; cbn [bind negb i_accepted] in *.
  - destruct (converged n _ f_tol x_tol _); [injection H as <- _ <-; eauto|]. cbn [m_scalar] in *. eapply IH. exact H.
  - injection H as <- _ <-. eauto.
Qed.
Theorem C84_memory_one : forall n f d c1 beta k mf m x0 f_tol x_tol maxiter o m' calls,
  sparse_root n f (Line_search d (Armijo c1 beta k mf)) m x0 f_tol x_tol maxiter = Ok (Finished o m' calls) ->
  exists m'', sparse_root n f (Line_search d (Nonmonotone c1 beta k 1 mf)) m x0 f_tol x_tol maxiter = Ok (Finished o m'' calls).
Proof.
  intros n f d c1 beta k mf m x0 f_tol x_tol maxiter o m' calls. unfold sparse_root. destruct (Nat.eqb n 0); [discriminate|].
  destruct (rltb (maxabs n (s_res (start n f x0))) f_tol); [intro H; injection H as <- _ <-; eauto|]. apply memory_one_iterate.
Qed.
Theorem C84_no_memory : forall n f d c1 beta k mf m x0 f_tol x_tol maxiter, (0 < n)%nat -> (0 < maxiter)%nat ->
  match d with Newton _ => True | Chord _ every => (0 < every)%nat | Krylov method _ _ _ => method <> None end ->
  (exists i, (i < n)%nat /\ f_tol <= Rabs (residual f x0 i)) ->
  sparse_root n f (Line_search d (Nonmonotone c1 beta k 0 mf)) m x0 f_tol x_tol maxiter = Err ValueError.
Proof.
  intros n f d c1 beta k mf m x0 f_tol x_tol maxiter Hn Hmax Hd (i & Hi & Hr). unfold sparse_root. destruct (Nat.eqb_spec n 0); [lia|].
  assert (ER : s_res (start n f x0) = residual f x0) by (unfold start, residual; destruct (f x0); reflexivity).
  pose proof (maxabs_ge n (residual f x0) i Hi). rewrite ER. destruct (rltb_spec (maxabs n (residual f x0)) f_tol); [lra|].
  destruct maxiter as [|q]; [lia|]. cbn [iterate step init]. unfold line_step. cbn [fst snd m_dir m_history].
  destruct (compute_ok n d (reset d (m_dir m)) (s_res (start n f x0)) (s_jac (start n f x0)) Hd) as [[ds p] ->]. cbn [bind fst snd search].
  assert (EP : forall h x, push 0 h x = nil) by (intros h x; unfold push; rewrite Nat.sub_0_r; apply skipn_all). rewrite EP. reflexivity.
Qed.
(* used a second time, the object remembers the values of its first run: x^3 - 2 x + 2 = 0 from 2, then from 1 *)
Theorem C84_reuse_refuted : ~ forall n f d c1 beta k memory m x0 f_tol x_tol maxiter o m' calls y0 o2 m2 calls2, (0 < memory)%nat -> m_history m = nil -> 0 <= c1 -> 0 <= beta ->
  sparse_root n f (Line_search d (Nonmonotone c1 beta k memory None)) m y0 f_tol x_tol maxiter = Ok (Finished o2 m2 calls2) ->
  sparse_root n f (Line_search d (Nonmonotone c1 beta k memory None)) m2 x0 f_tol x_tol maxiter = Ok (Finished o m' calls) ->
  objective n f (o_x o) <= objective n f x0.
Proof.
  intro H. set (r := fun x : R => x ^ 3 - 2 * x + 2). set (J := fun x : R => 3 * x ^ 2 - 2). set (g := Nonmonotone (/ 10000) (/ 2) 20 10 None).
  assert (R2 : r 2 = 6) by (unfold r; lra). assert (J2 : J 2 = 10) by (unfold J; lra). assert (R1 : r 1 = 1) by (unfold r; lra). assert (J1 : J 1 = 1) by (unfold J; lra).
  assert (R0 : r 0 = 2) by (unfold r; lra). assert (RN : r (7 / 5) = 243 / 125) by (unfold r; field).
  destruct (one_newton r J g fresh 2 (/ 100) (/ 100) 18) as (o2 & m2 & c2 & E & E1 & E2 & E3 & _).
  - reflexivity.
  - cbn. lia.
  - rewrite J2. lra.
  - rewrite R2. lra.
  - rewrite R2, Rabs_right; lra.
  - cbn. rewrite R2. f_equal. lra.
  - rewrite R2, J2. replace (2 + - (6) / 10) with (7 / 5) by field. rewrite RN. cbn [c1_of g]. lra.
  - destruct (one_newton r J g m2 1 (/ 100) (/ 100) 18) as (o & m' & c & F & F1 & F2 & F3 & _).
    + reflexivity.
    + cbn. lia.
    + rewrite J1. lra.
    + rewrite R1. lra.
    + rewrite R1, Rabs_right; lra.
    + rewrite E3. cbn. rewrite R2, R1. f_equal. rewrite Rmax_left; lra.
    + rewrite R1, J1. replace (1 + - (1) / 1) with 0 by field. rewrite R0. cbn [c1_of g]. lra.
    + assert (P1 : 0 <= / 10000) by lra. assert (P2 : 0 <= / 2) by lra. assert (P3 : (0 < 10)%nat) by lia.
      pose proof (H 1%nat _ _ _ _ _ 10%nat fresh _ _ _ _ _ _ _ _ _ _ _ P3 eq_refl P1 P2 E F) as C.
      rewrite R1, J1 in F1. replace (1 + - (1) / 1) with 0 in F1 by field. unfold objective, residual, scalar in C. cbn in C. rewrite F1, R0, R1 in C. lra.
Qed.
(* case: the hypotheses of the first two theorems are met by the first of these runs *)
Theorem C84_case : exists o m' c, sparse_root 1 (scalar (fun x => 2 * x - 6) (fun _ => 2)) (Line_search (Newton divide) (Nonmonotone (/ 10000) (/ 2) 20 10 None)) fresh (fun _ => 0) (/ 100) (/ 100) 1
    = Ok (Finished o m' c) /\ o_x o 0%nat = 3 /\ m_history m' = [18].
Proof.
  destruct (one_newton (fun x => 2 * x - 6) (fun _ => 2) (Nonmonotone (/ 10000) (/ 2) 20 10 None) fresh 0 (/ 100) (/ 100) 18) as (o & m' & c & E & E1 & E2 & E3 & E4);
    try reflexivity; cbn [search_iterations c1_of]; try lia; try lra.
  - rewrite Rabs_left; lra.
  - cbn. f_equal. lra.
  - exists o, m', c. split; [exact E|]. split; [rewrite E1; lra|]. rewrite E3. cbn. f_equal. lra.
Qed.
