(* Properties C22, C23, C62, C63, C64: linearisation. *)
From Verif Require Import Common Sort_Lib Sym_Model Sym_Spec Sym_Proofs Sym_More Build_Model Build_Proofs Build_Order Lin_Model Lin_Spec Lin_Proofs Lin_Main Lin_Results.
From Coq Require Import Permutation Reals Lra.
Local Open Scope list_scope.

(* ---------------- C22 ---------------- *)
(* The decision-rule orders permute variables and equations, group them by the dates they involve, with the announced
   sizes, and the inverse orders undo them. *)
Theorem C22_orders_are_permutations :
  forall vars eqs, let o := from_model vars eqs in
  Permutation (var_order o) (seq 0 (length vars)) /\ Permutation (eq_order o) (seq 0 (length eqs)) /\
  (forall i, (i < length vars)%nat -> nth (nth i (inv_var_order o) 0%nat) (var_order o) 0%nat = i) /\
  (forall i, (i < length eqs)%nat -> nth (nth i (inv_eq_order o) 0%nat) (eq_order o) 0%nat = i) /\
  (n_static_var o + n_pred_var o + n_mixed_var o + n_forward_var o = length vars)%nat /\
  (n_static_eq o + n_lag_eq o + n_lead_eq o + n_both_eq o = length eqs)%nat /\
  (forall k i v, nth_error (var_order o) k = Some i -> nth_error vars i = Some v ->
     let n1 := n_static_var o in let n2 := (n1 + n_pred_var o)%nat in let n3 := (n2 + n_mixed_var o)%nat in
     ((k < n1)%nat -> ~ appears eqs v (-1) /\ ~ appears eqs v 1) /\
     ((n1 <= k < n2)%nat -> appears eqs v (-1) /\ ~ appears eqs v 1) /\
     ((n2 <= k < n3)%nat -> appears eqs v (-1) /\ appears eqs v 1) /\
     ((n3 <= k)%nat -> ~ appears eqs v (-1) /\ appears eqs v 1)) /\
  (forall k i eq, nth_error (eq_order o) k = Some i -> nth_error eqs i = Some eq ->
     let n1 := n_static_eq o in let n2 := (n1 + n_lag_eq o)%nat in let n3 := (n2 + n_lead_eq o)%nat in
     ((k < n1)%nat -> ~ uses_date vars eq (-1) /\ ~ uses_date vars eq 1) /\
     ((n1 <= k < n2)%nat -> uses_date vars eq (-1) /\ ~ uses_date vars eq 1) /\
     ((n2 <= k < n3)%nat -> ~ uses_date vars eq (-1) /\ uses_date vars eq 1) /\
     ((n3 <= k)%nat -> uses_date vars eq (-1) /\ uses_date vars eq 1)).
Proof.
  intros vars eqs o. split; [apply var_order_perm|]. split; [apply eq_order_perm|].
  assert (Inv : forall p n, Permutation p (seq 0 n) -> forall i, (i < n)%nat -> nth (nth i (argsort p) 0%nat) p 0%nat = i).
  { intros p n Hp i Hi. pose proof (argsort_inverts p n Hp) as E. apply (f_equal (fun l => nth i l (nth 0 p 0)))%nat in E.
    rewrite (map_nth (fun i => nth i p 0%nat)) in E. rewrite E. now rewrite seq_nth by exact Hi. }
  split; [apply Inv, var_order_perm|]. split; [apply Inv, eq_order_perm|].
  assert (Lv : length (v_lag vars eqs) = length (v_lead vars eqs)) by (unfold v_lag, v_lead; now rewrite !map_length).
  assert (Le : length (e_lag vars eqs) = length (e_lead vars eqs)) by (unfold e_lag, e_lead; now rewrite !map_length).
  split; [|split].
  - pose proof (four_counts _ _ Lv) as E. unfold v_lag at 5 in E. rewrite map_length in E. exact E.
  - pose proof (four_counts _ _ Le) as E. unfold e_lag at 5 in E. rewrite map_length in E. cbn in *. lia.
  - split.
    + intros k i v Hk Hv. destruct (v_at (-1) vars eqs i v Hv) as (x & Hx & Ix). destruct (v_at 1 vars eqs i v Hv) as (y & Hy & Iy).
      pose proof (four_blocks _ _ false k i x y Hk Hx Hy) as B. cbn zeta in B |- *. rewrite <- Ix, <- Iy.
      destruct B as (B1 & B2 & B3 & B4). split; [|split; [|split]]; intro L; [apply B1 in L|apply B2 in L|apply B3 in L|apply B4 in L]; destruct L as [-> ->]; split; discriminate || reflexivity.
    + intros k i v Hk Hv. destruct (e_at (-1) vars eqs i v Hv) as (x & Hx & Ix). destruct (e_at 1 vars eqs i v Hv) as (y & Hy & Iy).
      pose proof (four_blocks _ _ true k i x y Hk Hx Hy) as B. cbn zeta in B |- *. rewrite <- Ix, <- Iy.
      destruct B as (B1 & B2 & B3 & B4). split; [|split; [|split]]; intro L; [apply B1 in L|apply B2 in L|apply B3 in L|apply B4 in L]; destruct L as [-> ->]; split; discriminate || reflexivity.
Qed.
Print Assumptions C22_orders_are_permutations.

(* A, B, C, D are the derivatives of the equations at the steady state, rows and columns in model order: A for lags, B for
   the current date, C for leads, in logarithms or in levels according to the arguments, D for the shocks in levels. *)
Theorem C22_linearised_matrices :
  forall G ord simp f_ss solve_ss m a ss pt A B C D,
  set_order_ok ord -> simp_ok simp -> well_formed m ->
  linearize G ord simp f_ss solve_ss m a = Ok (A, B, C, D) ->
  steady_of f_ss solve_ss m a = Ok ss -> model_ordered m ss -> at_rest m ss (a_params a) pt ->
  has_shape A (length (l_eqs m)) (length (l_vars m)) /\ has_shape B (length (l_eqs m)) (length (l_vars m)) /\
  has_shape C (length (l_eqs m)) (length (l_vars m)) /\ has_shape D (length (l_eqs m)) (length (l_shocks m)) /\
  forall i eq, nth_error (l_eqs m) i = Some eq -> defined G pt eq ->
    (forall j v, nth_error (l_vars m) j = Some v -> exists x y z,
       entry A i j = Some x /\ entry B i j = Some y /\ entry C i j = Some z /\
       (enters_in_logs m a pt v ->
          log_derivative G eq pt (SDate v (-1)) x /\ log_derivative G eq pt (SDate v 0) y /\ log_derivative G eq pt (SDate v 1) z) /\
       (stays_in_levels m a pt v ->
          level_derivative G eq pt (SDate v (-1)) x /\ level_derivative G eq pt (SDate v 0) y /\ level_derivative G eq pt (SDate v 1) z)) /\
    (forall j s, nth_error (l_shocks m) j = Some s -> exists d, entry D i j = Some d /\ level_derivative G eq pt (SDate s 0) d).
Proof.
  intros G ord simp f_ss solve_ss m a ss pt A B C D Ho Hs Hw H Hss Hm Hp.
  destruct (linearize_derivatives G ord Ho simp Hs f_ss solve_ss m Hw a A B C D pt ss H Hss Hp) as (flags & Hf & S1 & S2 & S3 & S4 & K).
  repeat (split; [assumption|]). intros i eq Hi Hd. destruct (K i eq Hi Hd) as [K1 K2]. split; [|exact K2].
  intros j v Hj. destruct (K1 j v Hj) as (x & y & z & E1 & E2 & E3 & L1 & L2). exists x, y, z. repeat (split; [assumption|]).
  assert (Hv : In v (l_vars m)) by (eapply nth_error_In; exact Hj).
  pose proof (loglin_iff m a ss pt flags v Hm Hp Hf Hv) as I. split.
  - intros (Q1 & Q2 & Q3 & Q4 & Q5 & Q6). apply L1. split; [apply I; repeat split; auto; right; lra|]. split; assumption.
  - intro Q. apply L2. destruct (in_dec (list_eq_dec Ascii.ascii_dec) v (loglin_vars (l_vars m) flags)) as [Y|N]; [|now left].
    apply I in Y as (Y1 & Y2 & Y3 & Y4 & Y5).
    destruct Q as [Q|[Q|[Q|[Q|[Q|[Q [Q'|Q']]]]]]]; try congruence; try contradiction.
    + right. left. exact Q.
    + exfalso. destruct Y5 as [Y5|Y5]; [congruence|lra].
    + right. right. split; [exact Q'|lra].
Qed.
Print Assumptions C22_linearised_matrices.

(* Entries of variables that do not occur are exactly zero. *)
Theorem C22_structural_zeros :
  forall G ord simp f_ss solve_ss m a A B C D, set_order_ok ord -> simp_ok simp -> well_formed m ->
  linearize G ord simp f_ss solve_ss m a = Ok (A, B, C, D) ->
  forall i j eq v, nth_error (l_eqs m) i = Some eq -> nth_error (l_vars m) j = Some v ->
  (~ In (SDate v (-1)) (atoms eq) -> entry A i j = Some 0%R) /\ (~ In (SDate v 0) (atoms eq) -> entry B i j = Some 0%R) /\
  (~ In (SDate v 1) (atoms eq) -> entry C i j = Some 0%R).
Proof.
  intros G ord simp f_ss solve_ss m a A B C D Ho Hs Hw H i j eq v Hi Hj.
  destruct (linearize_inv G ord Ho simp Hs f_ss solve_ss m Hw a A B C D H) as (ss & flags & gs & _ & _ & _ & _ & _ & _ & -> & -> & -> & _).
  assert (Z : forall t sc, ~ In (SDate v t) (atoms eq) -> entry (jac G m ss (a_params a) (map (fun v => SDate v t) (l_vars m)) sc) i j = Some 0%R).
  { intros t sc N. unfold jac. rewrite (entry_map2 (fun eq v => (ev (Ralg G) (ss_point m ss (a_params a)) (diff v eq) * sc v)%R) _ _ i j eq (SDate v t) Hi).
    - rewrite (diff_absent _ _ N); cbn; intros; try lra. f_equal. lra.
    - rewrite nth_error_map, Hj. reflexivity. }
  repeat split; apply Z.
Qed.
Print Assumptions C22_structural_zeros.

(* It succeeds when every variable has a steady-state value and every parameter of the equations has a value. *)
Theorem C22_succeeds :
  forall G ord simp f_ss solve_ss m a ss, set_order_ok ord -> simp_ok simp -> well_formed m ->
  a_order a = 1%nat -> steady_of f_ss solve_ss m a = Ok ss -> model_ordered m ss -> incl (not_ll a) (l_vars m) ->
  (forall eq n, In eq (l_eqs m) -> In (SPar n) (atoms eq) -> In n (map fst (a_params a))) ->
  exists r, linearize G ord simp f_ss solve_ss m a = Ok r.
Proof.
  intros G ord simp f_ss solve_ss m a ss Ho Hs Hw H1 H2 H3 H4 H5.
  assert (F : exists flags, make_flags (l_vars m) (l_calibrated m) ss (a_log a && negb (l_linear m)) (not_ll a) (a_neg a) = Ok flags).
  { destruct (a_log a && negb (l_linear m))%bool; [|now eexists]. rewrite flags_spec by (rewrite <- H3; symmetry; apply map_length).
    destruct (existsb _ (not_ll a)) eqn:E; [|eauto]. exfalso. apply existsb_exists in E as (n & Hn & E). apply negb_true_iff in E.
    apply not_true_iff_false in E. apply E, existsb_chars, in_or_app. left. now apply H4. }
  destruct F as (flags & F). apply (linearize_succeeds G ord Ho simp Hs f_ss solve_ss m Hw a ss flags H1 H2 F); [|exact H5].
  intros v Hv. assert (X : In v (map (fun kv => removesuffix (fst kv)) ss)) by (rewrite H3; apply in_or_app; now left).
  apply in_map_iff in X as ([k x] & E & Hk). exists k, x. auto.
Qed.
Print Assumptions C22_succeeds.

(* A model meeting every hypothesis: x = rho x[-1] + (1 - rho) + eps, y = exp(x[1]); steady state x = 1, y = e. *)
Definition sd (n : string) (t : Z) : sx := Sy (SDate (str n) t).
Definition case_m : lmodel := LM [str "x"; str "y"] [str "eps"] []
  [Ad (sd "x" 0) (Ng (Ad (Mu (Sy (sp "rho")) (sd "x" (-1))) (Ad (Ad (Cst 1) (Ng (Sy (sp "rho")))) (sd "eps" 0))));
   Ad (sd "y" 0) (Ng (Fn (str "exp") 0 (sd "x" 1)))]
  (fun _ => false) (fun _ => false) false true.
Definition case_ss : list (chars * R) := [(str "x_ss", 1%R); (str "y_ss", exp 1)].
Definition case_a : largs := LA 1 true (Some [str "y"]) (Some case_ss) false [(str "rho", (1/2)%R)].
Definition case_pt (s : sym) : R :=
  match s with SDate b _ | SSs b => if chars_eqb b (str "x") then 1%R else if chars_eqb b (str "y") then exp 1 else 0%R | SPar _ => (1/2)%R end.
Definition no_ss (_ : list (chars * R)) : result (list (chars * R)) := Err ValueError.
Lemma id_simp_ok : simp_ok (fun e => e).
Proof. intro e. split; [apply incl_refl|reflexivity]. Qed.
Lemma wf_case : well_formed case_m.
Proof.
  split; [|split].
  - repeat constructor; cbn; intuition discriminate.
  - intros v [<-|[<-|[]]] [E|[]]; discriminate.
  - intros eq s [<-|[<-|[]]] Hs; cbn in Hs; repeat (destruct Hs as [<-|Hs]; [cbn; tauto|]); destruct Hs.
Qed.
Theorem C22_case :
  simp_ok (fun e => e) /\ set_order_ok id_ord /\ well_formed case_m /\ model_ordered case_m case_ss /\
  at_rest case_m case_ss (a_params case_a) case_pt /\ (forall eq, In eq (l_eqs case_m) -> defined expworld case_pt eq) /\
  enters_in_logs case_m case_a case_pt (str "x") /\ stays_in_levels case_m case_a case_pt (str "y") /\
  exists r, linearize expworld id_ord (fun e => e) no_ss no_ss case_m case_a = Ok r.
Proof.
  split; [exact id_simp_ok|]. split; [exact id_ord_ok|]. split; [exact wf_case|]. split; [reflexivity|].
  split; [|split; [|split; [|split]]].
  - split; [|split; [|split]].
    + intros k x [[= <- <-]|[[= <- <-]|[]]] _; reflexivity.
    + intros b t _. reflexivity.
    + intros b t [<-|[]]. split; reflexivity.
    + intros n x [[= <- <-]|[]]. reflexivity.
  - intros eq [<-|[<-|[]]]; cbn; tauto.
  - repeat split; try reflexivity; cbn.
    + intros [E|[]]; discriminate.
    + unfold tiny. cbn. rewrite Rabs_R1. lra.
    + lra.
  - right. right. left. left. reflexivity.
  - eapply C22_succeeds; try reflexivity; [exact id_ord_ok|exact id_simp_ok|exact wf_case| |].
    + intros n [<-|[]]. right. left. reflexivity.
    + intros eq n [<-|[<-|[]]] Hn; cbn in Hn; repeat (destruct Hn as [Hn|Hn]; [try discriminate Hn; injection Hn as <-; left; reflexivity|]); destruct Hn.
Qed.
Print Assumptions C22_case.

(* ---------------- C23 ---------------- *)
(* Flags: one per variable and calibrated parameter, set exactly when the user listed the name, or its steady state is
   (numerically) zero, or negative while negative steady states are not to be logged; unknown names are refused. *)
Theorem C23_flags_from_arguments :
  forall vars calibrated ss not_loglin neg_ok,
  map (fun kv => removesuffix (fst kv)) ss = vars ++ calibrated ->
  ((exists n, In n not_loglin /\ ~ In n (vars ++ calibrated)) -> make_flags vars calibrated ss true not_loglin neg_ok = Err ValueError) /\
  (incl not_loglin (vars ++ calibrated) -> exists flags, make_flags vars calibrated ss true not_loglin neg_ok = Ok flags /\
     length flags = length (vars ++ calibrated) /\
     forall i k x, nth_error ss i = Some (k, x) ->
       exists b, nth_error flags i = Some b /\ (b = true <-> In (removesuffix k) not_loglin \/ tiny x \/ (x < 0)%R /\ neg_ok = false)).
Proof.
  intros vars calib ss nl neg Hm. assert (L : length ss = length (vars ++ calib)) by (rewrite <- Hm; symmetry; apply map_length).
  rewrite (flags_spec vars calib ss nl neg L). split.
  - intros (n & H1 & H2). rewrite (proj2 (existsb_exists _ nl)); [reflexivity|]. exists n. split; [exact H1|].
    apply negb_true_iff, not_true_iff_false. rewrite existsb_chars. exact H2.
  - intro H. destruct (existsb _ nl) eqn:E.
    { exfalso. apply existsb_exists in E as (n & Hn & E). apply negb_true_iff, not_true_iff_false in E. apply E, existsb_chars. now apply H. }
    eexists. split; [reflexivity|]. split; [rewrite map2_length; lia|]. intros i k x Hi.
    rewrite nth_map2, Hi. assert (Hn : nth_error (vars ++ calib) i = Some (removesuffix k)) by (rewrite <- Hm, nth_error_map, Hi; reflexivity).
    rewrite Hn. eexists. split; [reflexivity|]. cbn [snd]. unfold flag_of, near_zero, is_neg, tiny.
    rewrite !orb_true_iff, andb_true_iff, existsb_chars, negb_true_iff.
    destruct (Rlt_dec (Rabs x) (1 / 100000000)), (Rlt_dec x 0); intuition (try discriminate; try lra).
Qed.
Print Assumptions C23_flags_from_arguments.

(* Refuted: flags are matched by position, so a user's dictionary in another order flags the wrong variables... *)
Theorem C23_flags_follow_names_refuted :
  ~ (forall vars ss flags, NoDup vars -> Permutation (map (fun kv => removesuffix (fst kv)) ss) vars ->
       make_flags vars [] ss true [] false = Ok flags ->
       forall i k x, nth_error vars i = Some (removesuffix k) -> In (k, x) ss -> (x > 1 / 2)%R -> nth_error flags i = Some false).
Proof.
  intro H. set (ss := [(str "y_ss", 0%R); (str "x_ss", 1%R)]).
  pose proof (H [str "x"; str "y"] ss [true; false]) as K.
  assert (Z : nth_error [true; false] 0 = Some false); [|discriminate Z]. eapply K.
  - repeat constructor; cbn; intuition discriminate.
  - apply perm_swap.
  - rewrite flags_spec by reflexivity. cbn. unfold flag_of, near_zero, is_neg. cbn. rewrite Rabs_R0, Rabs_R1.
    destruct (Rlt_dec 0 _); [|lra]. destruct (Rlt_dec 0 0); [lra|]. destruct (Rlt_dec 1 _); [lra|]. destruct (Rlt_dec 1 0); [lra|]. reflexivity.
  - instantiate (1 := str "x_ss"). reflexivity.
  - right. left. reflexivity.
  - lra.
Qed.
Print Assumptions C23_flags_follow_names_refuted.
(* ... and a dictionary of the variables only, without the calibrated parameters, can raise IndexError. *)
Theorem C23_variables_suffice_refuted :
  ~ (forall vars calibrated ss, NoDup (vars ++ calibrated) -> map (fun kv => removesuffix (fst kv)) ss = vars ->
       exists flags, make_flags vars calibrated ss true [] false = Ok flags).
Proof.
  intro H. destruct (H [str "x"] [str "c"] [(str "x_ss", 0%R)]) as (f & E).
  - repeat constructor; cbn; intuition discriminate.
  - reflexivity.
  - unfold make_flags in E. cbn in E. unfold near_zero in E. rewrite Rabs_R0 in E. destruct (Rlt_dec 0 _); [|lra]. discriminate E.
Qed.
Print Assumptions C23_variables_suffice_refuted.
(* Refuted: the documented length, variables plus calibrated parameters, when log_linearize is off. *)
Theorem C23_flag_count_refuted :
  ~ (forall vars calibrated ss log nl neg flags, make_flags vars calibrated ss log nl neg = Ok flags -> length flags = length (vars ++ calibrated)).
Proof. intro H. specialize (H [] [str "c"] [] false [] false [] eq_refl). discriminate. Qed.
Print Assumptions C23_flag_count_refuted.
(* Refuted: loglin_negative_ss=True log-linearises variables with negative steady state.  (x + 1 = 0: the derivative in
   log units would be the steady-state value -1.) *)
Definition neg_m : lmodel := LM [str "x"] [] [] [Ad (sd "x" 0) (Cst 1)] (fun _ => false) (fun _ => false) false true.
Definition neg_ss : list (chars * R) := [(str "x_ss", (-1)%R)].
Definition neg_a : largs := LA 1 true None (Some neg_ss) true [].
Lemma wf_neg : well_formed neg_m.
Proof.
  split; [repeat constructor; intros []|]. split; [intros v _ []|].
  intros eq s [<-|[]] Hs; cbn in Hs. destruct Hs as [<-|[]]. cbn. tauto.
Qed.
Theorem C23_negative_logged_refuted :
  ~ (forall G ord simp f_ss solve_ss m a ss A B C D, set_order_ok ord -> simp_ok simp -> well_formed m ->
       linearize G ord simp f_ss solve_ss m a = Ok (A, B, C, D) -> steady_of f_ss solve_ss m a = Ok ss -> model_ordered m ss ->
       a_log a = true -> a_neg a = true -> a_not_loglin a = None -> (forall v, l_negative m v = false) -> l_linear m = false ->
       forall pt i j eq v, at_rest m ss (a_params a) pt -> defined G pt eq -> nth_error (l_eqs m) i = Some eq -> nth_error (l_vars m) j = Some v ->
       (pt (SSs v) < -1 / 2)%R -> exists y d, entry B i j = Some y /\ level_derivative G eq pt (SDate v 0) d /\ y = (d * pt (SSs v))%R).
Proof.
  intro H. set (pt := fun s : sym => match s with SPar _ => 0%R | _ => (-1)%R end).
  assert (R : at_rest neg_m neg_ss [] pt).
  { split; [|split; [|split]]; cbn; try (intros; easy). intros k x [[= <- <-]|[]] _. reflexivity. }
  destruct (C22_succeeds expworld id_ord (fun e => e) no_ss no_ss neg_m neg_a neg_ss id_ord_ok id_simp_ok wf_neg) as ([[[A B] C] D] & E); try reflexivity.
  { intros n []. }
  { intros eq n [<-|[]] Hn; cbn in Hn. destruct Hn as [Hn|[]]. discriminate. }
  destruct (H expworld id_ord (fun e => e) no_ss no_ss neg_m neg_a neg_ss A B C D id_ord_ok id_simp_ok wf_neg E eq_refl eq_refl eq_refl eq_refl eq_refl (fun _ => eq_refl) eq_refl
    pt 0%nat 0%nat (Ad (sd "x" 0) (Cst 1)) (str "x") R (conj I I) eq_refl eq_refl) as (y & d & E1 & E2 & E3); [cbn; lra|].
  destruct (C22_linearised_matrices expworld id_ord (fun e => e) no_ss no_ss neg_m neg_a neg_ss pt A B C D id_ord_ok id_simp_ok wf_neg E eq_refl eq_refl R) as (_ & _ & _ & _ & K).
  destruct (K 0%nat (Ad (sd "x" 0) (Cst 1)) eq_refl (conj I I)) as [K1 _]. destruct (K1 0%nat (str "x") eq_refl) as (x & y' & z & _ & E4 & _ & _ & L).
  rewrite E1 in E4. injection E4 as <-. destruct L as (_ & L & _); [do 5 right; cbn; split; [lra|now right]|].
  pose proof (uniqueness_limite _ _ _ _ E2 L) as Eq. subst d.
  assert (D1 : level_derivative expworld (Ad (sd "x" 0) (Cst 1)) pt (SDate (str "x") 0) 1%R).
  { pose proof (derivable_pt_lim_plus id (fun _ => 1%R) (pt (SDate (str "x") 0)) 1 0 (derivable_pt_lim_id _) (derivable_pt_lim_const _ _)) as D1.
    rewrite Rplus_0_r in D1. exact D1. }
  pose proof (uniqueness_limite _ _ _ _ L D1). cbn in E3. lra.
Qed.
Print Assumptions C23_negative_logged_refuted.

(* ---------------- C62 ---------------- *)
(* A parameter on which a derivative depends must be among the parameters computed from the free ones; a calibrated
   parameter is not, and its value in the steady-state dictionary is not consulted: KeyError. *)
Theorem C62_missing_parameter :
  forall G ord simp f_ss solve_ss m a ss eq v t n, set_order_ok ord -> simp_ok simp -> well_formed m ->
  a_order a = 1%nat -> steady_of f_ss solve_ss m a = Ok ss -> model_ordered m ss -> incl (not_ll a) (l_vars m) ->
  In eq (l_eqs m) -> (In v (l_vars m) /\ (t = -1 \/ t = 0 \/ t = 1)%Z \/ In v (l_shocks m) /\ t = 0%Z) ->
  (exists env env', (forall s, s <> SPar n -> env s = env' s) /\ (forall b t, env (SDate b t) = env (SSs b)) /\
     (forall b, In b (l_shocks m) -> env (SSs b) = 0%R) /\ ev (Ralg G) env (diff (SDate v t) eq) <> ev (Ralg G) env' (diff (SDate v t) eq)) ->
  ~ In n (map fst (a_params a)) -> linearize G ord simp f_ss solve_ss m a = Err KeyError.
Proof.
  intros G ord simp f_ss solve_ss m a ss eq v t n Ho Hs Hw H1 H2 H3 H4.
  assert (F : exists flags, make_flags (l_vars m) (l_calibrated m) ss (a_log a && negb (l_linear m)) (not_ll a) (a_neg a) = Ok flags).
  { destruct (a_log a && negb (l_linear m))%bool; [|now eexists].
    destruct (proj2 (C23_flags_from_arguments (l_vars m) (l_calibrated m) ss (not_ll a) (a_neg a) H3)) as (f & E & _); [|eauto].
    intros k Hk. apply in_or_app. left. now apply H4. }
  destruct F as (flags & F). apply (linearize_needs G ord Ho simp Hs f_ss solve_ss m Hw a ss flags eq v t n H1 H2 F).
  intros w Hw' E. assert (X : In w (map (fun kv => removesuffix (fst kv)) ss)) by (rewrite H3; apply in_or_app; now left).
  apply in_map_iff in X as ([k x] & Ek & Hk). exact (proj1 (strip_None _ _) E k x Hk Ek).
Qed.
Print Assumptions C62_missing_parameter.
Definition calib_m : lmodel := LM [str "x"] [] [str "alpha"] [Ad (sd "x" 0) (Ng (Mu (Sy (sp "alpha")) (sd "x" (-1))))] (fun _ => false) (fun _ => false) false true.
Definition calib_ss : list (chars * R) := [(str "x_ss", 1%R); (str "alpha", 1%R)].
Lemma wf_calib : well_formed calib_m.
Proof.
  split; [repeat constructor; intros []|]. split; [intros v _ []|].
  intros eq s [<-|[]] Hs; cbn in Hs. repeat (destruct Hs as [<-|Hs]; [cbn; tauto|]). destruct Hs.
Qed.
Theorem C62_calibrated_model_linearised_refuted :
  ~ (forall G ord simp f_ss solve_ss m a ss, set_order_ok ord -> simp_ok simp -> well_formed m -> a_order a = 1%nat ->
       steady_of f_ss solve_ss m a = Ok ss -> model_ordered m ss -> incl (not_ll a) (l_vars m) ->
       (forall eq n, In eq (l_eqs m) -> In (SPar n) (atoms eq) -> In n (map fst (a_params a)) \/ In n (l_calibrated m)) ->
       exists r, linearize G ord simp f_ss solve_ss m a = Ok r).
Proof.
  intro H. set (a := LA 1 true None (Some calib_ss) false []).
  destruct (H expworld id_ord (fun e => e) no_ss no_ss calib_m a calib_ss id_ord_ok id_simp_ok wf_calib) as (r & E); try reflexivity.
  - intros n [].
  - intros eq n [<-|[]] Hn; cbn in Hn. right. left. destruct Hn as [Hn|[Hn|[Hn|[]]]]; try discriminate. now injection Hn.
  - assert (X : linearize expworld id_ord (fun e => e) no_ss no_ss calib_m a = Err KeyError); [|congruence].
    apply (C62_missing_parameter expworld id_ord (fun e => e) no_ss no_ss calib_m a calib_ss (Ad (sd "x" 0) (Ng (Mu (Sy (sp "alpha")) (sd "x" (-1))))) (str "x") (-1) (str "alpha") id_ord_ok id_simp_ok wf_calib); try reflexivity.
    + intros n [].
    + left. reflexivity.
    + left. split; [left; reflexivity|now left].
    + exists (fun s => match s with SPar _ => 1%R | _ => 1%R end), (fun s => match s with SPar n => if chars_eqb n (str "alpha") then 2%R else 1%R | _ => 1%R end).
      split; [|split; [|split]]; try reflexivity.
      * intros [n|b q|b] Hs; try reflexivity. destruct (chars_eqb n (str "alpha")) eqn:Q; [|reflexivity]. apply chars_eqb_eq in Q. subst. congruence.
      * intros b [].
      * cbn. lra.
    + intros [].
Qed.
Print Assumptions C62_calibrated_model_linearised_refuted.
(* Refuted: a linear model without a STEADY_STATE block can be linearised with default arguments (TypeError: f_ss is None). *)
Theorem C62_linear_without_steady_state_refuted :
  ~ (forall G ord simp f_ss solve_ss m a s, well_formed m -> a_order a = 1%nat -> a_ss a = None -> solve_ss (a_params a) = Ok s -> model_ordered m s ->
       l_linear m = true -> linearize G ord simp f_ss solve_ss m a <> Err TypeError).
Proof.
  intro H. set (m := LM [str "x"] [] [] [sd "x" 0] (fun _ => false) (fun _ => false) true false).
  apply (H expworld id_ord (fun e => e) no_ss (fun _ => Ok [(str "x_ss", 0%R)]) m (LA 1 true None None false []) [(str "x_ss", 0%R)]); try reflexivity.
  split; [repeat constructor; intros []|]. split; [intros v _ []|]. intros eq s [<-|[]] [<-|[]]. cbn. tauto.
Qed.
Print Assumptions C62_linear_without_steady_state_refuted.

(* ---------------- C63 ---------------- *)
(* The caches are invisible: in any sequence of calls on one model object, each returns what it would return alone. *)
Theorem C63_cache_transparent :
  forall G ord simp f_ss solve_ss m calls, 
  snd (run_calls G ord simp f_ss solve_ss m fresh calls) = map (linearize G ord simp f_ss solve_ss m) calls.
Proof. intros. apply run_calls_ok, fresh_ok. Qed.
Print Assumptions C63_cache_transparent.
(* Two calls sharing cache entries, one not. *)
Theorem C63_case : length (c_graphs (fst (run_calls expworld id_ord (fun e => e) no_ss no_ss case_m fresh
    [LA 1 false None (Some case_ss) false (a_params case_a); LA 1 false (Some [str "x"]) (Some case_ss) true (a_params case_a)]))) = 1%nat.
Proof. reflexivity. Qed.
(* Refuted: the caller's steady_state_kwargs keep their value (the test looks for the boolean itself among the keys). *)
Theorem C63_caller_verbose_kept_refuted :
  ~ (forall verbose kwargs v, In (str "verbose", v) kwargs -> In (str "verbose", v) (merge_verbose verbose kwargs)).
Proof. intro H. specialize (H true [(str "verbose", false)] false (or_introl eq_refl)). destruct H as [E|[]]. discriminate. Qed.
Print Assumptions C63_caller_verbose_kept_refuted.

(* ---------------- C64 ---------------- *)
Lemma col_sum_nonneg M j : (0 <= col_sum M j)%R.
Proof. induction M as [|row M IH]; cbn; [lra|]. pose proof (Rabs_pos (nth j row 0%R)). lra. Qed.
Lemma col_sum_zero M j : (forall i row, nth_error M i = Some row -> nth j row 0%R = 0%R) -> col_sum M j = 0%R.
Proof.
  induction M as [|row M IH]; intro H; cbn; [reflexivity|]. rewrite (H 0%nat row eq_refl), Rabs_R0, IH; [lra|].
  intros i r. exact (H (S i) r).
Qed.
Lemma col_sum_big M i j x : entry M i j = Some x -> (Rabs x <= col_sum M j)%R.
Proof.
  revert i. induction M as [|row M IH]; intros [|i] H; try discriminate; cbn.
  - unfold entry in H. cbn in H. rewrite (nth_error_nth _ _ 0%R H). pose proof (col_sum_nonneg M j). lra.
  - pose proof (IH i H). pose proof (Rabs_pos (nth j row 0%R)). lra.
Qed.
Lemma in_combine_seq {A} (l : list A) a i n : In (a, i) (combine l (seq n (length l))) <-> (n <= i)%nat /\ nth_error l (i - n) = Some a.
Proof.
  revert n. induction l as [|b l IH]; intro n; cbn.
  - split; [intros []|]. intros [_ H]. destruct (i - n)%nat; discriminate.
  - rewrite IH. split.
    + intros [[= <- <-]|[H1 H2]]; [rewrite Nat.sub_diag; auto|]. replace (i - n)%nat with (S (i - S n)) by lia. split; [lia|exact H2].
    + intros [H1 H2]. destruct (Nat.eq_dec i n) as [->|N]; [rewrite Nat.sub_diag in H2; injection H2 as ->; now left|right].
      replace (i - n)%nat with (S (i - S n)) in H2 by lia. split; [lia|exact H2].
Qed.
Lemma forward_iff vars eqs A B C D v : In v (forward_variables vars eqs (Ok (A, B, C, D))) <-> exists j, nth_error vars j = Some v /\ (1 / 100000000 < col_sum C j)%R.
Proof.
  unfold forward_variables. rewrite in_map_iff. split.
  - intros ([v' j] & <- & H). apply filter_In in H as [H1 H2]. apply in_combine_seq in H1 as [_ H1]. rewrite Nat.sub_0_r in H1.
    exists j. split; [exact H1|]. cbn in H2. destruct (Rlt_dec _ _); [assumption|discriminate].
  - intros (j & H1 & H2). exists (v, j). split; [reflexivity|]. apply filter_In. split; [apply in_combine_seq; rewrite Nat.sub_0_r; split; [lia|exact H1]|].
    cbn. destruct (Rlt_dec _ _); [reflexivity|contradiction].
Qed.
(* Forward variables are model variables occurring at t+1; all of those with a non-negligible lead derivative are listed. *)
Theorem C64_forward_variables :
  forall G ord simp f_ss solve_ss m a A B C D, set_order_ok ord -> simp_ok simp -> well_formed m ->
  linearize G ord simp f_ss solve_ss m a = Ok (A, B, C, D) ->
  forall v, (In v (forward_variables (l_vars m) (l_eqs m) (Ok (A, B, C, D))) -> In v (l_vars m) /\ appears (l_eqs m) v 1) /\
    (forall i j x, nth_error (l_vars m) j = Some v -> entry C i j = Some x -> (1 / 100000000 < Rabs x)%R ->
       In v (forward_variables (l_vars m) (l_eqs m) (Ok (A, B, C, D)))).
Proof.
  intros G ord simp f_ss solve_ss m a A B C D Ho Hs Hw H v. split.
  - intro Hv. apply forward_iff in Hv as (j & Hj & Hc). split; [eapply nth_error_In; exact Hj|].
    destruct (existsb (fun eq => occurs_at 1 eq v) (l_eqs m)) eqn:E.
    + apply existsb_exists in E as (eq & H1 & H2). exists eq. split; [exact H1|]. now apply occurs_at_iff.
    + exfalso. rewrite col_sum_zero in Hc; [lra|]. intros i row Hi.
      destruct (nth_error (l_eqs m) i) as [eq|] eqn:Ei.
      * destruct (C22_structural_zeros G ord simp f_ss solve_ss m a A B C D Ho Hs Hw H i j eq v Ei Hj) as (_ & _ & Z).
        assert (N : ~ In (SDate v 1) (atoms eq)).
        { intro N. apply not_true_iff_false in E. apply E, existsb_exists. exists eq. split; [eapply nth_error_In; exact Ei|]. now apply occurs_at_iff. }
        specialize (Z N). unfold entry in Z. rewrite Hi in Z. apply nth_error_nth. exact Z.
      * exfalso. destruct (linearize_inv G ord Ho simp Hs f_ss solve_ss m Hw a A B C D H) as (ss & flags & gs & _ & _ & _ & _ & _ & _ & _ & _ & -> & _).
        apply nth_error_None in Ei. assert (X : (i < length (jac G m ss (a_params a) (map (fun v => SDate v 1) (l_vars m)) (sc_of m (loglin_vars (l_vars m) flags) ss (a_params a))))%nat) by (apply nth_error_Some; congruence).
        unfold jac in X. rewrite map_length in X. lia.
  - intros i j x Hj He Hx. apply forward_iff. exists j. split; [exact Hj|]. pose proof (col_sum_big C i j x He). lra.
Qed.
Print Assumptions C64_forward_variables.
(* When linearisation fails, exactly the variables occurring at t+1, in model order. *)
Theorem C64_fallback : forall vars eqs e, forward_variables vars eqs (Err e) = filter (fun v => existsb (fun eq => occurs_at 1 eq v) eqs) vars /\
  forall v, In v (forward_variables vars eqs (Err e)) <-> In v vars /\ appears eqs v 1.
Proof.
  intros vars eqs e. split; [reflexivity|]. intro v. cbn. unfold symbolic_forward. rewrite filter_In, existsb_exists. unfold appears.
  split; intros [H (eq & H1 & H2)]; (split; [exact H|]); exists eq; (split; [exact H1|]); apply occurs_at_iff; exact H2.
Qed.
Print Assumptions C64_fallback.
(* lead_var_idx: the increasing positions of the forward variables. *)
Theorem C64_lead_indices : forall vars fwd,
  (forall i, In i (lead_var_idx vars fwd) <-> exists v, nth_error vars i = Some v /\ In v fwd) /\ Sorted.StronglySorted lt (lead_var_idx vars fwd).
Proof.
  intros vars fwd. unfold lead_var_idx. split.
  - intro i. rewrite in_map_iff. split.
    + intros ([v j] & <- & H). apply filter_In in H as [H1 H2]. apply in_combine_seq in H1 as [_ H1]. rewrite Nat.sub_0_r in H1.
      exists v. split; [exact H1|]. now apply existsb_chars.
    + intros (v & H1 & H2). exists (v, i). split; [reflexivity|]. apply filter_In. split; [apply in_combine_seq; rewrite Nat.sub_0_r; split; [lia|exact H1]|now apply existsb_chars].
  - generalize 0%nat. induction vars as [|v vars IH]; intro n; cbn; [constructor|].
    destruct (existsb (chars_eqb v) fwd); cbn; [|apply IH]. constructor; [apply IH|]. apply Forall_forall. intros j Hj.
    apply in_map_iff in Hj as ([w k] & <- & H). apply filter_In in H as [H _]. apply in_combine_seq in H as [H _]. cbn. lia.
Qed.
Print Assumptions C64_lead_indices.
(* Refuted: the set, computed once at the default parameters, is the one relevant at other parameter values
   (x = rho x[1]: not forward-looking at rho = 0). *)
Definition lead_m : lmodel := LM [str "x"] [] [] [Ad (sd "x" 0) (Ng (Mu (Sy (sp "rho")) (sd "x" 1)))] (fun _ => false) (fun _ => false) true true.
Definition lead_a (r : R) : largs := LA 1 true None (Some [(str "x_ss", 0%R)]) false [(str "rho", r)].
Lemma wf_lead : well_formed lead_m.
Proof.
  split; [repeat constructor; intros []|]. split; [intros v _ []|].
  intros eq s [<-|[]] Hs; cbn in Hs. repeat (destruct Hs as [<-|Hs]; [cbn; tauto|]). destruct Hs.
Qed.
Lemma lead_C r : exists A B C D, linearize expworld id_ord (fun e => e) no_ss no_ss lead_m (lead_a r) = Ok (A, B, C, D) /\ col_sum C 0 = Rabs r.
Proof.
  destruct (C22_succeeds expworld id_ord (fun e => e) no_ss no_ss lead_m (lead_a r) [(str "x_ss", 0%R)] id_ord_ok id_simp_ok wf_lead) as ([[[A B] C] D] & E); try reflexivity.
  { intros n []. }
  { intros eq n [<-|[]] Hn; cbn in Hn. left. destruct Hn as [Hn|[Hn|[Hn|[]]]]; try discriminate. now injection Hn. }
  exists A, B, C, D. split; [exact E|].
  destruct (linearize_inv expworld id_ord id_ord_ok (fun e => e) id_simp_ok no_ss no_ss lead_m wf_lead (lead_a r) A B C D E) as (ss & flags & gs & Hss & _ & Hf & _ & _ & _ & _ & _ & -> & _).
  cbn in Hss. injection Hss as <-. cbn in Hf. injection Hf as <-. unfold jac, sc_of, column_scale. cbn. rewrite Rplus_0_r. replace (0 + - (0 * 0 + r * 1))%R with (- r)%R by lra. rewrite Rmult_1_r. apply Rabs_Ropp.
Qed.
Theorem C64_default_parameters_suffice_refuted :
  ~ (forall m a a' r r', well_formed m -> linearize expworld id_ord (fun e => e) no_ss no_ss m a = Ok r -> linearize expworld id_ord (fun e => e) no_ss no_ss m a' = Ok r' ->
       forward_variables (l_vars m) (l_eqs m) (Ok r) = forward_variables (l_vars m) (l_eqs m) (Ok r')).
Proof.
  intro H. destruct (lead_C 0) as (A & B & C & D & E & S). destruct (lead_C 1) as (A' & B' & C' & D' & E' & S').
  specialize (H lead_m _ _ _ _ wf_lead E E').
  assert (X : In (str "x") (forward_variables (l_vars lead_m) (l_eqs lead_m) (Ok (A', B', C', D')))).
  { apply forward_iff. exists 0%nat. split; [reflexivity|]. rewrite S', Rabs_R1. lra. }
  rewrite <- H in X. apply forward_iff in X as (j & Hj & Hc). destruct j as [|[|j]]; try discriminate. rewrite S, Rabs_R0 in Hc. lra.
Qed.
Print Assumptions C64_default_parameters_suffice_refuted.
