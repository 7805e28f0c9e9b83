(* Properties C21 and C55-C61: steady states. *)
From Verif Require Import Common Sym_Model Sym_Spec Sym_Proofs Sym_Flatten Sym_More SS_Model SS_Spec SS_Proofs SS_Filter SS_Driver SS_DriverProofs SS_Bounds.
From Coq Require Import Permutation Reals Lra.
Local Open Scope list_scope.

Definition perm_order (dord : sdict -> sdict) : Prop := forall d, Permutation (dord d) d.

(* ---------------- C21 ---------------- *)
(* Provided values are kept, in place; every added value belongs to a model variable without a value, and is expressed
   without steady-state variables. *)
Theorem C21_values_kept_and_extended :
  forall ord, set_order_ok ord -> forall dord solve simple n input eqs variables,
  solver_uses_equation_symbols solve ->
  exists added, propagate ord dord solve simple n input eqs variables = input ++ added /\
    (NoDup (map fst input) -> NoDup (map fst (input ++ added))) /\
    (forall k v, In (k, v) added -> In k (map SSs variables) /\ ~ In k (map fst input) /\
       forall s, In s (atoms v) -> ~ In s (map SSs variables)).
Proof.
  intros ord Ho dord solve simple n input eqs variables Hf.
  destruct (loop_derives ord dord solve simple (map SSs variables) eqs n input) as (l & Hl).
  exists (map snd l). pose proof (der_shape _ _ _ _ _ _ _ _ _ Hl) as Sh. split; [exact Sh|]. split.
  - intro Hn. rewrite <- Sh. eapply der_nodup; eassumption.
  - intros k v Hi. apply in_map_iff in Hi as ([e kv] & E & Hi). cbn in E. subst kv.
    destruct (der_new ord Ho _ _ _ _ _ _ _ _ Hl _ _ _ Hi) as (_ & H1 & H2 & _). split; [exact H1|]. split; [exact H2|].
    exact (der_closed ord Ho _ _ _ _ _ _ _ _ Hf Hl _ _ _ Hi).
Qed.
Print Assumptions C21_values_kept_and_extended.

(* Soundness: each added value comes from a model equation containing the variable, which vanishes at every admissible
   valuation taking the resulting values. *)
Theorem C21_added_values_solve_an_equation :
  forall ord, set_order_ok ord -> forall dord, perm_order dord -> forall G D solve simple n input eqs variables,
  solver_sound G D solve ->
  forall k v, In (k, v) (propagate ord dord solve simple n input eqs variables) -> ~ In k (map fst input) ->
  exists e, In e eqs /\ In k (atoms e) /\
    forall env, D env -> model_of (Ralg G) env (propagate ord dord solve simple n input eqs variables) -> ev (Ralg G) env e = 0%R.
Proof.
  intros ord Ho dord Hd G D solve simple n input eqs variables Hs k v Hi Hk.
  destruct (loop_derives ord dord solve simple (map SSs variables) eqs n input) as (l & Hl).
  assert (Hl' : In (k, v) (map snd l)).
  { unfold propagate in Hi. rewrite (der_shape _ _ _ _ _ _ _ _ _ Hl) in Hi. apply in_app_or in Hi as [Hi|Hi]; [|exact Hi].
    exfalso. apply Hk. apply in_map_iff. exists (k, v). auto. }
  apply in_map_iff in Hl' as ([e kv] & E & Hl'). cbn in E. subst kv. exists e.
  destruct (der_new ord Ho _ _ _ _ _ _ _ _ Hl _ _ _ Hl') as (H1 & _ & _ & H2). split; [exact H1|]. split; [exact H2|].
  intros env HD Hm. exact (der_sound ord Ho dord Hd solve simple (map SSs variables) eqs G D l _ _ Hs Hl _ _ _ Hl' env HD Hm).
Qed.
Print Assumptions C21_added_values_solve_an_equation.

(* Completeness: no steady state agreeing with the provided values is lost. *)
Theorem C21_no_steady_state_lost :
  forall ord, set_order_ok ord -> forall dord, perm_order dord -> forall G D solve simple n input eqs variables,
  solver_complete G D solve ->
  forall env, D env -> model_of (Ralg G) env input -> is_steady_state G env eqs ->
  model_of (Ralg G) env (propagate ord dord solve simple n input eqs variables).
Proof.
  intros ord Ho dord Hd G D solve simple n input eqs variables Hs env HD Hm He.
  destruct (loop_derives ord dord solve simple (map SSs variables) eqs n input) as (l & Hl).
  exact (der_complete ord Ho dord Hd solve simple (map SSs variables) eqs G D l _ _ Hs Hl env HD Hm He).
Qed.
Print Assumptions C21_no_steady_state_lost.

(* With more passes than model variables the result is final: running again changes nothing. *)
Theorem C21_final_when_passes_suffice :
  forall ord, set_order_ok ord -> forall dord solve simple n input eqs variables, (length variables < n)%nat ->
  forall m, propagate ord dord solve simple m (propagate ord dord solve simple n input eqs variables) eqs variables =
            propagate ord dord solve simple n input eqs variables.
Proof.
  intros ord Ho dord solve simple n input eqs variables Hn m. unfold propagate.
  apply settled_loop. apply (loop_settles ord Ho).
  eapply Nat.le_lt_trans; [apply missing_le|]. rewrite map_length. exact Hn.
Qed.
Print Assumptions C21_final_when_passes_suffice.

(* A concrete solver for equations u - r = 0. *)
Definition lin_solve (e : sx) (u : sym) : option (list sx) :=
  match e with
  | Ad (Sy s) (Ng r) => if (sym_eqb s u && negb (smem u (atoms r)))%bool then Some [r] else None
  | _ => None
  end.
Lemma lin_inv e u l : lin_solve e u = Some l -> exists r, e = Ad (Sy u) (Ng r) /\ l = [r] /\ ~ In u (atoms r).
Proof.
  unfold lin_solve. destruct e as [| |[|s| | | |] [| | | |r|]| | |]; try discriminate.
  destruct (sym_eqb s u && negb (smem u (atoms r)))%bool eqn:E; [|discriminate]. intros [= <-].
  apply andb_true_iff in E as [E1 E2]. apply sym_eqb_eq in E1. subst s.
  rewrite negb_true_iff, <- not_true_iff_false, smem_In in E2. eauto.
Qed.
Lemma lin_sound G : solver_sound G (fun _ => True) lin_solve.
Proof. intros e u s H env _ E. apply lin_inv in H as (r & -> & [= ->] & _). cbn in *. lra. Qed.
Lemma lin_complete G : solver_complete G (fun _ => True) lin_solve.
Proof. intros e u s H env _ E. apply lin_inv in H as (r & -> & [= ->] & _). cbn in *. lra. Qed.
Lemma lin_symbols : solver_uses_equation_symbols lin_solve.
Proof.
  intros e u l s H Hs w Hw. apply lin_inv in H as (r & -> & -> & N). destruct Hs as [<-|[]]. split; [right; exact Hw|].
  intros ->. contradiction.
Qed.
Definition ssv (n : string) : sx := Sy (SSs (str n)).
(* C = Y - I style chain: y known, two more values inferred *)
Definition chain_eqs : list sx := [Ad (ssv "c") (Ng (Ad (ssv "y") (ssv "i"))); Ad (ssv "i") (Ng (Mu (Sy (sp "d")) (ssv "y")))].
Theorem C21_case :
  solver_sound expworld (fun _ => True) lin_solve /\ solver_complete expworld (fun _ => True) lin_solve /\
  solver_uses_equation_symbols lin_solve /\
  propagate id_ord (fun d => d) lin_solve (fun _ => true) 100 [(SSs (str "y"), Sy (sp "a"))] chain_eqs [str "c"; str "i"; str "y"] =
    [(SSs (str "y"), Sy (sp "a")); (SSs (str "i"), Mu (Sy (sp "d")) (Sy (sp "a")));
     (SSs (str "c"), Ad (Sy (sp "a")) (Mu (Sy (sp "d")) (Sy (sp "a"))))].
Proof. split; [apply lin_sound|]. split; [apply lin_complete|]. split; [apply lin_symbols|reflexivity]. Qed.

(* The default of 100 passes can stop early: 101 chained equations listed last to first. *)
Definition xi (i : nat) : sx := Sy (SSs (str "x" ++ dec (N.of_nat i))).
Definition long_eqs : list sx := map (fun i => Ad (xi (S i)) (Ng (xi i))) (rev (seq 0 101)).
Definition long_vars : list chars := map (fun i => str "x" ++ dec (N.of_nat i)) (seq 0 102).
Definition long_in : sdict := [(SSs (str "x0"), Cst 1)].
Lemma long_not_final :
  (let r := propagate id_ord (fun d => d) lin_solve (fun _ => true) 100 long_in long_eqs long_vars in
   Nat.eqb (length (propagate id_ord (fun d => d) lin_solve (fun _ => true) 1 r long_eqs long_vars)) (length r)) = false.
Proof. vm_cast_no_check (eq_refl false). Qed.
Theorem C21_hundred_passes_final_refuted :
  ~ (forall input eqs variables m,
       propagate id_ord (fun d => d) lin_solve (fun _ => true) m (propagate id_ord (fun d => d) lin_solve (fun _ => true) 100 input eqs variables) eqs variables =
       propagate id_ord (fun d => d) lin_solve (fun _ => true) 100 input eqs variables).
Proof.
  intro H. pose proof long_not_final as E. cbv zeta in E. rewrite H, Nat.eqb_refl in E. discriminate.
Qed.
Print Assumptions C21_hundred_passes_final_refuted.

(* ---------------- C55: dropping determined equations ---------------- *)
Theorem C55_every_steady_state_solves_the_reduced_system :
  forall G env eqs ss_solution ss_vars, closed_values ss_solution ss_vars -> model_of (Ralg G) env ss_solution ->
  (is_steady_state G env eqs <->
   is_steady_state G env (substitute_and_filter eqs ss_solution ss_vars) /\
   (forall e, In e eqs -> determined ss_solution ss_vars e -> ev (Ralg G) env e = 0%R)).
Proof.
  intros G env eqs d vs Hc Hm.
  assert (Hm' : model_of (Ralg G) env (known_in d vs)).
  { intros k v Hi. apply known_in_In in Hi as [Hi _]. auto. }
  rewrite (filter_exact G env eqs d vs Hc Hm'). split.
  - intros [H1 H2]. split; [exact H1|]. intros e He Hd.
    destruct (known_in d vs) as [|x k] eqn:Ek.
    + apply H1. apply filter_members. left. auto.
    + rewrite <- Ek in *. apply H2; [rewrite Ek; discriminate|]. apply filter_In. split; [exact He|].
      apply negb_true_iff. now apply has_unknown_spec.
  - intros [H1 H2]. split; [exact H1|]. intros _ e He. apply filter_In in He as [He Hu].
    apply H2; [exact He|]. apply negb_true_iff in Hu. now apply has_unknown_spec in Hu.
Qed.
Print Assumptions C55_every_steady_state_solves_the_reduced_system.

(* The reduced system is exactly the equations with an undetermined variable, with the known values substituted. *)
Theorem C55_reduced_system_is :
  forall eqs ss_solution ss_vars, closed_values ss_solution ss_vars -> (exists k, In k (map fst ss_solution) /\ In k ss_vars) ->
  forall e', In e' (substitute_and_filter eqs ss_solution ss_vars) <->
    exists e, In e eqs /\ ~ determined ss_solution ss_vars e /\
      e' = smap (fun s => match slookup s (filter (fun kv => smem (fst kv) ss_vars) ss_solution) with Some v => v | None => Sy s end) e.
Proof.
  intros eqs d vs Hc (k & Hk1 & Hk2) e'. rewrite filter_members.
  assert (Nn : known_in d vs <> []).
  { intro E. assert (X : In k (map fst (known_in d vs))) by (apply known_in_keys; auto). rewrite E in X. exact X. }
  split.
  - intros [[E _]|[_ (e & He & -> & Hu)]]; [contradiction|]. exists e. split; [exact He|]. split; [|reflexivity].
    intro Hd. apply (has_unknown_spec d vs e Hc) in Hd. congruence.
  - intros (e & He & Hd & ->). right. split; [exact Nn|]. exists e. split; [exact He|]. split; [reflexivity|].
    destruct (has_unknown (known_in d vs) vs _) eqn:Hu; [reflexivity|]. exfalso. apply Hd. now apply (has_unknown_spec d vs e Hc).
Qed.
Print Assumptions C55_reduced_system_is.

(* Propagated values never make the reduced system overdetermined: each one removes an equation. *)
Theorem C55_each_inferred_value_removes_an_equation :
  forall ord, set_order_ok ord -> forall dord solve simple n input eqs variables,
  solver_uses_equation_symbols solve -> closed_values input (map SSs variables) ->
  let result := propagate ord dord solve simple n input eqs variables in
  closed_values result (map SSs variables) /\
  (length (substitute_and_filter eqs result (map SSs variables)) + (length result - length input) <= length eqs)%nat.
Proof.
  intros ord Ho dord solve simple n input eqs variables Hf Hc result.
  exact (propagate_drops ord dord solve simple variables eqs input result n Ho Hf Hc eq_refl).
Qed.
Print Assumptions C55_each_inferred_value_removes_an_equation.

(* "This keeps the system square when some variables are analytically known." *)
Definition tri_eqs : list sx := [Ad (ssv "x") (Ng (ssv "z")); Ad (ssv "y") (Ng (ssv "z")); Ad (ssv "x") (Ng (ssv "y"))].
Theorem C55_reduced_system_stays_square_refuted :
  ~ (forall eqs ss_solution ss_vars, closed_values ss_solution ss_vars -> NoDup (map fst ss_solution) -> NoDup ss_vars ->
       incl (map fst ss_solution) ss_vars -> length eqs = length ss_vars ->
       (length (substitute_and_filter eqs ss_solution ss_vars) = length ss_vars - length ss_solution)%nat).
Proof.
  intro H. specialize (H tri_eqs [(SSs (str "z"), Cst 1)] [SSs (str "x"); SSs (str "y"); SSs (str "z")]).
  assert (X : (3 = 2)%nat); [|discriminate]. apply H.
  - intros k v [E|[]] _ s Hs. injection E as <- <-. destruct Hs.
  - repeat constructor; easy.
  - repeat constructor; cbn; intuition discriminate.
  - intros k [<-|[]]. cbn. auto.
  - reflexivity.
Qed.
Print Assumptions C55_reduced_system_stays_square_refuted.
(* A wrong provided value is not noticed: the equation it violates is dropped. *)
Definition two_eqs : list sx := [Ad (ssv "x") (Ng (Cst 1)); Ad (ssv "y") (Ng (ssv "x"))].
Theorem C55_solutions_of_reduced_system_are_steady_states_refuted :
  ~ (forall env eqs ss_solution ss_vars, closed_values ss_solution ss_vars -> model_of (Ralg expworld) env ss_solution ->
       is_steady_state expworld env (substitute_and_filter eqs ss_solution ss_vars) -> is_steady_state expworld env eqs).
Proof.
  intro H. specialize (H (fun _ => 2%R) two_eqs [(SSs (str "x"), Cst 2)] [SSs (str "x"); SSs (str "y")]).
  assert (X : ev (Ralg expworld) (fun _ => 2%R) (Ad (ssv "x") (Ng (Cst 1))) = 0%R).
  { apply H; [| | |left; reflexivity].
    - intros k v [E|[]] _ s Hs. injection E as <- <-. destruct Hs.
    - intros k v [E|[]]. injection E as <- <-. reflexivity.
    - intros e [<-|[]]. cbn. lra. }
  cbn in X. lra.
Qed.
Print Assumptions C55_solutions_of_reduced_system_are_steady_states_refuted.
Theorem C55_case :
  closed_values [(SSs (str "x"), Sy (sp "a"))] [SSs (str "x"); SSs (str "y")] /\
  substitute_and_filter two_eqs [(SSs (str "x"), Sy (sp "a"))] [SSs (str "x"); SSs (str "y")] = [Ad (ssv "y") (Ng (Sy (sp "a")))].
Proof. split; [|reflexivity]. intros k v [E|[]] _ s Hs. injection E as <- <-. destruct Hs as [<-|[]]. cbn. intuition discriminate. Qed.

(* ---------------- C56: the success flag, analytic steady state ---------------- *)
Theorem C56_analytic_success_iff_residuals_small :
  forall G optimizer grad_small m params h tol r b,
  m_linear m = false -> m_variables m <> [] -> (forall v, In v (m_variables m) -> In (SSs v) (map fst (m_known m))) ->
  steady_state G optimizer grad_small m params h None tol = Ok (r, b) ->
  map fst r = map SSs (m_variables m) /\
  (forall v x, In (SSs v, x) r -> exists e, slookup (SSs v) (m_known m) = Some e /\ x = ev (Ralg G) (env_of params) e) /\
  (b = true <-> forall e, In e (m_equations m) -> (Rabs (ev (Ralg G) (env_of (r ++ params)) e) <= 1 / 100000000)%R).
Proof. intros G o g m params h tol r b Hl Hv Hk. exact (analytic_ok G o g m params h tol r b Hl (conj Hv Hk)). Qed.
Print Assumptions C56_analytic_success_iff_residuals_small.
(* Everything given by analytic or fixed values: same test. *)
Theorem C56_resolved_success_iff_residuals_small :
  forall G optimizer grad_small m params h f tol r b,
  m_linear m = false -> NoDup (m_variables m) ->
  (forall k, In k (ss_variables m) -> In k (map fst (m_known m)) \/ exists n, In n (map fst f) /\ k = SSs (removesuffix_ss n)) ->
  steady_state G optimizer grad_small m params h (Some f) tol = Ok (r, b) ->
  (b = true <-> forall e, In e (m_equations m) -> (Rabs (ev (Ralg G) (env_of (r ++ params)) e) <= 1 / 100000000)%R).
Proof.
  intros G o g m params h f tol r b Hl Hn Hall H.
  apply (resolved_exact G o g m params h (Some f) tol r b Hl Hn); [discriminate| |exact H].
  intros k Hk. destruct (Hall k Hk) as [Hi|(n & Hi & ->)]; [left; exact Hi|right]. cbn [fx_of]. rewrite fixed_keys.
  apply in_map_iff. eauto.
Qed.
Print Assumptions C56_resolved_success_iff_residuals_small.
(* With a complete analytic steady state and a calibrated parameter the call fails instead of solving for the parameter. *)
Theorem C56_calibrated_parameter_with_analytic_steady_state_fails :
  forall G optimizer grad_small m params h tol e c,
  m_linear m = false -> m_variables m <> [] -> (forall v, In v (m_variables m) -> In (SSs v) (map fst (m_known m))) ->
  In c (m_calibrated m) -> ~ In (SPar c) (map fst params) -> In e (m_equations m) -> In (SPar c) (atoms e) ->
  steady_state G optimizer grad_small m params h None tol = Err TypeError.
Proof.
  intros G o g m params h tol e c Hl Hv Hk _ Hp He Hs. apply (analytic_crash G o g m params h tol e (SPar c) Hl (conj Hv Hk) He Hs Hp).
  intro Hi. apply in_map_iff in Hi as (v & E & _). discriminate.
Qed.
Print Assumptions C56_calibrated_parameter_with_analytic_steady_state_fails.
(* A model declared linear gets the zero vector and success, whatever its equations. *)
Definition lin_m (eqs : list sx) : ssmodel := SSM [str "x"] [] eqs [] true.
Definition no_opt : list sx -> vals -> list sym -> list R * bool := fun _ _ _ => ([], false).
Theorem C56_success_means_residuals_small_refuted_for_linear :
  ~ (forall m params h fixed tol r, steady_state expworld no_opt (fun _ _ => false) m params h fixed tol = Ok (r, true) ->
       forall e, In e (m_equations m) -> (Rabs (ev (Ralg expworld) (env_of (r ++ params)) e) <= 1 / 100000000)%R).
Proof.
  intro H. specialize (H (lin_m [Ad (ssv "x") (Cst (-1))]) [] Analytic None 1%R [(SSs (str "x"), 0%R)] eq_refl
    (Ad (ssv "x") (Cst (-1))) (or_introl eq_refl)). cbn in H. revert H. unfold Rabs. destruct (Rcase_abs _); lra.
Qed.
Print Assumptions C56_success_means_residuals_small_refuted_for_linear.
(* two-variable model with an analytic steady state *)
Definition an_m : ssmodel := SSM [str "x"; str "y"] [] [Ad (ssv "x") (Ng (Sy (sp "a"))); Ad (ssv "y") (Ng (ssv "x"))]
  [(SSs (str "y"), Sy (sp "a")); (SSs (str "x"), Sy (sp "a"))] false.
Theorem C56_case : forall h tol, exists r b,
  steady_state expworld no_opt (fun _ _ => false) an_m [(sp "a", 3%R)] h None tol = Ok (r, b) /\
  r = [(SSs (str "x"), 3%R); (SSs (str "y"), 3%R)] /\ b = true.
Proof.
  intros h tol. eexists _, _. split; [reflexivity|]. split; [reflexivity|].
  apply (C56_analytic_success_iff_residuals_small expworld no_opt (fun _ _ => false) an_m [(sp "a", 3%R)] h tol
           [(SSs (str "x"), 3%R); (SSs (str "y"), 3%R)]); try reflexivity.
  - discriminate.
  - intros v [<-|[<-|[]]]; cbn; auto.
  - intros e [<-|[<-|[]]]; cbn; unfold env_of; cbn; unfold Rabs; destruct (Rcase_abs _); lra.
Qed.

(* ---------------- C57: fixed values ---------------- *)
Theorem C57_fixed_values_returned_and_checked :
  forall G optimizer grad_small m params h f tol r b,
  m_linear m = false -> NoDup (m_variables m) -> NoDup (map fst params) -> (forall k, In k (map fst params) -> ~ In k (ss_variables m)) ->
  steady_state G optimizer grad_small m params h (Some f) tol = Ok (r, b) ->
  (* every name is a model variable, with or without _ss, named once *)
  NoDup (map removesuffix_ss (map fst f)) /\ (forall n, In n (map fst f) -> In (removesuffix_ss n) (m_variables m)) /\
  (* one value per variable and calibrated parameter, in model order *)
  map fst r = map SSs (m_variables m) ++ map SPar (m_calibrated m) /\
  (* the fixed values come back unchanged *)
  (forall n x, In (n, x) f -> vget (SSs (removesuffix_ss n)) r = Some x) /\
  (* variables with an analytic value that were not fixed keep it *)
  (forall k, In k (ss_variables m) -> In k (map fst (m_known m)) -> (forall n, In n (map fst f) -> k <> SSs (removesuffix_ss n)) ->
     exists e, slookup k (m_known m) = Some e /\ vget k r = Some (ev (Ralg G) (env_of params) e)) /\
  (* equations in fixed variables only hold *)
  (forall e, In e (m_equations m) ->
    (forall s, In s (atoms e) -> In s (ss_variables m) -> exists n, In n (map fst f) /\ s = SSs (removesuffix_ss n)) ->
    (Rabs (ev (Ralg G) (env_of (r ++ params)) e) <= 1 / 100000000)%R).
Proof.
  intros G o g m params h f tol r b Hl Hn Np Hd H.
  assert (Nf : Some f = None -> try_analytic G m params = Ok None) by discriminate.
  destruct (run_known G o g _ _ _ _ _ _ _ Hl Hn Nf H) as (K1 & K2 & K3).
  destruct (fixed_checked G o g _ _ _ _ _ _ _ Hl Hn Np Hd H) as ((V1 & V2) & V3).
  split; [exact V1|]. split; [exact V2|]. split; [exact K1|]. split; [exact (K2 f eq_refl)|]. split; [|exact V3].
  intros k Hk Hkn Hkf. destruct (K3 k Hk Hkn) as (e & L & Hv & _); [|eauto]. cbn [fx_of]. rewrite fixed_keys. intro Hi.
  apply in_map_iff in Hi as (n & <- & Hi). now apply (Hkf n).
Qed.
Print Assumptions C57_fixed_values_returned_and_checked.
Theorem C57_bad_names_rejected :
  forall G optimizer grad_small m params h f tol, m_linear m = false ->
  (~ NoDup (map removesuffix_ss (map fst f)) \/ exists n, In n (map fst f) /\ ~ In (removesuffix_ss n) (m_variables m)) ->
  steady_state G optimizer grad_small m params h (Some f) tol = Err ValueError.
Proof.
  intros G o g m params h f tol Hl Hb. unfold SS_Driver.steady_state. rewrite Hl. cbn [bind].
  destruct (validate_names m (map fst f)) as [[]|x] eqn:E; cbn [bind].
  - exfalso. apply validate_names_spec in E as [E1 E2]. destruct Hb as [Hb|(n & Hn & Hb)]; [auto|]. apply Hb. auto.
  - apply validate_names_err in E. now subst.
Qed.
Print Assumptions C57_bad_names_rejected.
(* The error message speaks of "variables or calibrated parameters", but a calibrated parameter is always rejected. *)
Theorem C57_calibrated_parameter_can_be_fixed_refuted :
  ~ (forall m c x params h tol, In c (m_calibrated m) -> m_linear m = false ->
       steady_state expworld no_opt (fun _ _ => false) m params h (Some [(c, x)]) tol <> Err ValueError).
Proof.
  intro H. apply (H (SSM [str "x"] [str "c"] [] [] false) (str "c") 1%R [] Root 1%R); [left; reflexivity|reflexivity|].
  apply C57_bad_names_rejected; [reflexivity|]. right. exists (str "c"). split; [left; reflexivity|]. cbn. intuition discriminate.
Qed.
Print Assumptions C57_calibrated_parameter_can_be_fixed_refuted.
Theorem C57_case : forall h tol, exists r b,
  steady_state expworld no_opt (fun _ _ => false) an_m [(sp "a", 3%R)] h (Some [(str "x", 3%R); (str "y_ss", 3%R)]) tol = Ok (r, b) /\
  r = [(SSs (str "x"), 3%R); (SSs (str "y"), 3%R)].
Proof.
  intros h tol. unfold SS_Driver.steady_state.
  assert (E : validate_fixed expworld an_m [(sp "a", 3%R)] (fixed_vals [(str "x", 3%R); (str "y_ss", 3%R)]) = Ok tt).
  { unfold validate_fixed. cbn. unfold env_of, forallb, small.
    repeat (destruct (Rle_dec _ _) as [_|N]; [|exfalso; apply N; unfold atol; cbn; unfold Rabs; destruct (Rcase_abs _); lra]). reflexivity. }
  cbn [m_linear an_m bind]. fold an_m.
  assert (E2 : validate_names an_m (map fst [(str "x", 3%R); (str "y_ss", 3%R)]) = Ok tt) by reflexivity.
  rewrite E2. cbn [bind]. rewrite E. cbn [bind]. eexists _, _. split; reflexivity.
Qed.

(* ---------------- C58: the success flag of the numerical solver ---------------- *)
(* When the optimizer itself did not claim success, success means small residuals in every equation with an unknown. *)
Theorem C58_success_means_residuals_small :
  forall G optimizer grad_small m params h fixed tol r,
  m_linear m = false -> NoDup (m_variables m) -> NoDup (map fst (m_known m)) -> closed_values (m_known m) (ss_variables m) ->
  (forall k, In k (map fst params) -> ~ In k (ss_variables m)) ->
  (fixed = None -> exists v, In v (m_variables m) /\ ~ In (SSs v) (map fst (m_known m))) ->
  (forall eqs kw vs, snd (optimizer eqs kw vs) = false) ->
  steady_state G optimizer grad_small m params h fixed tol = Ok (r, true) ->
  forall e, In e (m_equations m) ->
    (exists s, In s (atoms e) /\ In s (ss_variables m) /\ ~ In s (map fst (m_known m)) /\
       (forall f n, fixed = Some f -> In n (map fst f) -> s <> SSs (removesuffix_ss n))) ->
    (Rabs (ev (Ralg G) (env_of (r ++ params)) e) < tol)%R.
Proof.
  intros G o g m params h fixed tol r Hl Hn Nk Hc Hd Hu Ho H e He (s & H1 & H2 & H3 & H4).
  assert (Ha : fixed = None -> exists x, try_analytic G m params = Ok None \/ try_analytic G m params = Err x).
  { intros E. destruct (Hu E) as (v & Hv & Hvn). unfold try_analytic. destruct (m_known m) as [|y ys] eqn:Ek; [exists TypeError; left; reflexivity|].
    rewrite <- Ek in *. destruct (f_ss G m params) as [ss|x] eqn:F; cbn [bind]; [|exists x; right; reflexivity].
    exists TypeError. left. assert (L : (length ss < length (m_variables m))%nat).
    { unfold f_ss in F. apply f_ss_values_spec in F as [F _]. apply (f_equal (@length _)) in F. rewrite !map_length in F. rewrite F.
      unfold known_ss_dict, sorted_solution. clear - Hv Hvn. induction (m_variables m) as [|w ws IH]; [destruct Hv|]. cbn [flat_map].
      rewrite app_length. cbn [length]. assert (Le : (length (flat_map (fun v => match slookup (SSs v) (m_known m) with Some e => [(SSs v, e)] | None => [] end) ws) <= length ws)%nat).
      { clear. induction ws as [|z zs IHz]; cbn; [lia|]. rewrite app_length. destruct (slookup (SSs z) (m_known m)); cbn; lia. }
      destruct Hv as [->|Hv].
      - rewrite (proj2 (slookup_None (SSs v) (m_known m)) Hvn). cbn. lia.
      - specialize (IH Hv). destruct (slookup (SSs w) (m_known m)); cbn; lia. }
    assert (E2 : Nat.eqb (length ss) (length (m_variables m)) = false) by (apply Nat.eqb_neq; lia). rewrite E2. reflexivity. }
  assert (Ha' : fixed = None -> try_analytic G m params = Ok None).
  { intro E. destruct (Ha E) as (x & [X|X]); [exact X|exfalso]. subst fixed. unfold SS_Driver.steady_state in H. rewrite Hl, X in H. discriminate. }
  apply (numeric_partial G o g m params h fixed tol r true Hl Hn Nk Hc Hd Ha'); auto.
  - intros x E. specialize (Ho (remaining_equations m (fx_of fixed)) (fx_of fixed ++ params) (vars_to_solve m (fx_of fixed))). rewrite E in Ho. discriminate.
  - exists s. split; [exact H1|]. apply vars_to_solve_in. split; [exact H2|]. split; [exact H3|]. destruct fixed as [f|]; [|intros []].
    cbn [fx_of]. rewrite fixed_keys. intro Hi. apply in_map_iff in Hi as (n & <- & Hi). now apply (H4 f n).
Qed.
Print Assumptions C58_success_means_residuals_small.
(* The optimizer's own flag is believed without looking at the residuals ... *)
Definition yes_opt (x : list R) : list sx -> vals -> list sym -> list R * bool := fun _ _ _ => (x, true).
Definition one_m : ssmodel := SSM [str "x"] [] [Ad (ssv "x") (Ng (Cst 1))] [] false.
Theorem C58_success_means_residuals_small_refuted :
  ~ (forall optimizer grad_small m params h tol r, m_linear m = false ->
       steady_state expworld optimizer grad_small m params h None tol = Ok (r, true) ->
       forall e, In e (m_equations m) -> (Rabs (ev (Ralg expworld) (env_of (r ++ params)) e) <= tol)%R).
Proof.
  intro H. specialize (H (yes_opt [5%R]) (fun _ _ => false) one_m [] Minimize 1%R [(SSs (str "x"), 5%R)] eq_refl eq_refl
    (Ad (ssv "x") (Ng (Cst 1))) (or_introl eq_refl)). cbn in H. unfold env_of in H. cbn in H. revert H. unfold Rabs. destruct (Rcase_abs _); lra.
Qed.
Print Assumptions C58_success_means_residuals_small_refuted.
(* ... and even an honest optimizer reports success when a provided value violates a dropped equation. *)
Definition bad_m : ssmodel := SSM [str "x"; str "y"] [] two_eqs [(SSs (str "x"), Cst 2)] false.
Theorem C58_success_means_residuals_small_refuted_by_provided_value :
  ~ (forall optimizer grad_small m params h tol r, m_linear m = false ->
       (forall eqs kw vs x, optimizer eqs kw vs = (x, true) -> length x = length vs /\
          forall e, In e eqs -> ev (Ralg expworld) (env_of (combine vs x ++ kw)) e = 0%R) ->
       steady_state expworld optimizer grad_small m params h None tol = Ok (r, true) ->
       forall e, In e (m_equations m) -> (Rabs (ev (Ralg expworld) (env_of (r ++ params)) e) <= tol)%R).
Proof.
  intro H.
  (* the optimizer that solves y - 2 = 0 and gives up otherwise *)
  set (opt := fun (eqs : list sx) (kw : vals) (vs : list sym) =>
     match eqs, vs with
     | [Ad (Sy (SSs b)) (Ng (Cst 2))], [SSs b'] => if chars_eqb b b' then ([2%R], true) else ([], false)
     | _, _ => ([] : list R, false)
     end).
  specialize (H opt (fun _ _ => false) bad_m [] Root (1/2)%R [(SSs (str "x"), 2%R); (SSs (str "y"), 2%R)] eq_refl).
  assert (X : (Rabs (ev (Ralg expworld) (env_of ([(SSs (str "x"), 2%R); (SSs (str "y"), 2%R)] ++ [])) (Ad (ssv "x") (Ng (Cst 1)))) <= 1/2)%R).
  { apply H; [|reflexivity|left; reflexivity].
    intros eqs kw vs x E. unfold opt in E.
    repeat match type of E with context [match ?z with _ => _ end] => destruct z eqn:?; try discriminate end.
    all: injection E as <-. all: split; [reflexivity|]. all: intros e [<-|[]].
    all: match goal with Hc : chars_eqb _ _ = true |- _ => apply chars_eqb_eq in Hc end. all: subst.
    all: cbn; unfold env_of, vget; cbn; rewrite sym_eqb_refl; cbn; lra. }
  cbn in X. unfold env_of in X. cbn in X. revert X. unfold Rabs. destruct (Rcase_abs _); lra.
Qed.
Print Assumptions C58_success_means_residuals_small_refuted_by_provided_value.
(* root needs a square system *)
Theorem C58_root_needs_square_system :
  forall G optimizer grad_small m params tol r b, m_linear m = false -> m_known m = [] -> m_variables m <> [] ->
  steady_state G optimizer grad_small m params Root None tol = Ok (r, b) ->
  length (m_equations m) = length (ss_variables m).
Proof.
  intros G o g m params tol r b Hl Hk Hv. unfold SS_Driver.steady_state, try_analytic. rewrite Hl, Hk. cbn [bind].
  assert (E1 : remaining_equations m [] = m_equations m) by (unfold remaining_equations; rewrite Hk; reflexivity).
  assert (E2 : vars_to_solve m [] = ss_variables m).
  { unfold vars_to_solve, merged_keys. rewrite Hk. cbn. clear. induction (ss_variables m) as [|x l IH]; cbn; [reflexivity|]. now rewrite IH. }
  rewrite E1, E2. destruct (ss_variables m) as [|s ss] eqn:E.
  { unfold ss_variables in E. destruct (m_variables m); [congruence|discriminate]. }
  destruct (Nat.eqb (length (m_equations m)) (length (s :: ss))) eqn:N; cbn [negb]; [|discriminate].
  intros _. now apply Nat.eqb_eq.
Qed.
Print Assumptions C58_root_needs_square_system.
Theorem C58_case : exists r, steady_state expworld (fun _ _ _ => ([1%R], false)) (fun _ _ => true) one_m [] Root None (1/2)%R = Ok (r, true).
Proof.
  exists [(SSs (str "x"), 1%R)]. unfold SS_Driver.steady_state. cbn [m_linear one_m try_analytic m_known bind]. unfold vars_to_solve. cbn.
  unfold postprocess. cbn. unfold less, max_abs, sse. cbn.
  destruct (Rlt_dec _ _) as [_|N]; [|exfalso; apply N; lra].
  destruct (Rlt_dec _ _) as [_|N]; [|exfalso; apply N; replace (1 + - (1))%R with 0%R by ring; rewrite Rabs_R0, Rmax_left; lra]. reflexivity.
Qed.

(* ---------------- C59: the minimised error ---------------- *)
Theorem C59_error_zero_iff_all_residuals_zero :
  forall f resid, resid <> [] -> ((0 <= error_from_resid f resid)%R /\ (error_from_resid f resid = 0%R <-> Forall (fun r => r = 0%R) resid)).
Proof. intros f resid H. split; [apply error_nonneg|now apply error_zero]. Qed.
Print Assumptions C59_error_zero_iff_all_residuals_zero.
(* The compiled function evaluates the graph with the i-th unknown set to x_flat[i], whichever unknowns occur. *)
Theorem C59_packed_function_evaluates_at_the_point :
  forall V (A : alg V) outputs nodes params default x env,
  length x = length nodes ->
  (forall i n, nth_error nodes i = Some n -> nth_error x i = Some (env n)) ->
  (forall e s, In e outputs -> In s (atoms e) -> ~ In s nodes -> params s = Some (env s)) ->
  pack_and_compile V A outputs nodes params default x = Some (map (ev A env) outputs).
Proof. exact pack_spec. Qed.
Print Assumptions C59_packed_function_evaluates_at_the_point.
Theorem C59_case :
  pack_and_compile Z Zalg [Ad (ssv "z") (Mu (Sy (sp "a")) (ssv "x"))] [SSs (str "x"); SSs (str "y"); SSs (str "z")]
    (fun s => if sym_eqb s (sp "a") then Some 10%Z else None) 0%Z [1%Z; 2%Z; 3%Z] = Some [13%Z].
Proof. reflexivity. Qed.

(* ---------------- C60: STEADY_STATE block equations with helper definitions ---------------- *)
Theorem C60_helper_definitions_eliminated :
  forall ord sord, set_order_ok ord -> set_order_ok sord -> forall dord, perm_order dord ->
  forall ss variables, NoDup (map fst ss) ->
  let extras := filter (fun kv => negb (smem (fst kv) (map SSs variables))) ss in
  match simplify_provided ord sord dord ss variables with
  | Err e => e = ValueError /\ ~ acyclic extras
  | Ok r => acyclic extras /\
      (* the model variables that were given a value, in the order given *)
      map fst r = filter (fun k => smem k (map SSs variables)) (map fst ss) /\
      (NoSelf extras ->
        (forall k v s, In (k, v) r -> In s (atoms v) -> In s (map fst ss) -> In s (map SSs variables)) /\
        forall V (A : alg V) env, model_of A env extras -> (model_of A env r <-> model_of A env ss))
  end.
Proof.
  intros ord sord Ho Hs dord Hd ss variables Hn extras.
  destruct (simplify_provided ord sord dord ss variables) as [r|e] eqn:E.
  - split; [apply (simplify_ok ord sord Ho dord ss variables Hn); eauto|]. split.
    + rewrite (simplify_keys _ _ _ _ _ _ E). unfold proper_of. clear. induction ss as [|kv ss IH]; cbn; [reflexivity|].
      destruct (smem (fst kv) (map SSs variables)); cbn; rewrite IH; reflexivity.
    + intros Hself. exact (simplify_meaning ord sord Ho Hs dord Hd ss variables r Hn Hself E).
  - assert (e = ValueError) by (eapply simplify_err; [exact Ho|exact Hn|exact E]). split; [assumption|]. intro Ha. apply (simplify_ok ord sord Ho dord ss variables Hn) in Ha as (r & Hr). congruence.
Qed.
Print Assumptions C60_helper_definitions_eliminated.
(* f_ss: each known variable gets its own formula. *)
Theorem C60_known_values_labelled_correctly :
  forall ss variables k e, In (k, e) (known_ss_dict ss variables) <-> exists v, In v variables /\ k = SSs v /\ slookup (SSs v) ss = Some e.
Proof. exact sorted_solution_In. Qed.
Print Assumptions C60_known_values_labelled_correctly.
(* The symbolic variant agrees when every variable is known ... *)
Theorem C60_symbolic_known_values_complete :
  forall ss variables, (forall v, In v variables -> In (SSs v) (map fst ss)) -> known_ss_symbolic ss variables = known_ss_dict ss variables.
Proof. exact symbolic_full. Qed.
Print Assumptions C60_symbolic_known_values_complete.
(* ... and attaches values to the wrong variables otherwise. *)
Theorem C60_symbolic_known_values_labelled_correctly_refuted :
  ~ (forall ss variables k e, In (k, e) (known_ss_symbolic ss variables) -> slookup k ss = Some e).
Proof.
  intro H. specialize (H [(SSs (str "y"), Cst 1)] [str "x"; str "y"] (SSs (str "x")) (Cst 1) (or_introl eq_refl)). discriminate.
Qed.
Print Assumptions C60_symbolic_known_values_labelled_correctly_refuted.
Theorem C60_case :
  simplify_provided id_ord id_ord (fun d => d)
    [(sp "h", Mu (Cst 2) (Sy (sp "a"))); (SSs (str "x"), Ad (Sy (sp "h")) (Cst 1)); (SSs (str "y"), ssv "x")] [str "x"; str "y"] =
  Ok [(SSs (str "x"), Ad (Mu (Cst 2) (Sy (sp "a"))) (Cst 1)); (SSs (str "y"), ssv "x")].
Proof. reflexivity. Qed.

(* ---------------- C61: bounds and reparametrisation ---------------- *)
Theorem C61_reparametrised_system_has_the_same_feasible_roots :
  forall (F : list R -> list R) ts, Forall proper ts ->
  (forall y, length y = length ts -> Forall (fun r => r = 0%R) (transformed F ts y) ->
     Forall2 region ts (map2 ts y) /\ Forall (fun r => r = 0%R) (F (map2 ts y))) /\
  (forall x, Forall2 region ts x -> Forall (fun r => r = 0%R) (F x) ->
     exists y, length y = length ts /\ map2 ts y = x /\ Forall (fun r => r = 0%R) (transformed F ts y)).
Proof. exact transformed_roots. Qed.
Print Assumptions C61_reparametrised_system_has_the_same_feasible_roots.
Theorem C61_change_of_variable_is_invertible :
  forall t, proper t -> (forall y, region t (backward t y) /\ forward t (backward t y) = y) /\ (forall x, region t x -> backward t (forward t x) = x).
Proof. intros t P. split; [intro y; split; [now apply backward_region|now apply forward_backward]|apply backward_forward]. Qed.
Print Assumptions C61_change_of_variable_is_invertible.
(* Sign assumptions hold for whatever the minimiser returns; bounds given under the steady-state name are respected. *)
Theorem C61_assumptions_and_bounds_respected :
  forall user a s y, proper (used_transform user a s) ->
  (lookup (ss_name s) user = None -> a_positive a = true -> (0 < backward (used_transform user a s) y)%R) /\
  (lookup (ss_name s) user = None -> a_negative a = true -> a_positive a = false -> (backward (used_transform user a s) y < 0)%R) /\
  (forall lo hi : R, lookup (ss_name s) user = Some (Some lo, Some hi) -> (lo < backward (used_transform user a s) y < hi)%R).
Proof.
  intros user a s y P. pose proof (backward_region _ y P) as Rg. split; [|split].
  - intros H1 H2. exact (no_user_positive user a s _ H1 H2 Rg).
  - intros H1 H2 H3. exact (no_user_negative user a s _ H1 H2 H3 Rg).
  - intros lo hi H. apply (user_respected user a s (Some lo) (Some hi) _ H) in Rg; [exact Rg|discriminate].
Qed.
Print Assumptions C61_assumptions_and_bounds_respected.
Theorem C61_default_start_is_feasible :
  forall a s, (a_positive a = true -> a_negative a = false) -> region (used_transform [] a s) (default_x0 a).
Proof. exact default_start. Qed.
Print Assumptions C61_default_start_is_feasible.
(* The unit_interval assumption never bounds the variable by one. *)
Theorem C61_unit_interval_respected_refuted :
  ~ (forall a s y, (backward (used_transform [] (declare_unit_interval a) s) y < 1)%R).
Proof.
  intro H. specialize (H (Assum false false false) (SSs (str "x")) 1%R). cbn in H.
  pose proof (exp_ineq1 1 ltac:(lra)). unfold atol in H. lra.
Qed.
Print Assumptions C61_unit_interval_respected_refuted.
(* Bounds keyed by the plain variable name are ignored. *)
Theorem C61_bounds_by_variable_name_respected_refuted :
  ~ (forall (b : chars) lo hi a y, (lo < hi)%R ->
       (lo < backward (used_transform [(b, (Some lo, Some hi))] a (SSs b)) y < hi)%R).
Proof.
  intro H. specialize (H (str "K") 1%R 2%R (Assum false false false) 0%R ltac:(lra)). cbn in H. lra.
Qed.
Print Assumptions C61_bounds_by_variable_name_respected_refuted.
Theorem C61_start_is_feasible_for_user_bounds_refuted :
  ~ (forall user a s, (a_positive a = true -> a_negative a = false) -> proper (used_transform user a s) ->
       region (used_transform user a s) (default_x0 a)).
Proof.
  intro H. specialize (H [(str "x_ss", (Some 1%R, Some 2%R))] (Assum false false false) (SSs (str "x"))). cbn in H.
  destruct H as [H _]; [discriminate|lra|lra].
Qed.
Print Assumptions C61_start_is_feasible_for_user_bounds_refuted.
Theorem C61_case : proper (used_transform [(str "x_ss", (Some 1%R, Some 2%R))] (Assum true false false) (SSs (str "x"))) /\
  proper (used_transform [] (Assum true false false) (SSs (str "x"))).
Proof. cbn. split; [lra|exact I]. Qed.
