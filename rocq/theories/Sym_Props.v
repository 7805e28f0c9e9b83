(* Properties C10-C12 and C42-C44: substitution, time shifting and differentiation of model expressions. *)
From Verif Require Import Common Sym_Model Sym_Spec Sym_Proofs Sym_Diff Sym_Flatten Sym_More.
From Coq Require Import Permutation Reals.
Local Open Scope list_scope.

(* C10. [ord] and [sord] are arbitrary: the iteration order of Python sets and of SymPy's substitution. *)
Theorem C10_success_exactly_when_acyclic :
  forall ord sord, set_order_ok ord -> set_order_ok sord ->
  forall d : sdict, NoDup (map fst d) ->
    ((exists f, flatten ord sord d = Ok f) <-> acyclic d) /\
    (forall e, flatten ord sord d = Err e -> e = ValueError).
Proof.
  exact (fun ord sord Ho Hs d Hd =>
    conj (flatten_succeeds_iff ord sord Ho d Hd) (flatten_err ord sord Ho d)).
Qed.
Print Assumptions C10_success_exactly_when_acyclic.

Theorem C10_flattened_completely :
  forall ord sord, set_order_ok ord -> set_order_ok sord ->
  forall d f : sdict, NoDup (map fst d) -> NoSelf d -> flatten ord sord d = Ok f ->
    Permutation (map fst f) (map fst d) /\
    (forall k w s, In (k, w) f -> In s (atoms w) -> ~ In s (map fst d)) /\
    (forall k v, In (k, v) d ->
       slookup k f = Some (smap (fun s => match slookup s f with Some w => w | None => Sy s end) v)) /\
    (forall V (A : alg V) env, model_of A env d <-> model_of A env f).
Proof. exact (fun ord sord Ho Hs d f Hd Hself => flatten_values ord sord Ho Hs d Hd Hself f). Qed.
Print Assumptions C10_flattened_completely.

(* A definition that mentions itself is neither flattened nor reported as a cycle. *)
Theorem C10_self_reference_refuted :
  ~ (forall d f, NoDup (map fst d) -> flatten id_ord id_ord d = Ok f ->
       forall k w s, In (k, w) f -> In s (atoms w) -> ~ In s (map fst d)).
Proof. exact self_refutes. Qed.
Print Assumptions C10_self_reference_refuted.

Example C10_chain :
  flatten id_ord id_ord [(sp "a", Ad (Sy (sp "b")) (Sy (sp "c"))); (sp "b", Mu (Cst 2) (Sy (sp "c"))); (sp "c", Sy (sp "z"))]
  = Ok [(sp "c", Sy (sp "z")); (sp "b", Mu (Cst 2) (Sy (sp "z"))); (sp "a", Ad (Mu (Cst 2) (Sy (sp "z"))) (Sy (sp "z")))]
  /\ flatten id_ord id_ord [(sp "a", Sy (sp "b")); (sp "b", Ng (Sy (sp "a")))] = Err ValueError.
Proof. split; vm_compute; reflexivity. Qed.

(* C11 *)
Theorem C11_forward_is_simultaneous_shift :
  forall ord, set_order_ok ord -> forall eq,
    (no_ss eq -> step_equation_forward ord eq = Ok (shift 1 eq)) /\
    (~ no_ss eq -> step_equation_forward ord eq = Err TypeError).
Proof. exact forward_spec. Qed.
Print Assumptions C11_forward_is_simultaneous_shift.

Theorem C11_backward_is_simultaneous_shift :
  forall ord, set_order_ok ord -> forall eq,
    (no_ss eq -> step_equation_backward ord eq = Ok (shift (-1) eq)) /\
    (~ no_ss eq -> step_equation_backward ord eq = Err TypeError).
Proof. exact backward_spec. Qed.
Print Assumptions C11_backward_is_simultaneous_shift.

Theorem C11_round_trip :
  forall ord, set_order_ok ord -> forall eq, no_ss eq ->
    bind (step_equation_forward ord eq) (step_equation_backward ord) = Ok eq /\
    bind (step_equation_backward ord eq) (step_equation_forward ord) = Ok eq.
Proof.
  intros ord Ho eq Hn. split.
  - rewrite (proj1 (forward_spec ord Ho eq) Hn). cbn [bind].
    rewrite (proj1 (backward_spec ord Ho _) (proj2 (shift_no_ss 1 eq) Hn)), shift_shift. exact (f_equal Ok (shift_0 eq)).
  - rewrite (proj1 (backward_spec ord Ho eq) Hn). cbn [bind].
    rewrite (proj1 (forward_spec ord Ho _) (proj2 (shift_no_ss (-1) eq) Hn)), shift_shift. exact (f_equal Ok (shift_0 eq)).
Qed.
Print Assumptions C11_round_trip.

(* What the shift means: the shifted expression now is the expression one period later. *)
Theorem C11_shift_meaning :
  forall V (A : alg V) env k e, ev A env (shift k e) = ev A (later k env) e.
Proof. exact @ev_shift. Qed.
Print Assumptions C11_shift_meaning.

Example C11_overlapping_dates :
  let x t := Sy (SDate (str "x") t) in
  step_equation_forward id_ord (Ad (x (-1)%Z) (Mu (x 0%Z) (Ad (x 1%Z) (Sy (SPar (str "a"))))))
  = Ok (Ad (x 0%Z) (Mu (x 1%Z) (Ad (x 2%Z) (Sy (SPar (str "a")))))).
Proof. vm_compute. reflexivity. Qed.
(* Stepping an equation that mentions a steady-state value is an error although the docstrings allow it. *)
Example C11_ss_fails :
  step_equation_forward id_ord (Ad (Sy (SDate (str "x") 0)) (Sy (SSs (str "x")))) = Err TypeError.
Proof. vm_compute. reflexivity. Qed.

(* C12: the result is the derivative, with respect to the period-t value of the variable, of the discounted sum of the
   expression over any horizon long enough - so no term is missed and none is counted twice. *)
Theorem C12_derivative_of_discounted_sum :
  forall ord, set_order_ok ord -> forall (G : smooth) (L df : sx) (b : chars) (t : Z),
    no_ss L -> param_only df ->
    exists d n, diff_through_time ord L b t df = Ok d /\
      forall (env : sym -> R) H, (n <= H)%nat -> defined G env df ->
        (forall k, (k <= H)%nat -> defined G (later (Z.of_nat k) env) L) ->
        derivable_pt_lim (fun y => discounted_sum G L (ev (Ralg G) env df) H (with_value env (SDate b t) y))
                         (env (SDate b t)) (ev (Ralg G) env d).
Proof. exact (fun ord Ho G L df b t => dtt_correct ord Ho G L df b t). Qed.
Print Assumptions C12_derivative_of_discounted_sum.

Theorem C12_steady_state_terms_fail :
  forall ord, set_order_ok ord -> forall (L df : sx) (b : chars) (t : Z),
    ~ no_ss L -> (exists t', In (SDate b t') (atoms L)) -> diff_through_time ord L b t df = Err TypeError.
Proof. exact dtt_ss_fails. Qed.
Print Assumptions C12_steady_state_terms_fail.

(* With a dated discount factor m the second-period weight is m[1]^2, not m[0]*m[1]. *)
Theorem C12_dated_discount_factor_refuted :
  ~ (forall L b t df d, diff_through_time id_ord L b t df = Ok d ->
       L = Sy (SDate b (t - 2)) ->
       forall env : sym -> Z, ev Zalg env d = (ev Zalg env df * ev Zalg (later 1 env) df)%Z).
Proof.
  intro H. destruct vd_value as (d & Hd & Hv).
  pose (env := fun s : sym => match s with SDate _ 0%Z => 1%Z | _ => 2%Z end).
  specialize (H vd_L (str "x") 0%Z vd_m d Hd eq_refl env). rewrite Hv in H. discriminate H.
Qed.
Print Assumptions C12_dated_discount_factor_refuted.

Example C12_hypotheses_met :
  let L := Mu (Fn (str "u") 0 (Sy (SDate (str "C") 0))) (Ad (Sy (SDate (str "K") (-1))) (Sy (SDate (str "K") 0))) in
  no_ss L /\ param_only (Sy (SPar (str "beta"))) /\ forall env, defined expworld env L.
Proof.
  split; [|split].
  - intros b H. cbn in H. intuition discriminate.
  - intros s [<-|[]]. eauto.
  - intro env. cbn. auto.
Qed.

(* C42: definitions are expanded to the three dates, each shifted as a whole. *)
Theorem C42_definitions_expanded_at_all_dates :
  forall ord, set_order_ok ord -> forall (b : chars) (t0 : Z) (rhs : sx), no_ss rhs ->
    expand_definition ord b t0 rhs = Ok (map (fun t => (Sy (SDate b t), shift (t - t0) rhs)) [-1; 0; 1]%Z).
Proof. exact expand_definition_spec. Qed.
Print Assumptions C42_definitions_expanded_at_all_dates.
Example C42_concrete :
  expand_definition id_ord (str "u") 0 (Sy (SDate (str "C") (-1))) =
  Ok [(Sy (SDate (str "u") (-1)), Sy (SDate (str "C") (-2)));
      (Sy (SDate (str "u") 0), Sy (SDate (str "C") (-1)));
      (Sy (SDate (str "u") 1), Sy (SDate (str "C") 0))].
Proof. vm_compute. reflexivity. Qed.

(* C43: eliminating a variable that another equation sets equal to something. *)
Theorem C43_alias_elimination_sound :
  forall V (A : alg V) env x y e, holds_always A env x (Sy (SDate y 0)) -> x <> y ->
    ev A env (subs_seq (expand_subs1 (SDate x 0) (Sy (SDate y 0))) e) = ev A env e.
Proof. exact @expand_alias_sound. Qed.
Print Assumptions C43_alias_elimination_sound.

Theorem C43_constant_elimination_sound :
  forall V (A : alg V) env x rhs e,
    (forall s, In s (atoms rhs) -> exists n, s = SPar n) -> holds_always A env x rhs ->
    ev A env (subs_seq (expand_subs1 (SDate x 0) rhs) e) = ev A env e.
Proof. exact @expand_const_sound. Qed.
Print Assumptions C43_constant_elimination_sound.

(* x[] = -y[] rewrites x[1] to -y[0] *)
Theorem C43_elimination_sound_refuted :
  ~ (forall (A : alg Z) env x rhs e, holds_always A env x rhs -> ~ In (SDate x 0) (atoms rhs) ->
       ev A env (subs_seq (expand_subs1 (SDate x 0) rhs) e) = ev A env e).
Proof. exact all_dates_refuted. Qed.
Print Assumptions C43_elimination_sound_refuted.

(* x[] = y[-1] rewrites x[] to y[] *)
Theorem C43_dated_alias_refuted :
  ~ (forall (A : alg Z) env x y t e, holds_always A env x (Sy (SDate y t)) -> x <> y ->
       ev A env (subs_seq (expand_subs1 (SDate x 0) (Sy (SDate y t))) e) = ev A env e).
Proof. exact all_dates_symbol_refuted. Qed.
Print Assumptions C43_dated_alias_refuted.
Example C43_alias_met : exists env : sym -> Z, holds_always Zalg env (str "x") (Sy (SDate (str "y") 0)) /\
  env (SDate (str "x") 0) <> env (SDate (str "x") 1).
Proof. exists (fun s => match s with SDate _ t => t | _ => 0%Z end). split; [split; [intro k; cbn; lia|reflexivity]|discriminate]. Qed.

(* C44: the steady-state form of an equation is the equation on the path that rests at the steady state without shocks. *)
Theorem C44_steady_state_form :
  forall ord, set_order_ok ord -> forall V (A : alg V) env eq shocks,
    (forall s, In s shocks -> exists b t, s = SDate b t) ->
    ev A env (eq_to_ss ord eq shocks) =
    ev A (fun s => match s with
                   | SPar n => env (SPar n)
                   | SDate b _ | SSs b => if in_dec sym_eq_dec (SSs b) (map to_ss_sym shocks) then a_cst V A 0 else env (SSs b)
                   end) eq.
Proof. exact eq_to_ss_means. Qed.
Print Assumptions C44_steady_state_form.
Example C44_concrete :
  eq_to_ss id_ord (Ad (Sy (SDate (str "A") 1)) (Ad (Sy (SDate (str "A") (-1))) (Sy (SDate (str "eps") 0)))) [SDate (str "eps") 0]
  = Ad (Sy (SSs (str "A"))) (Ad (Sy (SSs (str "A"))) (Cst 0)).
Proof. vm_compute. reflexivity. Qed.
