(* Vocabulary for statements about steady states. *)
From Verif Require Import Common Sym_Model Sym_Spec.
From Coq Require Import Reals.
Local Open Scope list_scope.

(* Contracts of the external equation solver (sympy.solve), for a set D of admissible valuations:
   a unique solution is a zero of the equation; ... *)
Definition solver_sound (G : smooth) (D : (sym -> R) -> Prop) (solve : sx -> sym -> option (list sx)) : Prop :=
  forall e u s, solve e u = Some [s] -> forall env, D env ->
    env u = ev (Ralg G) env s -> ev (Ralg G) env e = 0%R.
(* ... and it is the only zero; ... *)
Definition solver_complete (G : smooth) (D : (sym -> R) -> Prop) (solve : sx -> sym -> option (list sx)) : Prop :=
  forall e u s, solve e u = Some [s] -> forall env, D env ->
    ev (Ralg G) env e = 0%R -> env u = ev (Ralg G) env s.
(* ... written with the symbols of the equation other than the unknown. *)
Definition solver_uses_equation_symbols (solve : sx -> sym -> option (list sx)) : Prop :=
  forall e u l s, solve e u = Some l -> In s l -> forall w, In w (atoms s) -> In w (atoms e) /\ w <> u.

(* env is a steady state: every equation is zero. *)
Definition is_steady_state (G : smooth) (env : sym -> R) (eqs : list sx) : Prop :=
  forall e, In e eqs -> ev (Ralg G) env e = 0%R.
(* The steady-state variables of an equation that have no value in a dictionary. *)
Definition undetermined (variables : list chars) (d : sdict) (e : sx) (s : sym) : Prop :=
  In s (atoms e) /\ In s (map SSs variables) /\ ~ In s (map fst d).
(* Every steady-state variable of the equation has a value. *)
Definition determined (ss_solution : sdict) (ss_vars : list sym) (e : sx) : Prop :=
  forall s, In s (atoms e) -> In s ss_vars -> In s (map fst ss_solution).
(* The values given to unknowns mention no unknown. *)
Definition closed_values (ss_solution : sdict) (ss_vars : list sym) : Prop :=
  forall k v, In (k, v) ss_solution -> In k ss_vars -> forall s, In s (atoms v) -> ~ In s ss_vars.
