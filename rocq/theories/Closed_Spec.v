From Verif Require Import Common Sym_Model Sym_Spec Block_Model Block_Spec.
From Coq Require Import Reals.
Local Open Scope list_scope.
Local Open Scope R_scope.

(* Worlds in which exp and log are the real functions. *)
Record power_world (G : smooth) : Prop := {
  pw_exp : forall k x, s_fn G (str "exp") k x = exp x;
  pw_ln : forall x, 0 < x -> s_fn G (str "log") 0 x = ln x;
  pw_dln : forall x, 0 < x -> s_fn G (str "log") 1 x = / x;
  pw_dom : forall x, s_dom G (str "log") x -> 0 < x }.

(* A variable is written at most once in the constraint, and at no date but its own. *)
Definition written_once (e : geq) (s : sym) : Prop :=
  (count_occ sym_eq_dec (atoms (g_lhs e) ++ atoms (g_rhs e)) s <= 1)%nat /\
  forall n t t', s = SDate n t -> In (SDate n t') (atoms (g_lhs e) ++ atoms (g_rhs e)) -> t' = t.
(* A point at which the constraint "output = production" holds with positive output, everything is defined at every
   date, and expressions the simplifier [zero] recognises as zero are zero. *)
Record production_point (G : smooth) (zero : sx -> bool) (obj e : geq) (c : sx) (env : sym -> R) : Prop := {
  pp_holds : ev (Ralg G) env (g_lhs e) = ev (Ralg G) env (g_rhs e);
  pp_pos : 0 < ev (Ralg G) env (g_lhs e);
  pp_c : defined G env c;
  pp_def : forall k, defined G (later k env) (g_rhs obj) /\ defined G (later k env) (g_lhs e) /\ defined G (later k env) (g_rhs e);
  pp_zero : forall x, zero x = true -> ev (Ralg G) env x = 0 }.
