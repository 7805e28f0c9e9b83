(* Vocabulary of the statements about linearisation. *)
From Verif Require Import Common Sym_Model Sym_Spec Lin_Model.
From Coq Require Import Reals.
Local Open Scope list_scope.

(* Simplification keeps the value and adds no symbols. *)
Definition simp_ok (simp : sx -> sx) : Prop :=
  forall e, incl (atoms (simp e)) (atoms e) /\ forall G env, ev (Ralg G) env (simp e) = ev (Ralg G) env e.
(* Every symbol is a parameter, a variable or a shock; variables and shocks are distinct. *)
Definition well_formed (m : lmodel) : Prop :=
  NoDup (l_vars m) /\ (forall v, In v (l_vars m) -> ~ In v (l_shocks m)) /\
  forall eq s, In eq (l_eqs m) -> In s (atoms eq) ->
    match s with SPar _ => True | SDate b _ | SSs b => In b (l_vars m) \/ In b (l_shocks m) end.
(* The point of linearisation: variables at their steady-state values at all dates, no shocks, the given parameters.
   Steady-state dictionaries are keyed "v_ss" or "v". *)
Definition at_rest (m : lmodel) (ss params : list (chars * R)) (pt : sym -> R) : Prop :=
  (forall k x, In (k, x) ss -> In (removesuffix k) (l_vars m) -> pt (SSs (removesuffix k)) = x) /\
  (forall b t, In b (l_vars m) -> pt (SDate b t) = pt (SSs b)) /\
  (forall b t, In b (l_shocks m) -> pt (SDate b t) = 0%R /\ pt (SSs b) = 0%R) /\
  (forall n x, In (n, x) params -> pt (SPar n) = x).
Definition entry {A} (M : matrix A) (i j : nat) : option A :=
  match nth_error M i with Some row => nth_error row j | None => None end.
Definition has_shape {A} (M : matrix A) (r c : nat) : Prop := length M = r /\ forall row, In row M -> length row = c.
(* derivative of an equation in the level / in the logarithm of one of its symbols *)
Definition level_derivative (G : smooth) (eq : sx) (pt : sym -> R) (x : sym) (d : R) : Prop :=
  derivable_pt_lim (fun z => ev (Ralg G) (with_value pt x z) eq) (pt x) d.
Definition log_derivative (G : smooth) (eq : sx) (pt : sym -> R) (x : sym) (d : R) : Prop :=
  derivable_pt_lim (fun z => ev (Ralg G) (with_value pt x (exp z)) eq) (ln (pt x)) d.
(* The dictionary lists the variables in model order, then the calibrated parameters: what Model.steady_state returns. *)
Definition model_ordered (m : lmodel) (ss : list (chars * R)) : Prop := map (fun kv => removesuffix (fst kv)) ss = l_vars m ++ l_calibrated m.
(* Which variables are measured in logarithms and which in levels, from the arguments of the call. *)
Definition tiny (x : R) : Prop := (Rabs x < 1 / 100000000)%R.
Definition enters_in_logs (m : lmodel) (a : largs) (pt : sym -> R) (v : chars) : Prop :=
  a_log a = true /\ l_linear m = false /\ ~ In v (not_ll a) /\ l_negative m v = false /\ ~ tiny (pt (SSs v)) /\ (0 < pt (SSs v))%R.
Definition stays_in_levels (m : lmodel) (a : largs) (pt : sym -> R) (v : chars) : Prop :=
  a_log a = false \/ l_linear m = true \/ In v (not_ll a) \/ l_negative m v = true \/ tiny (pt (SSs v)) \/
  (pt (SSs v) < 0)%R /\ (a_neg a = false \/ l_positive m v = false).
(* [v] appears at date t in some equation *)
Definition appears (eqs : list sx) (v : chars) (t : Z) : Prop := exists eq, In eq eqs /\ In (SDate v t) (atoms eq).
Definition uses_date (vars : list chars) (eq : sx) (t : Z) : Prop := exists v, In v vars /\ In (SDate v t) (atoms eq).
