(* What the perfect-foresight statements talk about: an economy over time. *)
From Verif Require Import Common Sym_Model Sym_Spec Build_Model Lin_Model PF_Model.
From Coq Require Import Reals.
Local Open Scope list_scope.

(* A perfect-foresight economy: the value of every variable at every date, of every shock at every date, of every parameter in
   every period and of every steady-state symbol in every period. *)
Record economy := Economy {
  e_var : chars -> Z -> R; e_shock : chars -> Z -> R; e_par : chars -> nat -> R; e_ss : chars -> nat -> R }.
(* what a symbol of an equation means in period t *)
Definition meaning (shocks : list chars) (E : economy) (t : nat) (s : sym) : R :=
  match s with
  | SPar n => e_par E n t
  | SSs b => e_ss E b t
  | SDate b k => if existsb (chars_eqb b) shocks then e_shock E b (Z.of_nat t + k) else e_var E b (Z.of_nat t + k)
  end.
(* the keys under which the formula for the steady state of b may be stored: b[ss], b at some date, or a plain symbol called b_ss *)
Definition denotes (b : chars) (k : sym) : Prop := k = SSs b \/ (exists t, k = SDate b t) \/ k = SPar (b ++ str "_ss").
(* the steady-state symbols have the values of their analytic formulas (the first one stored, should there be several), at the
   parameters of the period *)
Definition steady_values (m : pf_model) (E : economy) (G : smooth) (T : nat) : Prop :=
  forall t eq b before k v after, t < T -> In eq (p_eqs m) -> In (SSs b) (atoms eq) -> p_ss m = before ++ (k, v) :: after ->
    denotes b k -> (forall k' v', In (k', v') before -> ~ denotes b k') ->
    e_ss E b t = ev (Ralg G) (meaning (p_shocks m) E t) v.
(* the vectors the solver works with, read off an economy: variable j of period t sits at position t * n + j *)
Definition variables_from (names : list chars) (T : nat) (y_initial y_terminal y : list R) (E : economy) : Prop :=
  length y = T * length names /\ length y_initial = length names /\ length y_terminal = length names /\
  forall j b, nth_error names j = Some b ->
    nth_error y_initial j = Some (e_var E b (-1)) /\ nth_error y_terminal j = Some (e_var E b (Z.of_nat T)) /\
    forall t, t < T -> nth_error y (t * length names + j) = Some (e_var E b (Z.of_nat t)).
Definition rows_from (T : nat) (rows : matrix R) (values : nat -> list R) : Prop :=
  length rows = T /\ forall t, t < T -> nth_error rows t = Some (values t).
(* a symbol the equations or the analytic steady-state formulas mention *)
Definition mentioned (m : pf_model) (s : sym) : Prop :=
  (exists eq, In eq (p_eqs m) /\ In s (atoms eq)) \/ exists k v, In (k, v) (p_ss m) /\ In s (atoms v).
(* shocks enter in the current period only *)
Definition current_shocks (m : pf_model) : Prop :=
  forall b k, mentioned m (SDate b k) -> In b (p_shocks m) -> k = 0%Z.
Definition holds (G : smooth) (m : pf_model) (E : economy) (T : nat) : Prop :=
  forall t eq, t < T -> In eq (p_eqs m) -> ev (Ralg G) (meaning (p_shocks m) E t) eq = 0%R.

(* ---- what the user asked for ---- *)
(* the value the conditions give to variable b, written as b or as b_ss *)
Definition given (c : dict R) (b : chars) (x : R) : Prop := exists k, In (k, x) c /\ removesuffix k = b.
Definition unambiguous (c : dict R) : Prop := forall b x x', given c b x -> given c b x' -> x = x'.
Definition distinct_keys {A} (d : dict A) : Prop := NoDup (map fst d).
Definition user_shock (a : pf_args) (b : chars) (t : nat) : R :=
  match dlook b (g_shocks a) with Some p => nth t p 0%R | None => 0%R end.
Definition path_value (p : path) (t : nat) : R := match p with Number x => x | Array l | Sequence l => nth t l 0%R end.
Definition user_param (m : pf_model) (a : pf_args) (n : chars) (t : nat) : R :=
  match dlook n (g_paths a) with
  | Some p => path_value p t
  | None => match dlook n (p_defaults m []) with Some x => x | None => 0%R end
  end.
(* the steady state used where the conditions are silent: the dictionary passed as the guess, or the one computed at the
   parameter values of the period *)
Definition boundary_steady_state (steady_state : dict R -> result (dict R)) (a : pf_args) (t : nat) (d : dict R) : Prop :=
  match g_guess a with
  | Steady d' => d = d'
  | _ => steady_state (g_updates a ++ map (fun kv => (fst kv, path_value (snd kv) t)) (g_paths a)) = Ok d
  end.
(* a steady-state dictionary is keyed b_ss or b *)
Definition steady_value (d : dict R) (b : chars) (x : R) : Prop :=
  dlook (b ++ suffix_ss) d = Some x \/ (dlook (b ++ suffix_ss) d = None /\ dlook b d = Some x).
