(* What the time-index expansion should do, stated without reference to how it does it. *)
From Verif Require Import Common Expr_Model ExpandTime_Model.
Local Open Scope list_scope.

Section S.
Context {F X : Type}.

(* The variable occurrences of an expression. *)
Fixpoint occs (e : expr F) : list (chars * tix) :=
  match e with
  | Num _ | Par _ => []
  | Var n t => [(n, t)]
  | Neg a => occs a
  | Bin _ a b => occs a ++ occs b
  | Fun _ args => flat_map occs args
  | Expec a => occs a
  end.
(* The equations of a block that enter the dynamic model. *)
Definition dyn_eqs (b : gblock F X) : list (equation F) :=
  definitions b ++ objective b ++ constraints b ++ identities b.
Definition occs_eqs (l : list (equation F)) : list (chars * tix) := flat_map (fun q => occs (lhs q) ++ occs (rhs q)) l.
Definition occs_block (b : gblock F X) : list (chars * tix) :=
  occs_eqs (dyn_eqs b) ++ flat_map occs (controls b).

Definition near (t : tix) : Prop := match t with TIss => True | TI z => (-1 <= z <= 1)%Z end.

(* Auxiliary variable "x lagged k" / "x led k" is called for when some occurrence of x is dated beyond it. *)
Definition uses_lag (b : gblock F X) (x : chars) (k : nat) : Prop :=
  exists z, In (x, TI z) (occs_block b) /\ (1 <= Z.of_nat k <= - z - 1)%Z.
Definition uses_lead (b : gblock F X) (x : chars) (k : nat) : Prop :=
  exists z, In (x, TI z) (occs_block b) /\ (1 <= Z.of_nat k <= z - 1)%Z.
Definition lag_name (x : chars) (k : nat) : chars := x ++ str "__lag" ++ dec (N.of_nat k).
Definition lead_name (x : chars) (k : nat) : chars := x ++ str "__lead" ++ dec (N.of_nat k).
Definition is_aux (b : gblock F X) (n : chars) : Prop :=
  (exists x k, uses_lag b x k /\ n = lag_name x k) \/ (exists x k, uses_lead b x k /\ n = lead_name x k).
(* No auxiliary name is already the name of a variable of the block. *)
Definition fresh (b : gblock F X) : Prop := forall n t, In (n, t) (occs_block b) -> ~ is_aux b n.

(* Meaning of equations over paths: a path gives every variable a value at every date.  Values live in any type V
   with any interpretation of the operators; conditional expectation at date t is any map E t. *)
Record interp (V : Type) := Interp {
  i_num : F -> V; i_par : chars -> V; i_neg : V -> V; i_op : bop -> V -> V -> V;
  i_fun : chars -> list V -> V; i_ss : chars -> V; i_E : Z -> V -> V }.
Definition path (V : Type) := chars -> Z -> V.
Fixpoint den {V} (I : interp V) (p : path V) (t : Z) (e : expr F) : V :=
  match e with
  | Num v => i_num V I v
  | Par n => i_par V I n
  | Var n (TI k) => p n (t + k)%Z
  | Var n TIss => i_ss V I n
  | Neg a => i_neg V I (den I p t a)
  | Bin o a b => i_op V I o (den I p t a) (den I p t b)
  | Fun f args => i_fun V I f (map (den I p t) args)
  | Expec a => i_E V I t (den I p t a)
  end.
Definition holds {V} (I : interp V) (p : path V) (q : equation F) : Prop :=
  forall t, den I p t (lhs q) = den I p t (rhs q).
Definition solves {V} (I : interp V) (p : path V) (b : gblock F X) : Prop :=
  forall q, In q (dyn_eqs b) -> holds I p q.

(* The auxiliary variables have the values their names promise. *)
Definition lags_right {V} (b : gblock F X) (p : path V) : Prop :=
  forall x k, uses_lag b x k -> forall t, p (lag_name x k) t = p x (t - Z.of_nat k)%Z.
Definition leads_right {V} (b : gblock F X) (p : path V) : Prop :=
  forall x k, uses_lead b x k -> forall t, p (lead_name x k) t = p x (t + Z.of_nat k)%Z.

(* Expectations that do nothing: perfect foresight. *)
Definition foresight {V} (I : interp V) : Prop := forall t v, i_E V I t v = v.
(* Law of iterated expectations. *)
Definition tower {V} (I : interp V) : Prop := forall t v, i_E V I t (i_E V I (t + 1)%Z v) = i_E V I t v.
(* A lead auxiliary holds the forecast of x. *)
Definition leads_forecast {V} (I : interp V) (b : gblock F X) (p : path V) : Prop :=
  forall x k, uses_lead b x k -> forall t, p (lead_name x k) t = i_E V I t (p x (t + Z.of_nat k)%Z).

(* Reading of an equation in which a lead of two or more periods stands for its next-period forecast. *)
Fixpoint den_fc {V} (I : interp V) (p : path V) (t : Z) (e : expr F) : V :=
  match e with
  | Num v => i_num V I v
  | Par n => i_par V I n
  | Var n (TI k) => if Z.ltb 1 k then i_E V I (t + 1)%Z (p n (t + k)%Z) else p n (t + k)%Z
  | Var n TIss => i_ss V I n
  | Neg a => i_neg V I (den_fc I p t a)
  | Bin o a b => i_op V I o (den_fc I p t a) (den_fc I p t b)
  | Fun f args => i_fun V I f (map (den_fc I p t) args)
  | Expec a => i_E V I t (den_fc I p t a)
  end.
Definition solves_fc {V} (I : interp V) (p : path V) (b : gblock F X) : Prop :=
  forall q, In q (dyn_eqs b) -> forall t, den_fc I p t (lhs q) = den_fc I p t (rhs q).

Definition agree_off_aux {V} (b : gblock F X) (p p' : path V) : Prop :=
  forall n, ~ is_aux b n -> forall t, p' n t = p n t.
Definition vars_of (q : equation F) : list chars := map fst (occs (lhs q) ++ occs (rhs q)).
End S.
Arguments interp F V : clear implicits.

(* Equations in which leads of two or more periods occur only linearly and directly under an expectation. *)
Section Lin.
Context {F X : Type}.
Definition const (e : expr F) : bool := match e with Num _ | Par _ => true | _ => false end.
Fixpoint linear (e : expr F) : bool :=
  match e with
  | Var _ (TI _) => true
  | Neg a => linear a
  | Bin ADD a b | Bin SUB a b => linear a && linear b
  | Bin MUL c a => const c && linear a
  | _ => false
  end.
Fixpoint no_deep_lead (e : expr F) : bool :=
  match e with
  | Num _ | Par _ => true
  | Var _ (TI z) => Z.leb z 1
  | Var _ TIss => true
  | Neg a => no_deep_lead a
  | Bin _ a b => no_deep_lead a && no_deep_lead b
  | Fun _ args => forallb no_deep_lead args
  | Expec a => no_deep_lead a
  end.
Fixpoint leads_linear (e : expr F) : bool :=
  match e with
  | Expec a => linear a || leads_linear a
  | Neg a => leads_linear a
  | Bin _ a b => leads_linear a && leads_linear b
  | Fun _ args => forallb leads_linear args
  | _ => no_deep_lead e
  end.
Definition block_leads_linear (b : gblock F X) : Prop :=
  forall q, In q (dyn_eqs b) -> leads_linear (lhs q) = true /\ leads_linear (rhs q) = true.
Record linear_E {V} (I : interp F V) : Prop := {
  lE_add : forall t a b, i_E V I t (i_op V I ADD a b) = i_op V I ADD (i_E V I t a) (i_E V I t b);
  lE_sub : forall t a b, i_E V I t (i_op V I SUB a b) = i_op V I SUB (i_E V I t a) (i_E V I t b);
  lE_neg : forall t a, i_E V I t (i_neg V I a) = i_neg V I (i_E V I t a);
  lE_num : forall t c a, i_E V I t (i_op V I MUL (i_num V I c) a) = i_op V I MUL (i_num V I c) (i_E V I t a);
  lE_par : forall t c a, i_E V I t (i_op V I MUL (i_par V I c) a) = i_op V I MUL (i_par V I c) (i_E V I t a) }.
End Lin.
