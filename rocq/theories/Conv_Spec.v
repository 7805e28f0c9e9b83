(* Meaning of expressions and graphs; what sp.cse promises. *)
From Verif Require Import Common Conv_Model.
Section Spec.
Context {V Op : Type}.
Variable sem : Op -> list V -> V.
Notation expr := (expr V Op).
Notation node := (node V Op).
(* the value of an expression: symbols get their values by name and class *)
Fixpoint evale (s : key -> V) (e : expr) : V :=
  match e with Num v => v | Sy x => s (key_of x) | App f l => sem f (map (evale s) l) end.
(* the value of a graph: inputs get their values by identity *)
Fixpoint evaln (r : nat -> V) (n : node) : V :=
  match n with Const v => v | Inp i _ => r i | Ap f l => sem f (map (evaln r) l) end.
Definition evalo (s : key -> V) (o : output V Op) : V := match o with inl v => v | inr e => evale s e end.
(* the symbols of an expression; the inputs of a graph *)
Inductive occurs (x : sym) : expr -> Prop :=
| o_sy : occurs x (Sy x)
| o_app f l e : In e l -> occurs x e -> occurs x (App f l).
Inductive depends (i : nat) : node -> Prop :=
| d_inp nm : depends i (Inp i nm)
| d_ap f l n : In n l -> depends i n -> depends i (Ap f l).
(* a name reserved for common subexpressions *)
Definition is_temp (k : key) : Prop := exists n, k = (temp_name n, CSymbol).
(* an expression of the user: no reserved names *)
Definition clean (e : expr) : Prop := forall x, occurs x e -> ~ is_temp (key_of x).
Definition clean_sym (x : sym) : Prop := ~ is_temp (key_of x).
Definition set_key (k : key) (v : V) (s : key -> V) : key -> V := fun k' => if key_dec k k' then v else s k'.
(* the values after computing the subexpressions in order *)
Fixpoint extend (s : key -> V) (subs : list (sym * expr)) : key -> V :=
  match subs with [] => s | (t, rhs) :: rest => extend (set_key (key_of t) (evale s rhs) s) rest end.
(* sp.cse with these names: every new symbol has a reserved name and is used only after its definition, and the reduced
   expressions, with the subexpressions computed in order, have the values of the original ones *)
Fixpoint defined_before (known : list key) (subs : list (sym * expr)) : Prop :=
  match subs with
  | [] => True
  | (t, rhs) :: rest => is_temp (key_of t) /\ (forall x, occurs x rhs -> is_temp (key_of x) -> In (key_of x) known) /\
                        defined_before (key_of t :: known) rest
  end.
Definition cse_ok (cse : list expr -> list (sym * expr) * list expr) : Prop := forall es, Forall clean es ->
  defined_before [] (fst (cse es)) /\
  (forall e x, In e (snd (cse es)) -> occurs x e -> is_temp (key_of x) -> In (key_of x) (map (fun p => key_of (fst p)) (fst (cse es)))) /\
  (forall s, Forall2 (fun r e => evale (extend s (fst (cse es))) r = evale s e) (snd (cse es)) es).
(* a call of the user *)
Definition clean_call (deriv : expr -> sym -> expr) (c : call V Op) : Prop :=
  match c with
  | Convert ins outs _ => Forall clean_sym ins /\ Forall clean (exprs_of outs)
  | Jac specs => forall s eq v, In s specs -> In eq (fst s) -> In v (snd s) -> clean (deriv eq v)
  end.
(* [input k] is the number of the input that stands for the key k: it gives the right answer to a call *)
Definition right_answer (deriv : expr -> sym -> expr) (input : key -> nat) (c : call V Op) (a : answer V Op) : Prop :=
  match c, a with
  | Convert ins outs _, AConvert ins' outs' =>
      ins' = map (fun s => Inp (input (key_of s)) (sname s)) ins /\
      forall r, Forall2 (fun n o => evaln r n = evalo (fun k => r (input k)) o) outs' outs
  | Jac specs, AJac ms =>
      forall r, Forall2 (fun m s => Forall2 (fun row eq => Forall2 (fun n v => evaln r n = evale (fun k => r (input k)) (deriv eq v)) row (snd s)) m (fst s)) ms specs
  | _, _ => False
  end.
End Spec.
(* ---------- wiring ---------- *)
Section WireSpec.
Context {V Op : Type}.
Variable sem : Op -> list V -> V.
(* the values of the parameters, from the values [th] of the free ones and the formulas of the others *)
Fixpoint param_value (det : list (sym * output V Op)) (th : key -> V) (k : key) : V :=
  match det with [] => th k | (s, o) :: t => if key_dec (key_of s) k then evalo sem th o else param_value t th k end.
(* the values of the steady-state variables, from those of the parameters and the solutions *)
Fixpoint ss_value (sol : sym -> option (output V Op)) (vars : list sym) (P : key -> V) (k : key) : V :=
  match vars with
  | [] => P k
  | v :: t => if key_dec (key_of v) k then match sol v with Some o => evalo sem P o | None => P k end else ss_value sol t P k
  end.
Definition formula_over (ks : list key) (o : output V Op) : Prop :=
  match o with inl _ => True | inr e => forall x, occurs x e -> In (key_of x) ks end.
Definition factor (op_switch : Op) (one : V) (k : scaling) (ss : V) : V :=
  match k with Level => one | Positive => ss | Guarded => sem op_switch [ss] end.
(* an estimation model as statespace_from_gcn meets it *)
Record wf_model (deriv : expr V Op -> sym -> expr V Op) (free : list sym) (det : list (sym * output V Op)) (sol : sym -> option (output V Op))
  (l : linear V Op) : Prop := {
  w_params : forall s, In s (free ++ map fst det) -> scls s = CSymbol /\ clean_sym s;
  w_ss : forall s, In s (ss_vars l) -> scls s = CTime;
  w_distinct : NoDup (map sname (free ++ map fst det)) /\ NoDup (map sname (ss_vars l));
  w_det : forall d o, In (d, o) det -> formula_over (map key_of free) o;
  w_columns : length (lags l) = length (ss_vars l) /\ length (now l) = length (ss_vars l) /\
              length (leads l) = length (ss_vars l) /\ length (kinds l) = length (ss_vars l);
  w_clean : forall eq v, In eq (eqs l) -> clean (deriv eq v) }.
End WireSpec.
Definition entry {X} (m : list (list X)) (i j : nat) : option X := match nth_error m i with Some row => nth_error row j | None => None end.
Definition is_matrix {X} (rows cols : nat) (m : list (list X)) : Prop := length m = rows /\ Forall (fun r => length r = cols) m.
