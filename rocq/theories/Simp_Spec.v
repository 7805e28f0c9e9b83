(* What the simplification theorems talk about: solutions of a dynamic system, independent of how the code rewrites it. *)
From Verif Require Import Common Sym_Model Sym_Spec Simp_Model.
From Coq Require Import Permutation.
Local Open Scope list_scope.

(* An equation is read in every period, and at the steady state (all dates collapsed). *)
Inductive view : (sym -> sym) -> Prop :=
| at_date (t : Z) : view (step_sym t)
| at_rest : view to_ss_sym.
(* A path for every variable, with a steady state and parameter values, on which every equation is zero. *)
Definition solves {V} (A : alg V) (env : sym -> V) (eqs : list sx) : Prop :=
  forall g e, view g -> In e eqs -> ev A (fun s => env (g s)) e = a_cst V A 0.
(* variable b equals rhs in every period and at the steady state *)
Definition always {V} (A : alg V) (env : sym -> V) (b : chars) (rhs : sx) : Prop :=
  forall g, view g -> env (g (SDate b 0)) = ev A (fun s => env (g s)) rhs.
(* b occurs in e, at whatever date *)
Definition mentions (e : sx) (b : chars) : Prop := exists s, In s (atoms e) /\ base_of s = Some b.
(* dates -1, 0, 1 and the steady state only *)
Definition near (e : sx) : Prop := forall b t, In (SDate b t) (atoms e) -> (-1 <= t <= 1)%Z.
(* only the paths of the variables in l differ *)
Definition same_but {V} (l : list chars) (env env' : sym -> V) : Prop :=
  forall s, (forall b, base_of s = Some b -> ~ In b l) -> env' s = env s.
(* equation e can be closed by choosing the path of b, whatever the other variables do *)
Definition closable {V} (A : alg V) (e : sx) (b : chars) : Prop :=
  forall env, exists env', same_but [b] env env' /\ solves A env' [e].
(* a rewriting of expressions that keeps their value / introduces no symbol *)
Definition faithful {V} (A : alg V) (f : sx -> sx) : Prop := forall env e, ev A env (f e) = ev A env e.
Definition no_new_symbol (f : sx -> sx) : Prop := forall e s, In s (atoms (f e)) -> In s (atoms e).
(* one variable can be assigned to every equation in which it occurs, one to one *)
Definition matched (eqs : list sx) (vars : list chars) : Prop :=
  exists l : list (chars * sx), Permutation (map fst l) vars /\ Permutation (map snd l) eqs /\
    forall b e, In (b, e) l -> mentions e b.
(* x = y  from  x - y = 0 *)
Definition can_subtract {V} (A : alg V) : Prop :=
  forall x y, a_add V A x (a_neg V A y) = a_cst V A 0 -> y = x.
(* e says, in every world, that the symbol x has the value of c, which only involves parameters *)
Definition defines {V} (A : alg V) (e : sx) (x : sym) (c : sx) : Prop :=
  param_only c /\ forall env, ev A env e = a_cst V A 0 <-> env x = ev A env c.
(* b has the value of c in every period and at the steady state *)
Definition constant_path {V} (A : alg V) (env : sym -> V) (b : chars) (c : sx) : Prop :=
  (forall t, env (SDate b t) = ev A env c) /\ env (SSs b) = ev A env c.
