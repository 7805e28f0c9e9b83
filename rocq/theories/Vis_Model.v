(* Walking and rewriting syntax trees.
     gEconpy/parser/ast/nodes.py: the node classes l.129-347 and their equality (frozen dataclasses; location has
       compare=False, l.133);
     gEconpy/parser/ast/visitor.py: NodeVisitor.visit l.38-54, generic_visit l.56-78, NodeTransformer.generic_visit
       l.105-163, NodeCollector l.166-188, collect_nodes_of_type l.191-209.
   An object is its identity (a number), its source location and its fields.  The user's methods visit_<Class> of a
   transformer are a function [methods] from classes to optional functions: a method sees the node and the visitor's own
   state, and returns a node and the new state; it does not call self.visit itself.  New objects get the next free
   identity.  Simplifications: numbers are a type V with decidable equality; a method that raises is not modelled. *)
From Verif Require Import Common.
Local Open Scope list_scope.

Inductive cls := CNumber | CParameter | CVariable | CBinaryOp | CUnaryOp | CFunctionCall | CExpectation | CEquation.
Definition cls_eqb (a b : cls) : bool :=
  match a, b with CNumber, CNumber | CParameter, CParameter | CVariable, CVariable | CBinaryOp, CBinaryOp | CUnaryOp, CUnaryOp
                | CFunctionCall, CFunctionCall | CExpectation, CExpectation | CEquation, CEquation => true | _, _ => false end.
Inductive op := ADD | SUB | MUL | DIV | POW | NEG.
Definition obj := nat.

Section V.
Variables V T L S : Type.                 (* numbers, tags, locations, states of a visitor *)
Variable V_dec : forall a b : V, {a = b} + {a <> b}.
Inductive node :=
| NNum (i : obj) (l : option L) (v : V)
| NPar (i : obj) (l : option L) (n : chars)
| NVar (i : obj) (l : option L) (n : chars) (t : option Z)       (* None: steady state *)
| NBin (i : obj) (l : option L) (lt : node) (o : op) (rt : node)
| NUn (i : obj) (l : option L) (o : op) (e : node)
| NCall (i : obj) (l : option L) (f : chars) (args : list node)
| NExp (i : obj) (l : option L) (e : node)
| NEq (i : obj) (l : option L) (lt rt : node) (lm cal : option chars) (tags : list T).

Definition ident (n : node) : obj :=
  match n with NNum i _ _ | NPar i _ _ | NVar i _ _ _ | NBin i _ _ _ _ | NUn i _ _ _ | NCall i _ _ _
             | NExp i _ _ | NEq i _ _ _ _ _ _ => i end.
Definition class_of (n : node) : cls :=
  match n with NNum _ _ _ => CNumber | NPar _ _ _ => CParameter | NVar _ _ _ _ => CVariable | NBin _ _ _ _ _ => CBinaryOp
             | NUn _ _ _ _ => CUnaryOp | NCall _ _ _ _ => CFunctionCall | NExp _ _ _ => CExpectation
             | NEq _ _ _ _ _ _ _ => CEquation end.

(* ---- NodeTransformer ---- *)
Definition method := node -> obj * S -> node * (obj * S).
Variable methods : cls -> option method.
(* tuple(self.visit(arg) for arg in args) *)
Definition visit_list (visit : node -> obj * S -> node * (obj * S)) : list node -> obj * S -> list node * (obj * S) :=
  fix go l st := match l with [] => ([], st) | x :: t => let '(y, st) := visit x st in let '(r, st) := go t st in (y :: r, st) end.
Definition is (a b : node) : bool := Nat.eqb (ident a) (ident b).
Definition fresh (mk : obj -> node) (st : obj * S) : node * (obj * S) := (mk (fst st), (Datatypes.S (fst st), snd st)).
Fixpoint visit (n : node) (st : obj * S) : node * (obj * S) :=
  match methods (class_of n) with
  | Some m => m n st
  | None =>
      match n with
      | NBin i l a o b =>
          let '(a', st) := visit a st in let '(b', st) := visit b st in
          if (is a' a && is b' b)%bool then (n, st) else fresh (fun j => NBin j l a' o b') st
      | NUn i l o e =>
          let '(e', st) := visit e st in if is e' e then (n, st) else fresh (fun j => NUn j l o e') st
      | NCall i l f args =>
          let '(args', st) := visit_list visit args st in
          if forallb (fun p => is (fst p) (snd p)) (combine args' args) then (n, st) else fresh (fun j => NCall j l f args') st
      | NExp i l e =>
          let '(e', st) := visit e st in if is e' e then (n, st) else fresh (fun j => NExp j l e') st
      | NEq i l a b lm cal tags =>
          let '(a', st) := visit a st in let '(b', st) := visit b st in
          if (is a' a && is b' b)%bool then (n, st) else fresh (fun j => NEq j l a' b' lm cal tags) st
      | _ => (n, st)
      end
  end.

(* ---- NodeCollector: equality of nodes ignores identity and location ---- *)
Variable T_eqb : list T -> list T -> bool.                             (* equality of frozensets of tags *)
Definition opt_eqb (a b : option chars) : bool := match a, b with None, None => true | Some x, Some y => chars_eqb x y | _, _ => false end.
Definition time_eqb (a b : option Z) : bool := match a, b with None, None => true | Some x, Some y => Z.eqb x y | _, _ => false end.
Definition op_eqb (a b : op) : bool :=
  match a, b with ADD, ADD | SUB, SUB | MUL, MUL | DIV, DIV | POW, POW | NEG, NEG => true | _, _ => false end.
Definition list_eqb (eqb : node -> node -> bool) : list node -> list node -> bool :=
  fix go l r := match l, r with [], [] => true | x :: t, y :: u => (eqb x y && go t u)%bool | _, _ => false end.
Fixpoint node_eqb (a b : node) : bool :=
  match a, b with
  | NNum _ _ x, NNum _ _ y => if V_dec x y then true else false
  | NPar _ _ x, NPar _ _ y => chars_eqb x y
  | NVar _ _ x t, NVar _ _ y u => (chars_eqb x y && time_eqb t u)%bool
  | NBin _ _ x o y, NBin _ _ x' o' y' => (node_eqb x x' && op_eqb o o' && node_eqb y y')%bool
  | NUn _ _ o x, NUn _ _ o' x' => (op_eqb o o' && node_eqb x x')%bool
  | NCall _ _ f l, NCall _ _ f' l' => (chars_eqb f f' && list_eqb node_eqb l l')%bool
  | NExp _ _ x, NExp _ _ x' => node_eqb x x'
  | NEq _ _ x y m c t, NEq _ _ x' y' m' c' t' =>
      (node_eqb x x' && node_eqb y y' && opt_eqb m m' && opt_eqb c c' && T_eqb t t')%bool
  | _, _ => false
  end.
(* set.add: an equal element already present is kept *)
Definition add (x : node) (s : list node) : list node := if existsb (fun y => node_eqb y x) s then s else s ++ [x].
Variable wanted : cls -> bool.                                           (* isinstance(node, node_type) *)
Fixpoint collect_visit (n : node) (s : list node) : list node :=
  let s := if wanted (class_of n) then add n s else s in
  match n with
  | NBin _ _ a _ b => collect_visit b (collect_visit a s)
  | NUn _ _ _ e => collect_visit e s
  | NCall _ _ _ args => (fix go l s := match l with [] => s | x :: t => go t (collect_visit x s) end) args s
  | NExp _ _ e => collect_visit e s
  | NEq _ _ a b _ _ _ => collect_visit b (collect_visit a s)
  | _ => s
  end.
Definition collect_nodes_of_type (n : node) : list node := collect_visit n [].
End V.
Arguments NNum {V T L}. Arguments NPar {V T L}. Arguments NVar {V T L}. Arguments NBin {V T L}. Arguments NUn {V T L}.
Arguments NCall {V T L}. Arguments NExp {V T L}. Arguments NEq {V T L}.
Arguments ident {V T L}. Arguments class_of {V T L}. Arguments is {V T L}. Arguments visit_list {V T L S}. Arguments visit {V T L S}.
Arguments fresh {V T L S}.
