(* Vocabulary for C142: parts of a syntax tree, trees that agree, rewriting, and the objects that exist. *)
From Verif Require Import Common Vis_Model.
Local Open Scope list_scope.

Section V.
Context {V T L S : Type}.
Notation node := (node V T L).

(* the parts a node holds, in the order they are written *)
Definition kids (n : node) : list node :=
  match n with
  | NNum _ _ _ | NPar _ _ _ | NVar _ _ _ _ => []
  | NBin _ _ a _ b => [a; b] | NUn _ _ _ e => [e] | NCall _ _ _ l => l | NExp _ _ e => [e]
  | NEq _ _ a b _ _ _ => [a; b] end.
Definition location (n : node) : option L :=
  match n with NNum _ l _ | NPar _ l _ | NVar _ l _ _ | NBin _ l _ _ _ | NUn _ l _ _ | NCall _ l _ _
             | NExp _ l _ | NEq _ l _ _ _ _ _ => l end.
(* x is n or a part of it *)
Inductive sub (x : node) : node -> Prop :=
| sub_refl : sub x x
| sub_kid n k : In k (kids n) -> sub x k -> sub x n.
(* same class and same fields, apart from parts, location and identity *)
Definition fields (a b : node) : Prop :=
  match a, b with
  | NNum _ _ x, NNum _ _ y => x = y
  | NPar _ _ x, NPar _ _ y => x = y
  | NVar _ _ x t, NVar _ _ y u => x = y /\ t = u
  | NBin _ _ _ o _, NBin _ _ _ o' _ => o = o'
  | NUn _ _ o _, NUn _ _ o' _ => o = o'
  | NCall _ _ f _, NCall _ _ f' _ => f = f'
  | NExp _ _ _, NExp _ _ _ => True
  | NEq _ _ _ _ m c t, NEq _ _ _ _ m' c' t' => m = m' /\ c = c' /\ forall x, In x t <-> In x t'
  | _, _ => False
  end.
(* equal as syntax: wherever they were written *)
Inductive alike : node -> node -> Prop :=
| Alike a b : fields a b -> Forall2 alike (kids a) (kids b) -> alike a b.

(* n is rewritten to m by the calls [calls] of the user's methods, given as (argument, result) in order; [old] says which
   objects existed before.  A node without a method keeps its class, fields and location; it is the same object exactly
   when its parts are, and a new object otherwise. *)
Variable handled : cls -> Prop.
Variable old : node -> Prop.
Inductive rewritten : node -> list (node * node) -> node -> Prop :=
| by_method n m : handled (class_of n) -> rewritten n [(n, m)] m
| by_parts n calls m : ~ handled (class_of n) -> fields n m -> location n = location m -> rewritten_all (kids n) calls (kids m) ->
    (m = n <-> kids m = kids n) -> (m <> n -> forall x, old x -> ident x <> ident m) -> rewritten n calls m
with rewritten_all : list node -> list (node * node) -> list node -> Prop :=
| none_left : rewritten_all [] [] []
| one_more n c m ns cs ms : rewritten n c m -> rewritten_all ns cs ms -> rewritten_all (n :: ns) (c ++ cs) (m :: ms).
(* the methods really were called so, each on the visitor's state the previous one left *)
Variable methods : cls -> option (method V T L S).
Inductive ran : list (node * node) -> S -> S -> Prop :=
| ran_none s : ran [] s s
| ran_one x y t k k' s s1 s2 f : methods (class_of x) = Some f -> f x (k, s) = (y, (k', s1)) -> ran t s1 s2 -> ran ((x, y) :: t) s s2.

(* what exists: identities below k, at most one object per identity *)
Definition world := obj -> option node.
Definition lives (w : world) (n : node) : Prop := forall x, sub x n -> w (ident x) = Some x.
Definition below (w : world) (k : obj) : Prop := forall i, k <= i -> w i = None.
Definition extends (w w' : world) : Prop := forall i x, w i = Some x -> w' i = Some x.
(* a method given an existing node returns an existing one, possibly after creating some *)
Definition sane (f : method V T L S) : Prop := forall w n k s, below w k -> lives w n ->
  exists w', extends w w' /\ below w' (fst (snd (f n (k, s)))) /\ lives w' (fst (f n (k, s))) /\ k <= fst (snd (f n (k, s))).
End V.
