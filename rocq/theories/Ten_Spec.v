(* Vocabulary of the statements about arrays. *)
From Verif Require Import Common Ten_Model.
Section Spec.
Variable V : Type.
Notation arr := (arr V).
(* an index within a shape *)
Definition valid (s ix : list nat) : Prop := Forall2 (fun i n => i < n) ix s.
(* equal arrays: same shape, same entries *)
Definition same (a b : arr) : Prop := shape a = shape b /\ forall ix, valid (shape a) ix -> entry a ix = entry b ix.
(* moved by o along axis k *)
Definition bump (k o : nat) (ix : list nat) : list nat := set_nth k (nth k ix 0 + o) ix.
(* the leaf at a path *)
Inductive leaf_at : tree V -> list nat -> arr -> Prop :=
| here a : leaf_at (Leaf a) [] a
| there l i c p a : nth_error l i = Some c -> leaf_at c p a -> leaf_at (Node l) (i :: p) a.
(* lists only, none empty, all leaves at depth d *)
Inductive uniform : nat -> tree V -> Prop :=
| u_leaf a : uniform 0 (Leaf a)
| u_node d l : l <> [] -> Forall (uniform d) l -> uniform (S d) (Node l).
(* the first leaf *)
Inductive first_leaf : tree V -> arr -> Prop :=
| f_leaf a : first_leaf (Leaf a) a
| f_node c l a : first_leaf c a -> first_leaf (Node (c :: l)) a.
(* shape with axes of length 1 added in front, to n axes *)
Definition padded (n : nat) (a : arr) : list nat := shape a ++ repeat 1 (n - ndim a).
(* total length along axis k of arrays listed by their first leaves *)
Definition total (k : nat) (firsts : list arr) : nat := sum (map (fun a => nth k (shape a) 1) firsts).
(* where an index of the leaf at path p lands: at each level it is moved, along that level's axis, past the earlier siblings *)
Inductive lands : tree V -> list nat -> list nat -> list nat -> Prop :=
| l_leaf a ix : lands (Leaf a) [] ix ix
| l_node l i c p firsts ix jx : nth_error l i = Some c -> Forall2 first_leaf (firstn i l) firsts -> lands c p ix jx ->
    lands (Node l) (i :: p) ix (bump (length p) (total (length p) firsts) jx).
(* the shape of the assembled array: siblings agree on every axis but theirs, along which their lengths add up *)
Inductive shaped (n : nat) : nat -> tree V -> list nat -> Prop :=
| s_leaf a : shaped n 0 (Leaf a) (padded n a)
| s_node h l s0 ss : Forall2 (shaped n h) l (s0 :: ss) ->
    (forall s, In s ss -> length s = length s0 /\ forall j, j <> h -> nth j s 0 = nth j s0 0) ->
    shaped n (S h) (Node l) (set_nth h (sum (map (fun s => nth h s 0) (s0 :: ss))) s0).
(* the number of axes of the result *)
Definition result_axes (t : tree V) (d n : nat) : Prop :=
  1 <= n /\ d <= n /\ (forall p a, leaf_at t p a -> ndim a <= n) /\
  (n = 1 \/ n = d \/ exists p a, leaf_at t p a /\ ndim a = n).
(* all blocks in a column have the same width, all blocks in a row the same height *)
Definition aligned (hs ws : nat -> nat) (grid : list (list arr)) : Prop :=
  forall i j row x, nth_error grid i = Some row -> nth_error row j = Some x -> shape x = [ws j; hs i].
End Spec.
Arguments same {V}. Arguments leaf_at {V}. Arguments uniform {V}. Arguments first_leaf {V}. Arguments padded {V}.
Arguments total {V}. Arguments lands {V}. Arguments shaped {V}. Arguments aligned {V}. Arguments result_axes {V}.
