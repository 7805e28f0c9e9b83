(* Assembling tensors from blocks, and the graph rewrites about joins.
     gEconpy/pytensorf/block.py: _block_check_depths_match l.9-50, block l.53-135;
     gEconpy/pytensorf/block_rewrites.py: _const_int_vector l.46-69, _is_zero l.72-89, _join_matmul_axis l.92-117,
       local_transpose_of_join l.120-155, local_nested_join_to_block_diagonal l.158-199, _split_undoes_join l.202-212,
       _split_distributes_through_join l.215-222, local_split_of_join l.225-257.
   An array is its shape and its entries.  Shapes and indices are listed from the LAST axis to the first, so that Python's
   axis -1 is position 0 and the axes that atleast_Nd adds in front come at the end of the list.
   Simplifications: entries are abstract values; dtypes, stack traces and batching of block_diag are omitted; joins check
   their shapes (ValueError) when the graph is evaluated; negative and out-of-range axes are excluded. *)
From Verif Require Import Common.

Section Arrays.
Variable V : Type.
Variable dflt : V.
Record arr := Arr { shape : list nat; entry : list nat -> V }.
Definition ndim (a : arr) : nat := length (shape a).
Definition size (a : arr) (k : nat) : nat := nth k (shape a) 0.
Fixpoint set_nth (k v : nat) (l : list nat) : list nat :=
  match l, k with
  | [], _ => []
  | _ :: t, O => v :: t
  | x :: t, S k' => x :: set_nth k' v t
  end.
Definition sum (l : list nat) : nat := fold_right Nat.add 0 l.
(* numpy.concatenate / Join: all inputs have the same shape apart from axis k *)
Definition fits (k : nat) (s t : list nat) : bool := if list_eq_dec Nat.eq_dec (set_nth k 0 s) (set_nth k 0 t) then true else false.
Fixpoint pick (k : nat) (xs : list arr) (ix : list nat) : V :=
  match xs with
  | [] => dflt
  | x :: rest => if nth k ix 0 <? size x k then entry x ix else pick k rest (set_nth k (nth k ix 0 - size x k) ix)
  end.
Definition concatenate (k : nat) (xs : list arr) : result arr :=
  match xs with
  | [] => Err ValueError
  | x :: _ => if (k <? ndim x) && forallb (fun y => fits k (shape x) (shape y)) xs
              then Ok (Arr (set_nth k (sum (map (fun y => size y k) xs)) (shape x)) (pick k xs))
              else Err ValueError
  end.
(* atleast_Nd *)
Definition atleast (n : nat) (a : arr) : arr :=
  Arr (shape a ++ repeat 1 (n - ndim a)) (fun ix => entry a (firstn (ndim a) ix)).

(* ---------- block ---------- *)
Inductive tree := Leaf (a : arr) | Node (l : list tree) | Tup (l : list tree).
(* depth of the leaves below this node (the code counts from the root: leaf_depth = len(parent_index) + this) *)
Fixpoint check_depths (t : tree) : result nat :=
  match t with
  | Leaf _ => Ok 0
  | Tup _ => Err TypeError
  | Node l =>
      match l with
      | [] => Err ValueError
      | c :: rest =>
          d <- check_depths c ;;
          (fix go (l : list tree) : result nat :=
             match l with
             | [] => Ok (S d)
             | c' :: l' => d' <- check_depths c' ;; if d' =? d then go l' else Err ValueError
             end) rest
      end
  end.
Fixpoint leaves (t : tree) : list arr :=
  match t with Leaf a => [a] | Node l => flat_map leaves l | Tup _ => [] end.
Definition maxl (l : list nat) : nat := fold_right Nat.max 0 l.
Fixpoint map_result {A B} (f : A -> result B) (l : list A) : result (list B) :=
  match l with [] => Ok [] | x :: t => y <- f x ;; ys <- map_result f t ;; Ok (y :: ys) end.
(* _recurse: h is list_ndim - depth, the axis is -h, position h - 1 *)
Fixpoint assemble (n : nat) (h : nat) (t : tree) : result arr :=
  match t, h with
  | Leaf a, _ => Ok (atleast n a)
  | Node l, S h' => xs <- (fix go (l : list tree) := match l with [] => Ok [] | c :: l' => y <- assemble n h' c ;; ys <- go l' ;; Ok (y :: ys) end) l ;;
                    concatenate h' xs
  | _, _ => Err TypeError
  end.
Definition block (t : tree) : result arr :=
  d <- check_depths t ;;
  match t with
  | Leaf a => Ok (atleast 1 a)
  | _ => assemble (Nat.max d (maxl (map ndim (leaves t)))) d t
  end.

(* ---------- rewrites ---------- *)
(* x.mT: swap the last two axes *)
Definition swap2 (l : list nat) : list nat := match l with a :: b :: t => b :: a :: t | _ => l end.
Definition mT (a : arr) : arr := Arr (swap2 (shape a)) (fun ix => entry a (swap2 ix)).
(* Split: consecutive pieces along axis k *)
Fixpoint pieces (k : nat) (a : arr) (off : nat) (sizes : list nat) : list arr :=
  match sizes with
  | [] => []
  | s :: rest => Arr (set_nth k s (shape a)) (fun ix => entry a (set_nth k (nth k ix 0 + off) ix)) :: pieces k a (off + s) rest
  end.
Definition split (k : nat) (sizes : list nat) (a : arr) : result (list arr) :=
  if (k <? ndim a) && (sum sizes =? size a k) then Ok (pieces k a 0 sizes) else Err ValueError.
(* new_axis of local_transpose_of_join *)
Definition other_axis (k : nat) : nat := match k with 0 => 1 | 1 => 0 | _ => k end.
Definition transpose_of_join (k : nat) (xs : list arr) : result arr := concatenate (other_axis k) (map mT xs).
(* local_split_of_join for a join on axis k and a split on axis k' into [sizes]; None: the rewrite does not apply *)
Fixpoint columns (m : nat) (rows : list (list arr)) (j : nat) : list (list arr) :=
  match m with 0 => [] | S m' => map (fun r => nth j r (Arr [] (fun _ => dflt))) rows :: columns m' rows (S j) end.
Definition split_of_join (k k' : nat) (sizes : list nat) (xs : list arr) : option (result (list arr)) :=
  if k =? k' then
    if (length xs =? length sizes) && (if list_eq_dec Nat.eq_dec (map (fun x => size x k) xs) sizes then true else false)
    then Some (Ok xs) else None
  else Some (parts <- map_result (split k' sizes) xs ;; map_result (concatenate k) (columns (length sizes) parts 0)).
(* local_nested_join_to_block_diagonal: block_diag of matrices; [zero] is the value zero *)
Variable zero : V.
Fixpoint diag_entry (xs : list arr) (r c : nat) : V :=
  match xs with
  | [] => zero
  | x :: rest =>
      if r <? size x 1 then if c <? size x 0 then entry x [c; r] else zero
      else if c <? size x 0 then zero else diag_entry rest (r - size x 1) (c - size x 0)
  end.
Definition block_diag (xs : list arr) : arr :=
  Arr [sum (map (fun x => size x 0) xs); sum (map (fun x => size x 1) xs)]
      (fun ix => match ix with [c; r] => diag_entry xs r c | _ => dflt end).
(* the grid is square, at least 2 x 2, and its off-diagonal blocks are statically zero *)
Definition diagonal_of (grid : list (list arr)) : list arr :=
  map (fun p => nth (fst p) (snd p) (Arr [] (fun _ => dflt))) (combine (seq 0 (length grid)) grid).
Variable is_zero : arr -> bool.
Definition off_diagonal_zero (grid : list (list arr)) : bool :=
  forallb (fun p => forallb (fun q => (fst p =? fst q) || is_zero (snd q)) (combine (seq 0 (length (snd p))) (snd p)))
          (combine (seq 0 (length grid)) grid).
Definition nested_join_to_block_diagonal (grid : list (list arr)) : option arr :=
  let n := length grid in
  if (2 <=? n) && forallb (fun row => length row =? n) grid && off_diagonal_zero grid
  then Some (block_diag (diagonal_of grid)) else None.
(* what the graph computes without the rewrite: Join(-2, *[Join(-1, *row)]) *)
Definition nested_join (grid : list (list arr)) : result arr :=
  rows <- map_result (concatenate 0) grid ;; concatenate 1 rows.
End Arrays.
Arguments shape {V}. Arguments entry {V}. Arguments Arr {V}. Arguments ndim {V}. Arguments size {V}. Arguments pick {V}.
Arguments concatenate {V}. Arguments atleast {V}. Arguments Leaf {V}. Arguments Node {V}. Arguments Tup {V}.
Arguments check_depths {V}. Arguments leaves {V}. Arguments assemble {V}. Arguments block {V}. Arguments mT {V}.
Arguments pieces {V}. Arguments split {V}. Arguments transpose_of_join {V}. Arguments columns {V}. Arguments split_of_join {V}.
Arguments diag_entry {V}. Arguments block_diag {V}. Arguments diagonal_of {V}. Arguments off_diagonal_zero {V}.
Arguments nested_join_to_block_diagonal {V}. Arguments nested_join {V}.
