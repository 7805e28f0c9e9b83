(* When names are repeated or undefined in a model, said without reference to the validation code. *)
From Verif Require Import Common Expr_Model Val_Model.
Local Open Scope list_scope.

Section S.
Context {F : Type}.
(* the node x occurs in e *)
Inductive within (x : expr F) : expr F -> Prop :=
| w_here : within x x
| w_neg a : within x a -> within x (Neg a)
| w_exp a : within x a -> within x (Expec a)
| w_left o a b : within x a -> within x (Bin o a b)
| w_right o a b : within x b -> within x (Bin o a b)
| w_arg f a args : In a args -> within x a -> within x (Fun f args).

Definition system_equation (b : block F) (e : equation F) : Prop :=
  In e (definitions b) \/ In e (objective b) \/ In e (constraints b) \/ In e (identities b).
(* item i gives parameter p a value or a prior: a distribution, or an equation whose left-hand side is p *)
Definition gives (i : calibration_item F) (p : chars) : Prop :=
  i = CDist p \/ exists e, i = CEq e /\ lhs e = Par p.
(* the k-th calibration item of the whole model *)
Definition items (m : model F) : list (calibration_item F) := flat_map calibration m.

(* no control, shock, block or parameter is named twice *)
Definition no_repetition (m : model F) : Prop :=
  (forall b, In b m -> NoDup (controls b) /\ NoDup (shocks b)) /\
  NoDup (map b_name m) /\
  (forall i j x y p, nth_error (items m) i = Some x -> nth_error (items m) j = Some y -> gives x p -> gives y p -> i = j).
Definition variable_defined (m : model F) (n : chars) : Prop :=
  exists b, In b m /\ (In n (controls b) \/ In n (shocks b) \/
    exists e t, (In e (definitions b) \/ In e (identities b) \/ In e (objective b)) /\ lhs e = Var n t).
Definition variable_used (m : model F) (n : chars) : Prop :=
  exists b e t, In b m /\ system_equation b e /\ within (Var n t) (rhs e).
Definition parameter_used (m : model F) (n : chars) : Prop :=
  exists b e, In b m /\ system_equation b e /\ (within (Par n) (lhs e) \/ within (Par n) (rhs e)).
Definition parameter_given (m : model F) (n : chars) : Prop := exists i, In i (items m) /\ gives i n.
End S.
