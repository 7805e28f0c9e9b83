(* What a calendar is, and where a low-frequency value belongs, said without the code. *)
From Coq Require Import ZArith List Lia.
From Verif Require Import Common.
Import ListNotations.
Local Open Scope Z_scope.
(* the dates of a frequency are numbered in order, and every date has a first one that is not before it *)
Definition calendar (tick roll : Z -> Z) : Prop :=
  (forall a b, a < b -> tick a < tick b) /\ forall d, d <= tick (roll d) /\ tick (roll d - 1) < d.
(* [number d k]: the first high-frequency date that is not before d is the k-th one *)
Definition number (tick : Z -> Z) (d k : Z) : Prop := d <= tick k /\ tick (k - 1) < d.
(* the values found at date number k: those of the last row whose date is number k - pos; [None] when there is no such row *)
Inductive found {R} (tick : Z -> Z) (pos k : Z) : list (option Z * R) -> option R -> Prop :=
| found_row pre d v post : number tick d (k - pos) ->
    (forall d' v', In (Some d', v') post -> ~ number tick d' (k - pos)) -> found tick pos k (pre ++ (Some d, v) :: post) (Some v)
| found_none rs : (forall d v, In (Some d, v) rs -> ~ number tick d (k - pos)) -> found tick pos k rs None.
