(* Vocabulary of the statements about the solvers. *)
From mathcomp Require Import all_ssreflect all_algebra.
Import GRing.Theory Num.Theory.
Set Implicit Arguments.
Unset Strict Implicit.
Unset Printing Implicit Defensive.
Local Open Scope ring_scope.

Section Spec.
Variable F : fieldType.
(* T is a policy matrix: x(t) = T x(t-1) solves the homogeneous model *)
Definition solves n (A B C T : 'M[F]_n) : Prop := A + B *m T + C *m (T *m T) = 0.
(* R is the matching impact matrix *)
Definition impact_of n k (B C T : 'M[F]_n) (D R : 'M[F]_(n, k)) : Prop := B *m R + C *m (T *m R) + D = 0.
(* Cyclic reduction as in the literature (Bini, Latouche and Meini 2002): the k-th reduced system and the k-th hat matrix *)
Fixpoint reduced n (A0 A1 A2 : 'M[F]_n) (k : nat) : 'M[F]_n * 'M[F]_n * 'M[F]_n * 'M[F]_n :=
  match k with
  | 0 => (A0, A1, A2, A1)
  | k'.+1 => let: (a0, a1, a2, h) := reduced A0 A1 A2 k' in
             let i := invmx a1 in
             (- (a0 *m i *m a0), a1 - a0 *m i *m a2 - a2 *m i *m a0, - (a2 *m i *m a2), h - a2 *m i *m a0)
  end.
Definition red0 n (A0 A1 A2 : 'M[F]_n) k := (reduced A0 A1 A2 k).1.1.1.
Definition red1 n (A0 A1 A2 : 'M[F]_n) k := (reduced A0 A1 A2 k).1.1.2.
Definition red2 n (A0 A1 A2 : 'M[F]_n) k := (reduced A0 A1 A2 k).1.2.
Definition hat n (A0 A1 A2 : 'M[F]_n) k := (reduced A0 A1 A2 k).2.
(* the pairing of a cotangent with a perturbation *)
Definition pairing m p (X Y : 'M[F]_(m, p)) : F := \sum_i \sum_j X i j * Y i j.
(* (dA, dB, dC, dT) satisfy the total differential of A + B T + C T T = 0 *)
Definition differential n (B C T dA dB dC dT : 'M[F]_n) : Prop :=
  dA + dB *m T + B *m dT + dC *m (T *m T) + C *m (dT *m T) + C *m (T *m dT) = 0.
End Spec.

Section Stop.
Variable F : realFieldType.
(* the matrix 1-norm: the largest absolute column sum *)
Definition norm1 m p (M : 'M[F]_(m, p)) : F := \big[Num.max/0]_j \sum_i `|M i j|.
(* k is the number of reduction steps taken: they were possible, and k is the first positive number of steps after which
   both outer matrices are below the tolerance, or else all N steps were taken and the lag matrix is below it (or N = 0) *)
Definition both_small n (A0 A1 A2 : 'M[F]_n) tol k := norm1 (red0 A0 A1 A2 k) < tol /\ norm1 (red2 A0 A1 A2 k) < tol.
Definition stops_after n (A0 A1 A2 : 'M[F]_n) (tol : F) (N k : nat) : Prop :=
  (k <= N)%N /\
  (forall j, (j < k)%N -> red1 A0 A1 A2 j \in unitmx) /\
  (forall j, (0 < j < k)%N -> ~ both_small A0 A1 A2 tol j) /\
  ((0 < k)%N /\ both_small A0 A1 A2 tol k \/ k = N /\ (N = 0%N \/ norm1 (red0 A0 A1 A2 k) < tol)).
End Stop.
