(* What is expected of impulse responses, simulations and second moments, without the code's functions. *)
From mathcomp Require Import all_ssreflect all_algebra.
Import GRing.Theory Num.Theory.
Set Implicit Arguments.
Unset Strict Implicit.
Unset Printing Implicit Defensive.
Local Open Scope ring_scope.
Section Spec.
Variables (F : rcfType) (n k : nat).
Implicit Types (T : 'M[F]_n) (R : 'M[F]_(n, k)).
(* T applied t times to a vector *)
Definition after T (t : nat) (x : 'cV[F]_n) : 'cV[F]_n := iter t (mulmx T) x.
(* the path x starts at rest and obeys x(t) = T x(t-1) + R e(t) *)
Definition follows T R (e : seq 'cV[F]_k) (x : seq 'cV[F]_n) : Prop :=
  size x = size e /\
  forall t, (t < size e)%N -> nth 0 x t = (if t is s.+1 then T *m nth 0 x s else 0) + R *m nth 0 e t.
(* the response to the shock e in period 0 and none later, during len periods *)
Definition impulse_path T R (e : 'cV[F]_k) (len : nat) : seq 'cV[F]_n := mkseq (fun t => after T t (R *m e)) len.
(* the moving-average form: the period-t response collects every earlier shock *)
Definition moving_average T R (e : seq 'cV[F]_k) : seq 'cV[F]_n :=
  mkseq (fun t => \sum_(s < t.+1) after T (t - s) (R *m nth 0 e s)) (size e).
(* a shock of the given size to shock number i alone *)
Definition alone (i : 'I_k) (v : F) : 'cV[F]_k := \col_j (if j == i then v else 0).
Definition add_path (x y : seq 'cV[F]_n) : seq 'cV[F]_n := [seq p.1 + p.2 | p <- zip x y].
Definition symmetric p (M : 'M[F]_p) : Prop := M^T = M.
Definition psd p (M : 'M[F]_p) : Prop := symmetric M /\ forall x : 'cV[F]_p, 0 <= (x^T *m M *m x) 0 0.
End Spec.
