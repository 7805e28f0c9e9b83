(* Vocabulary of the statements about gensys: the contract of LAPACK, stable matrices. *)
From mathcomp Require Import all_ssreflect all_algebra.
From Verif Require Import LA_GModel.
Import GRing.Theory Num.Theory Order.TTheory.
Set Implicit Arguments.
Unset Strict Implicit.
Unset Printing Implicit Defensive.
Local Open Scope ring_scope.

Section Spec.
Variable K : numClosedFieldType.
Definition real_mx m p (X : 'M[K]_(m, p)) : Prop := forall i j, X i j \is Num.real.
(* every eigenvalue lies inside the unit circle *)
Definition stable_mx n (X : 'M[K]_n) : Prop := forall a, eigenvalue X a -> `|a| < 1.
Definition upper N (X : 'M[K]_N) : Prop := forall i j : 'I_N, (j < i)%N -> X i j = 0.

(* the sorted QZ decomposition: unitary factors, triangular matrices with the generalised eigenvalues on the diagonals, and
   the eigenvalues that the solver classifies as stable are exactly the first ns *)
Record qz_contract (realsmall : K) N (g0 g1 : 'M[K]_N) (d : qz K N) (ns : nat) : Prop := {
  qz_Q : ct (qQ d) *m qQ d = 1%:M;
  qz_Z : ct (qZ d) *m qZ d = 1%:M;
  qz_g0 : g0 = qQ d *m qA d *m ct (qZ d);
  qz_g1 : g1 = qQ d *m qB d *m ct (qZ d);
  qz_upA : upper (qA d);
  qz_upB : upper (qB d);
  qz_alpha : forall i, qalpha d i = qA d i i;
  qz_beta : forall i, qbeta d i = qB d i i;
  qz_sorted : forall i, is_stable realsmall (qalpha d i) (qbeta d i) = (i < ns)%N }.
(* the kept part of a thin SVD when the singular values dropped are exactly zero *)
Record svd_contract (realsmall : K) m e (M : 'M[K]_(m, e)) (s : svd K m e) : Prop := {
  svd_u : ct (su s) *m su s = 1%:M;
  svd_v : ct (sv s) *m sv s = 1%:M;
  svd_s : forall i, realsmall < ss (s := s) i;
  svd_M : M = su s *m diag_mx (\row_i ss i) *m ct (sv s) }.
End Spec.
