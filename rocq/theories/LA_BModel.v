(* Diagnostics of a solved model.
     gEconpy/model/perturbation.py: residual_norms l.287-318, statespace_to_gEcon_representation l.321-380,
       compute_bk_eigenvalues l.412-445, check_bk_condition l.508-583.
   Simplifications: exact arithmetic; the QZ decomposition computed by scipy.linalg.ordqz enters as data; log output omitted;
   a division of complex numbers by zero gives a modulus that compares as false (NaN), written None. *)
From mathcomp Require Import all_ssreflect all_algebra.
From Verif Require Import LA_Model LA_GModel.
Import GRing.Theory Num.Theory Order.TTheory.
Set Implicit Arguments.
Unset Strict Implicit.
Unset Printing Implicit Defensive.
Local Open Scope ring_scope.

Section Norms.
Variables (F : rcfType) (n k : nat).
(* PP[np.abs(PP) < tol] = 0 *)
Definition threshold m p (tol : F) (X : 'M[F]_(m, p)) : 'M[F]_(m, p) := map_mx (fun x => if `|x| < tol then 0 else x) X.
(* np.abs(T[np.argmax(np.abs(T), axis=0), j]) >= tol: the largest entry of column j in absolute value *)
Definition state_vars (tol : F) (T : 'M[F]_n) : {set 'I_n} := [set j | tol <= \big[Num.max/0]_i `|T i j|].
Definition state (tol : F) (T : 'M[F]_n) (s : 'I_#|state_vars tol T|) : 'I_n := enum_val s.
Arguments state : clear implicits.
(* linalg.norm *)
Definition frobenius m p (X : 'M[F]_(m, p)) : F := Num.sqrt (\sum_i \sum_j X i j ^+ 2).
(* residual_norms of statespace_to_gEcon_representation *)
Definition residual_norms (A B C : 'M[F]_n) (D : 'M[F]_(n, k)) (T : 'M[F]_n) (R : 'M[F]_(n, k)) (tol : F) : F * F :=
  let PP := threshold tol T in let QQ := threshold tol R in
  let P := mxsub (state tol T) (state tol T) PP in
  let Q := rowsub (state tol T) QQ in
  let A_prime := colsub (state tol T) A in
  let R_prime := colsub (state tol T) PP in
  (frobenius (A_prime + B *m R_prime + C *m R_prime *m P), frobenius (B *m QQ + C *m R_prime *m Q + D)).
End Norms.

Section BK.
Variables (K : numClosedFieldType) (n k : nat) (A B C : 'M[K]_n) (D : 'M[K]_(n, k)) (tol : K).
Notation N := (n + n_leads C tol)%N.
(* AA, BB of linalg.ordqz(-Gamma_0, Gamma_1) for the matrices of _gensys_setup *)
Definition bk_pencil : 'M[K]_N * 'M[K]_N := (- set_g0 B C tol, set_g1 A C tol).
Definition eigenvalue_at (AA BB : 'M[K]_N) (i : 'I_N) : option K :=
  if AA i i + tol == 0 then None else Some (BB i i / (AA i i + tol)).
Definition modulus_above_one (e : option K) : bool := match e with Some l => 1 < `|l| | None => false end.
(* np.argsort only reorders them *)
Definition bk_eigenvalues (AA BB : 'M[K]_N) : seq (option K) := [seq eigenvalue_at AA BB i | i <- enum 'I_N].
Definition n_forward : nat := #|[set j | tol < \sum_i `|C i j|]|.
Definition n_unstable (AA BB : 'M[K]_N) : nat := count modulus_above_one (bk_eigenvalues AA BB).
Inductive return_value := Dataframe | Bool | Nothing | Other_value.
Inductive bk_result := Table of seq (option K) | Verdict of bool | NoResult.
Definition check_bk_condition (AA BB : 'M[K]_N) (raise : bool) (rv : return_value) : outcome bk_result :=
  match rv with
  | Other_value => Raised ValueError
  | _ => let satisfied := n_forward == n_unstable AA BB in
         if ~~ satisfied && raise then Raised ValueError
         else Returned (match rv with Dataframe => Table (bk_eigenvalues AA BB) | Bool => Verdict satisfied | _ => NoResult end)
  end.
End BK.
