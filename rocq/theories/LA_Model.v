(* Solving the linearised model A x(t-1) + B x(t) + C x(t+1) + D e = 0.
     gEconpy/solvers/cycle_reduction.py: cycle_reduction_numpy l.24-115, _cycle_reduction_core l.129-186,
       CycleReductionWrapper.perform l.211-216, solve_policy_function_with_cycle_reduction l.335-398;
     gEconpy/solvers/shared.py: stabilize l.6-9, o1_policy_function_adjoints l.12-70, pt_compute_selection_matrix l.73-74;
     gEconpy/solvers/backward_looking.py l.8-130;
     gEconpy/model/model.py: _solve_with_cycle_reduction l.1710-1728, _solve_with_gensys l.1682-1708.
   Simplifications: floating-point numbers are elements of an ordered field (no rounding, no NaN or infinity: the isnan
   branches are unreachable); logging is omitted; a linear solve succeeds exactly when the matrix is invertible, numpy's
   then returns the exact solution and otherwise raises LinAlgError; there is at least one variable. *)
From mathcomp Require Import all_ssreflect all_algebra.
From Verif Require Import LA_Spec.   (* norm1 is np.linalg.norm(M, ord=1) *)
Import GRing.Theory Num.Theory.
Set Implicit Arguments.
Unset Strict Implicit.
Unset Printing Implicit Defensive.
Local Open Scope ring_scope.

Inductive failure := LinAlgError | ValueError | TypeError | GensysFailed | NotImplemented.
Inductive outcome (A : Type) := Returned of A | Raised of failure.
Arguments Returned {A} _.
Arguments Raised {A} _.
Definition andThen A B (r : outcome A) (f : A -> outcome B) : outcome B :=
  match r with Returned a => f a | Raised e => Raised e end.
Notation "'let!' x := r 'in' k" := (andThen r (fun x => k)) (at level 200, x name, k at level 200).

Section Solvers.
Variable F : realFieldType.

(* np.linalg.solve *)
Definition np_solve m p (A : 'M[F]_m) (B : 'M[F]_(m, p)) : outcome 'M[F]_(m, p) :=
  if A \in unitmx then Returned (invmx A *m B) else Raised LinAlgError.

Section CR.
Variable n : nat.                       (* n + 1 variables *)
Notation M := 'M[F]_n.+1.
Record cr_state := CR { cA0 : M; cA1 : M; cA2 : M; cHat : M }.
(* one pass of the loop, l.88-94; np.vstack, np.hstack and the index ranges idx_0, idx_1 as block operations *)
Definition cr_pass (s : cr_state) : outcome cr_state :=
  let! sol := np_solve (cA1 s) (row_mx (cA0 s) (cA2 s)) in
  let tmp : 'M_(n.+1 + n.+1) := col_mx (cA0 s) (cA2 s) *m sol in
  Returned (CR (- ulsubmx tmp) (cA1 s - ursubmx tmp - dlsubmx tmp) (- drsubmx tmp) (cHat s - dlsubmx tmp)).
Inductive loop_end := Left_loop of cr_state | Gave_up of cr_state.
(* the for loop, l.87-109, with k passes left: [break] and running out of passes both leave the loop *)
Fixpoint cr_loop (tol : F) (k : nat) (s : cr_state) : outcome loop_end :=
  match k with
  | 0 => Returned (Left_loop s)
  | k'.+1 =>
      let! s' := cr_pass s in
      if norm1 (cA0 s') < tol then
        if norm1 (cA2 s') < tol then Returned (Left_loop s') else cr_loop tol k' s'
      else if k' is 0 then Returned (Gave_up s')
      else cr_loop tol k' s'
  end.
(* result strings, l.81, l.103, l.106 *)
Inductive message := Successful | A2_not_converged | All_failed.
Definition cycle_reduction (A0 A1 A2 : M) (max_iter : nat) (tol : F) : outcome (option (M * M) * message) :=
  let! e := cr_loop tol max_iter (CR A0 A1 A2 A1) in
  match e with
  | Gave_up s => Returned (None, if norm1 (cA0 s) < tol then A2_not_converged else All_failed)
  | Left_loop s =>
      let! x := np_solve (cHat s) A0 in
      let X := - x in
      Returned (Some (X, A0 + A1 *m X + A2 *m X *m X), Successful)
  end.
(* solve_policy_function_with_cycle_reduction.  np.ascontiguousarray(None) is the object array [None], which is not None:
   C @ T then fails, with ValueError (shapes) or, for one variable, TypeError (float * None). *)
Definition cr_policy k (A B C : M) (D : 'M[F]_(n.+1, k)) (max_iter : nat) (tol : F) : outcome (option M * option 'M[F]_(n.+1, k) * message) :=
  let! r := cycle_reduction A B C max_iter tol in
  match r with
  | (None, _) => Raised (if n == 0%N then TypeError else ValueError)
  | (Some (T, _), msg) =>
      let! x := np_solve (C *m T + B) D in
      Returned (Some T, Some (- x), msg)
  end.
(* Model._solve_with_cycle_reduction; [on_failure] is true for "error" *)
Definition solve_with_cr k (A B C : M) (D : 'M[F]_(n.+1, k)) (max_iter : nat) (tol : F) (on_error : bool) : outcome (option M * option 'M[F]_(n.+1, k)) :=
  let! r := cr_policy A B C D max_iter tol in
  match r with
  | (None, _, _) => if on_error then Raised GensysFailed else Returned (None, None)
  | (Some T, R, _) => Returned (Some T, R)
  end.
(* _cycle_reduction_core (numba): a singular A1 gives NaN norms, which end the loop without convergence *)
Fixpoint core_loop (tol : F) (k : nat) (s : cr_state) : option cr_state :=
  match k with
  | 0 => None
  | k'.+1 =>
      match cr_pass s with
      | Raised _ => None
      | Returned s' =>
          if norm1 (cA0 s') < tol then if norm1 (cA2 s') < tol then Some s' else core_loop tol k' s'
          else core_loop tol k' s'
      end
  end.
(* the matrix (None: filled with NaN) and the flag [converged], which the Op discards *)
Definition cr_core (A0 A1 A2 : M) (max_iter : nat) (tol : F) : option M * bool :=
  match core_loop tol max_iter (CR A0 A1 A2 A1) with
  | None => (Some 0, false)
  | Some s => (if cHat s \in unitmx then Some (- (invmx (cHat s) *m A0)) else None, true)
  end.
End CR.

(* solve_backward_policy, solve_backward_shock_matrix *)
Definition backward_policy n k (A B : 'M[F]_n) (C : 'M[F]_n) (D : 'M[F]_(n, k)) : outcome ('M[F]_n * 'M[F]_(n, k)) :=
  let! T := np_solve (- B) A in
  let! x := np_solve B D in
  Returned (T, - x).

(* ---------- adjoints ---------- *)
(* M.ravel(), M.reshape((m, p)): row by row *)
Definition ravel m p (A : 'M[F]_(m, p)) : 'cV[F]_(m * p) := (mxvec A)^T.
Definition reshape m p (v : 'cV[F]_(m * p)) : 'M[F]_(m, p) := vec_mx v^T.
(* the row and column that a flat index stands for *)
Definition unflat m p (i : 'I_(m * p)) : 'I_m * 'I_p := enum_val (cast_ord (esym (mxvec_cast m p)) i).
(* np.kron(P, Q)[i1 * n + i2, j1 * n + j2] = P[i1, j1] * Q[i2, j2] *)
Definition kron n (P Q : 'M[F]_n) : 'M[F]_(n * n) :=
  \matrix_(i, j) (P (unflat i).1 (unflat j).1 * Q (unflat i).2 (unflat j).2).
Definition stabilize m (jitter : F) (A : 'M[F]_m) : 'M[F]_m := A + jitter%:M.
Definition policy_adjoints n (jitter : F) (A B C T T_bar : 'M[F]_n) : outcome ('M[F]_n * 'M[F]_n * 'M[F]_n) :=
  let vec_T_bar := ravel T_bar^T in
  let M1 := kron T C^T in
  let M2 := kron 1%:M (T^T *m C^T) in
  let M3 := kron 1%:M B^T in
  let! vec_S := np_solve (stabilize jitter (M1 + M2 + M3)) (- vec_T_bar) in
  let S := (reshape vec_S)^T in
  Returned (S, S *m T^T, S *m T^T *m T^T).
End Solvers.
