(* The solver and the checks inside an estimation graph.
     gEconpy/solvers/cycle_reduction.py: _scan_cycle_reduction l.246-294, scan_cycle_reduction l.297-325;
     gEconpy/solvers/shared.py: pt_compute_selection_matrix l.74-75;
     gEconpy/model/perturbation.py: compute_bk_eigenvalues_pt l.448-505, check_bk_condition_pt l.586-625;
     gEconpy/model/statespace.py: _setup_policy_matrices l.197-222, build_statespace_graph l.1139-1215;
     gEconpy/pytensorf/real_eig.py: RealEig.perform l.31-37, pullback l.39-62.
   Simplifications: exact arithmetic; a linear solve with a singular matrix is an error; the automatic differentiation and
   the graph rewrites of PyTensor do not change values; max_iter is at least 1 (pytensor.scan needs a step). *)
From mathcomp Require Import all_ssreflect all_algebra.
From Verif Require Import LA_Spec LA_Model LA_GModel LA_BModel.
Import GRing.Theory Num.Theory Order.TTheory.
Set Implicit Arguments.
Unset Strict Implicit.
Unset Printing Implicit Defensive.
Local Open Scope ring_scope.

Section Scan.
Variables (F : realFieldType) (n : nat).
Notation M := 'M[F]_n.+1.
(* cycle_step, l.250-268; [jitter] is the 1e-16 that stabilize adds to the diagonal *)
Definition scan_pass (jitter : F) (s : cr_state F n) : outcome (cr_state F n) :=
  let! sol := np_solve (stabilize jitter (cA1 s)) (row_mx (cA0 s) (cA2 s)) in
  let tmp : 'M_(n.+1 + n.+1) := col_mx (cA0 s) (cA2 s) *m sol in
  Returned (CR (- ulsubmx tmp) (cA1 s - ursubmx tmp - dlsubmx tmp) (- drsubmx tmp) (cHat s - dlsubmx tmp)).
(* step under pytensor.scan, l.270-289: [fuel] scan steps left, [norm] and [steps] carried along; a step is a no-op once the
   norm carried is below the tolerance *)
Fixpoint scan_loop (jitter tol : F) (fuel : nat) (s : cr_state F n) (norm : F) (steps : nat) : outcome (cr_state F n * nat) :=
  match fuel with
  | 0 => Returned (s, steps)
  | fuel'.+1 =>
      if norm < tol then scan_loop jitter tol fuel' s norm steps
      else let! s' := scan_pass jitter s in scan_loop jitter tol fuel' s' (norm1 (cA0 s')) steps.+1
  end.
(* l.277-294: the norm starts at 1e9 *)
Definition scan_cycle_reduction (jitter : F) (A B C : M) (max_iter : nat) (tol : F) : outcome (M * nat) :=
  let! e := scan_loop jitter tol max_iter (CR A B C B) (10%:R ^+ 9) 0 in
  let! x := np_solve (stabilize jitter (cHat e.1)) A in
  Returned (- x, e.2).
(* scan_cycle_reduction, l.322-325 *)
Definition scan_policy k (jitter : F) (A B C : M) (D : 'M[F]_(n.+1, k)) (max_iter : nat) (tol : F) : outcome (M * 'M[F]_(n.+1, k) * nat) :=
  let! r := scan_cycle_reduction jitter A B C max_iter tol in
  let! x := np_solve (C *m r.1 + B) D in
  Returned (r.1, - x, r.2).
End Scan.

Section Checks.
Variables (F : rcfType) (n k : nat).
(* statespace.py l.210-220.  The solver's matrices have their columns in var_order: column i is the user's variable
   var_order i; inv_var_order undoes it.  X[inv][:, inv], X[inv] *)
Definition user_order (inv_var_order : 'I_n -> 'I_n) (T : 'M[F]_n) : 'M[F]_n := mxsub inv_var_order inv_var_order T.
Definition user_rows (inv_var_order : 'I_n -> 'I_n) (R : 'M[F]_(n, k)) : 'M[F]_(n, k) := rowsub inv_var_order R.
(* l.213: pt.square(A + B @ T + C @ T @ T).sum(), before the remapping *)
Definition policy_resid (A B C T : 'M[F]_n) : F := \sum_i \sum_j (A + B *m T + C *m T *m T) i j ^+ 2.
(* _setup_policy_matrices, after the solver returned T and R *)
Definition setup_policy (inv_var_order : 'I_n -> 'I_n) (A B C T : 'M[F]_n) (R : 'M[F]_(n, k)) : 'M[F]_n * 'M[F]_(n, k) * F :=
  (user_order inv_var_order T, user_rows inv_var_order R, policy_resid A B C T).
(* l.1209-1215: the potential is 0 (true) or -inf (false); no potential without the check *)
Definition solver_gate (add_check : bool) (resid solver_tol : F) : bool := if add_check then resid < solver_tol else true.
(* l.1180-1201, add_norm_check: [states] is state_var_mask, in the user's order; A, B, C are the solver's, T and R the
   remapped ones *)
Definition reported_norms (states : {set 'I_n}) (A B C : 'M[F]_n) (D : 'M[F]_(n, k)) (T : 'M[F]_n) (R : 'M[F]_(n, k)) : F * F :=
  let st (s : 'I_#|states|) : 'I_n := enum_val s in
  let P := mxsub st st T in
  let Q := rowsub st R in
  let A_prime := colsub st A in
  let R_prime := colsub st T in
  (frobenius (A_prime + B *m R_prime + C *m R_prime *m P), frobenius (B *m R + C *m R_prime *m Q + D)).
End Checks.

Section BKpt.
Variables (K : numClosedFieldType) (n : nat) (A B C : 'M[K]_n).
(* lead_var_idx is given: the positions of the variables written at t+1 (statespace.py l.225-233, l.768-770) *)
Variables (l : nat) (lead_var_idx : 'I_l -> 'I_n) (eps : K).
Definition sel_idx (i : 'I_(n + l)) : 'I_(n + n) := match split i with inl a => lshift n a | inr b => rshift n (lead_var_idx b) end.
(* l.487-505; eps is _FLOAT_ZERO_TOL *)
Definition G0_reg : 'M[K]_(n + l) := - mxsub sel_idx sel_idx (block_mx B C (- 1%:M) 0) + eps%:M.
Definition G1_sel : 'M[K]_(n + l) := mxsub sel_idx sel_idx (block_mx A 0 0 1%:M).
Definition bk_matrix : outcome 'M[K]_(n + l) := if G0_reg \in unitmx then Returned (invmx G0_reg *m G1_sel) else Raised LinAlgError.
(* l.611-625, for the eigenvalues that real_eig returns: n_unstable and bk_satisfied *)
Definition n_unstable_pt (eigenvalues : seq K) : nat := count (fun z => 1 < `|z|) eigenvalues.
Definition bk_satisfied (eigenvalues : seq K) : bool := l == n_unstable_pt eigenvalues.
End BKpt.

Section RealEig.
Variables (K : numClosedFieldType) (n : nat).
(* real_eig.py l.48-62: V the matrix of eigenvectors, g_real and g_imag the cotangents of the two outputs *)
Definition eig_pullback (V : 'M[K]_n) (g_real g_imag : 'rV[K]_n) : 'M[K]_n :=
  let g := g_real - 'i *: g_imag in
  map_mx (fun z => 'Re z) ((invmx V)^T *m diag_mx g *m V^T).
End RealEig.
