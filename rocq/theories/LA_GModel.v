(* Solving the linearised model with gensys.
     gEconpy/solvers/gensys.py: split_matrix_on_eigen_stability l.96-117, _thin_svd_and_rank and _matrix_rank l.120-183,
       _gensys_core l.186-392, gensys l.395-512, interpret_gensys_output l.515-558, _gensys_setup l.561-610,
       solve_policy_function_with_gensys l.613-627, GensysWrapper.perform l.652-661, gensys_wrapper (numba) l.701-709;
     gEconpy/model/model.py: _solve_with_gensys l.1682-1708, solve_model l.1983-2023 (the part after linearisation).
   Simplifications: floating-point numbers are elements of a closed field (no rounding, no NaN); real matrices are matrices
   whose entries are real; LAPACK (sorted QZ, thin SVD, numerical rank) enters as data, with its contract stated in the
   specification; the two index ranges of the stable and unstable generalised eigenvalues are the two halves of a sum of
   sizes; f_mat, f_wt, y_wt and loose, which the solver path discards, are left out. *)
From mathcomp Require Import all_ssreflect all_algebra.
From Verif Require Import LA_Model.
Import GRing.Theory Num.Theory Order.TTheory.
Set Implicit Arguments.
Unset Strict Implicit.
Unset Printing Implicit Defensive.
Local Open Scope ring_scope.

Section Gensys.
Variable K : numClosedFieldType.

(* X.conj().T *)
Definition ct m p (X : 'M[K]_(m, p)) : 'M[K]_(p, m) := (map_mx conjC X)^T.
(* X.real *)
Definition re_mx m p (X : 'M[K]_(m, p)) : 'M[K]_(m, p) := map_mx (fun z => 'Re z) X.

(* ---------- _gensys_setup ---------- *)
Section Setup.
Variables (n k : nat) (A B C : 'M[K]_n) (D : 'M[K]_(n, k)) (tol : K).
(* lead_var_idx = np.flatnonzero(col_abs_sum > tol) *)
Definition lead_vars : {set 'I_n} := [set j | tol < \sum_i `|C i j|].
Definition n_leads : nat := #|lead_vars|.
Definition lead_var_idx (l : 'I_n_leads) : 'I_n := enum_val l.
(* eqs_and_leads_idx = np.concatenate((np.arange(n_eq), lead_var_idx + n_eq)) *)
Definition eqs_and_leads_idx (i : 'I_(n + n_leads)) : 'I_(n + n) :=
  match split i with inl a => lshift n a | inr l => rshift n (lead_var_idx l) end.
Definition Gamma_0 : 'M[K]_(n + n) := block_mx B C (- 1%:M) 0.
Definition Gamma_1 : 'M[K]_(n + n) := block_mx A 0 0 1%:M.
Definition Pi_full : 'M[K]_(n + n, n) := col_mx 0 1%:M.
Definition Psi_full : 'M[K]_(n + n, k) := col_mx D 0.
Definition set_g0 : 'M[K]_(n + n_leads) := - mxsub eqs_and_leads_idx eqs_and_leads_idx Gamma_0.
Definition set_g1 : 'M[K]_(n + n_leads) := mxsub eqs_and_leads_idx eqs_and_leads_idx Gamma_1.
Definition set_psi : 'M[K]_(n + n_leads, k) := rowsub eqs_and_leads_idx Psi_full.
Definition set_pi : 'M[K]_(n + n_leads, n_leads) := mxsub eqs_and_leads_idx lead_var_idx Pi_full.
Definition set_const : 'M[K]_(n + n_leads, 1) := 0.
End Setup.

(* ---------- LAPACK results ---------- *)
(* _qz_complex_sort_eig(g0, g1, "ouc") *)
Record qz N := QZ { qA : 'M[K]_N; qB : 'M[K]_N; qalpha : 'I_N -> K; qbeta : 'I_N -> K; qQ : 'M[K]_N; qZ : 'M[K]_N }.
(* the kept part of a thin SVD: u[:, keep], s[keep], vh.conj().T[:, keep] *)
Record svd m e := SVD { skept : nat; su : 'M[K]_(m, skept); ss : 'I_skept -> K; sv : 'M[K]_(e, skept) }.

(* ---------- _gensys_core ---------- *)
Definition is_stable (realsmall : K) (a b : K) : bool :=
  ((`|b| < realsmall) && (realsmall <= `|a|)) || ((realsmall <= `|b|) && (`|b| < `|a|)).
Definition coincident (realsmall : K) (a b : K) : bool := (`|a| < realsmall) && (`|b| < realsmall).

Section Core.
Variables (ns nu ne k kc : nat).
Notation N := (ns + nu)%N.
Variables (c : 'M[K]_(N, kc)) (psi : 'M[K]_(N, k)) (pi : 'M[K]_(N, ne)) (d : qz N).
Definition Qm : 'M[K]_N := ct (qQ d).
Definition Q1 : 'M[K]_(ns, N) := usubmx Qm.
Definition Q2 : 'M[K]_(nu, N) := dsubmx Qm.
Definition eta_wt : 'M[K]_(nu, ne) := Q2 *m pi.
Definition eta_wt_1 : 'M[K]_(ns, ne) := Q1 *m pi.
Variables (s : svd nu ne) (s1 : svd ns ne).
(* rows scaled by d_eta^-1, by d_eta_1 *)
Definition scaled_vh : 'M[K]_(skept s, ne) := \matrix_(i, j) (ct (sv s) i j / ss i).
Definition scaled_u1h : 'M[K]_(skept s1, ns) := \matrix_(i, j) (ss i * ct (su s1) i j).
Definition inner_term : 'M[K]_(nu, ns) := su s *m scaled_vh *m sv s1 *m scaled_u1h.
Definition T_mat : 'M[K]_(ns, N) := row_mx 1%:M (- ct inner_term).
Definition G_0 : 'M[K]_N := col_mx (T_mat *m qA d) (row_mx 0 1%:M).
(* the LU solves with G_0, which is invertible under the contract of the QZ (proved) *)
Definition G_1_complex : 'M[K]_N := qZ d *m (invmx G_0 *m col_mx (T_mat *m qB d) 0) *m ct (qZ d).
Definition impact_complex : 'M[K]_(N, k) := qZ d *m (invmx G_0 *m col_mx (T_mat *m Qm *m psi) 0).
Definition C_complex : 'M[K]_(N, kc) :=
  col_mx (T_mat *m Qm *m c) (invmx (drsubmx (qA d) - drsubmx (qB d)) *m (Q2 *m c)).
Definition loose_for_rank : 'M[K]_(ne, skept s1) := sv s1 - sv s *m ct (sv s) *m sv s1.
(* eu; [n_loose] is the numerical rank of loose_for_rank *)
Definition eu0 : int := if (nu <= skept s)%N then 1 else 0.
Definition eu1 (n_loose : nat) : int := if (ne == 0%N) || (skept s1 == 0%N) || (n_loose == 0%N) then 1 else 0.
Definition eu2 (n_loose : nat) : nat := if (ne == 0%N) || (skept s1 == 0%N) then 0%N else n_loose.
End Core.

Record gensys_result N k kc := GR { gG1 : 'M[K]_N; gC : 'M[K]_(N, kc); gimpact : 'M[K]_(N, k); geu : int * int * nat }.

(* _gensys_core, given the QZ and, for the number of unstable eigenvalues it implies, the two SVDs and the rank.  The sum of
   the numbers of stable and unstable eigenvalues is the size of the system: [e] *)
Definition gensys_core N k kc ne (c : 'M[K]_(N, kc)) (psi : 'M[K]_(N, k)) (pi : 'M[K]_(N, ne)) (realsmall : K)
    (d : qz N) ns nu (e : (ns + nu)%N = N) (s : svd nu ne) (s1 : svd ns ne) (n_loose : nat) : gensys_result N k kc :=
  if [exists i, coincident realsmall (qalpha d i) (qbeta d i)]
  then GR 0 0 0 (-2%:Z, -2%:Z, 0%N)
  else match e in _ = N return 'M[K]_(N, kc) -> 'M[K]_(N, k) -> 'M[K]_(N, ne) -> qz N -> gensys_result N k kc with
       | erefl => fun c psi pi d =>
           GR (re_mx (G_1_complex d s s1)) (re_mx (qZ d *m C_complex c d s s1)) (re_mx (impact_complex psi d s s1))
              (eu0 s, eu1 s1 n_loose, eu2 s1 n_loose)
       end c psi pi d.

(* what the two SVDs and the rank are taken of *)
Definition svd_input N ne (pi : 'M[K]_(N, ne)) (d : qz N) ns nu (e : (ns + nu)%N = N) : 'M[K]_(nu, ne) :=
  match e in _ = N return 'M[K]_(N, ne) -> qz N -> 'M[K]_(nu, ne) with erefl => fun pi d => eta_wt pi d end pi d.
Definition svd_input_1 N ne (pi : 'M[K]_(N, ne)) (d : qz N) ns nu (e : (ns + nu)%N = N) : 'M[K]_(ns, ne) :=
  match e in _ = N return 'M[K]_(N, ne) -> qz N -> 'M[K]_(ns, ne) with erefl => fun pi d => eta_wt_1 pi d end pi d.

(* ---------- wrappers ---------- *)
Definition success (eu : int * int * nat) : bool := (eu.1.1 == 1) && (eu.1.2 == 1).
Definition failed_zeros (eu : int * int * nat) : bool := (eu.1.1 == -2%:Z) && (eu.1.2 == -2%:Z).
(* gensys(..., return_all_matrices): a pair or a nine-tuple, of which only the parts used later are kept *)
Inductive gensys_tuple N k kc := Pair of 'M[K]_N & (int * int * nat) | Nine of option (gensys_result N k kc) & (int * int * nat).
Definition gensys N k kc (r : gensys_result N k kc) (all : bool) : gensys_tuple N k kc :=
  if failed_zeros (geu r) then Nine None (geu r)
  else if all then Nine (Some r) (geu r) else Pair k kc (gG1 r) (geu r).
(* Model._solve_with_gensys *)
Definition solve_with_gensys n l k kc (r : gensys_result (n + l) k kc) (on_error : bool) : outcome (option 'M[K]_n * option 'M[K]_(n, k)) :=
  match gensys r true with
  | Pair _ _ => Raised ValueError                     (* not enough values to unpack *)
  | Nine r' eu =>
      if success eu then
        match r' with
        | Some g => Returned (Some (ulsubmx (gG1 g)), Some (usubmx (gimpact g)))
        | None => Raised TypeError                    (* None[:n_variables, :] *)
        end
      else if on_error then Raised GensysFailed else Returned (None, None)
  end.
(* GensysWrapper.perform: G_1, eu = solve_policy_function_with_gensys(..., return_all_matrices=False) *)
Definition perform n l k kc (r : gensys_result (n + l) k kc) : outcome ('M[K]_n * bool) :=
  match gensys r false with
  | Pair G eu => Returned (ulsubmx G, success eu)
  | Nine _ _ => Raised ValueError                     (* too many values to unpack (expected 2) *)
  end.
(* gensys_wrapper (numba) *)
Definition compiled_perform n l k kc (r : gensys_result (n + l) k kc) : 'M[K]_n * bool := (ulsubmx (gG1 r), success (geu r)).
End Gensys.

(* ---------- interpret_gensys_output ---------- *)
Inductive explanation := Coincident_zeros | Indeterminate of nat | Sunspots | Does_not_exist | Not_unique | Unique | Unknown_code.
Definition interpret (eu : int * int * nat) : explanation :=
  if (eu.1.1 == -2%:Z) && (eu.1.2 == -2%:Z) then Coincident_zeros
  else if eu.1.1 == -1%:Z then Indeterminate eu.2
  else if eu.1.2 == -1%:Z then Sunspots
  else if (eu.1.1 == 0) && (eu.1.2 == 0) then Does_not_exist
  else if (eu.1.1 == 1) && (eu.1.2 == 0) then Not_unique
  else if (eu.1.1 == 1) && (eu.1.2 == 1) then Unique
  else Unknown_code.

(* ---------- solve_model, after linearisation ---------- *)
Inductive solver_name := S_gensys | S_cycle_reduction | S_backward_direct | S_other.
(* [gen], [cyc] and [back] are what the three solvers do on the linearised model; verbose output is omitted *)
Definition solve_model (R : Type) (on_failure_valid backward_looking : bool) (solver : solver_name)
    (gen cyc back : outcome (option R)) : outcome (option R) :=
  if ~~ on_failure_valid then Raised ValueError
  else match (if backward_looking then S_backward_direct else solver) with
       | S_gensys => gen
       | S_cycle_reduction => cyc
       | S_backward_direct => if ~~ backward_looking then Raised ValueError else back
       | S_other => Raised NotImplemented
       end.
