(* The statements: failing reductions, compiled core, adjoints, backward-looking models; and an exact cyclic reduction. *)
From mathcomp Require Import all_ssreflect all_algebra.
From Verif Require Import LA_Spec LA_Model LA_Proofs LA_Main LA_Props LA_Adj.
Import GRing.Theory Num.Theory Order.TTheory.
Set Implicit Arguments.
Unset Strict Implicit.
Unset Printing Implicit Defensive.
Local Open Scope ring_scope.

(* ---------- two by two matrices ---------- *)
Definition m22 (F : ringType) (a b c d : F) : 'M[F]_2 := \matrix_(i, j) (if i == 0 then if j == 0 then a else b else if j == 0 then c else d).
Lemma ord2 (i : 'I_2) : i = 0 \/ i = 1.
Proof. by case: i => [[|[|]]] // H; [left|right]; apply: val_inj. Qed.
Lemma m22_ext (F : ringType) (a b c d : F) (M : 'M[F]_2) : M 0 0 = a -> M 0 1 = b -> M 1 0 = c -> M 1 1 = d -> M = m22 a b c d.
Proof.
by move=> A B C D; apply/matrixP => i j; rewrite mxE; case: (ord2 i) => ->; case: (ord2 j) => ->; rewrite /= ?eqxx.
Qed.
Lemma m22_at (F : ringType) (a b c d : F) : [/\ m22 a b c d 0 0 = a, m22 a b c d 0 1 = b, m22 a b c d 1 0 = c & m22 a b c d 1 1 = d].
Proof. by split; rewrite mxE. Qed.
Lemma m22M (F : ringType) (a b c d a' b' c' d' : F) :
  m22 a b c d *m m22 a' b' c' d' = m22 (a * a' + b * c') (a * b' + b * d') (c * a' + d * c') (c * b' + d * d').
Proof. by apply: m22_ext; rewrite mxE !big_ord_recl big_ord0 addr0 !mxE /=. Qed.
Lemma m22B (F : ringType) (a b c d a' b' c' d' : F) : m22 a b c d - m22 a' b' c' d' = m22 (a - a') (b - b') (c - c') (d - d').
Proof. by apply: m22_ext; rewrite !mxE. Qed.
Lemma m22D (F : ringType) (a b c d a' b' c' d' : F) : m22 a b c d + m22 a' b' c' d' = m22 (a + a') (b + b') (c + c') (d + d').
Proof. by apply: m22_ext; rewrite !mxE. Qed.
Lemma m22N (F : ringType) (a b c d : F) : - m22 a b c d = m22 (- a) (- b) (- c) (- d).
Proof. by apply: m22_ext; rewrite !mxE. Qed.
Lemma m22_1 (F : ringType) : 1%:M = m22 1 0 0 1 :> 'M[F]_2.
Proof. by apply: m22_ext; rewrite !mxE. Qed.
Lemma m22_0 (F : ringType) : 0 = m22 0 0 0 0 :> 'M[F]_2.
Proof. by apply: m22_ext; rewrite !mxE. Qed.
Lemma m22_norm (F : realFieldType) (a b c d : F) : norm1 (m22 a b c d) = Num.max (`|a| + `|c|) (Num.max (`|b| + `|d|) 0).
Proof. by rewrite /norm1 !big_ord_recl !big_ord0 !addr0 !mxE /=. Qed.
Lemma inverse_of (F : fieldType) n (A B : 'M[F]_n) : A *m B = 1%:M -> A \in unitmx /\ invmx A = B.
Proof. move=> H; have [U _] := mulmx1_unit H; split=> //; by rewrite -[invmx A]mulmx1 -H mulKmx. Qed.
Lemma m22_eq (F : ringType) (a b c d a' b' c' d' : F) : a = a' -> b = b' -> c = c' -> d = d' -> m22 a b c d = m22 a' b' c' d'.
Proof. by move=> -> -> -> ->. Qed.
Ltac rat_m22 := apply: m22_eq; apply: ratE; vm_compute; reflexivity.

(* hypotheses of C24_exact_when_the_lead_matrix_vanishes met, with A2 <> 0: A0 = [1 0; 1/2 0], A1 = 1, A2 = [0 1; 0 0] stop
   after one step with a vanishing lead matrix; the solution found is [-2 0; -1/2 0] *)
Theorem C24_exact_case : let A0 : 'M[rat]_2 := m22 1 0 (1 / 2%:R) 0 in let A2 := m22 0 1 0 0 in
  (exists res, cycle_reduction A0 1%:M A2 9 2%:R = Returned (Some (m22 (- 2%:R) 0 (- (1 / 2%:R)) 0, res), Successful)) /\
  stops_after A0 1%:M A2 2%:R 9 1 /\ red2 A0 1%:M A2 1 = 0 /\ red1 A0 1%:M A2 1 \in unitmx.
Proof.
move=> A0 A2.
have i1 : invmx (1%:M : 'M[rat]_2) = 1%:M by rewrite invmx1.
have R : reduced A0 1%:M A2 1 = (m22 (- 1) 0 (- (1 / 2%:R)) 0, m22 (1 / 2%:R) (- 1) 0 (1 / 2%:R), m22 0 0 0 0, m22 (1 / 2%:R) 0 0 1).
  rewrite /= i1 !mulmx1 !m22M m22_1 !m22B !m22N; congr (_, _, _, _); rat_m22.
have [U1 _] : (m22 (1 / 2%:R) (- 1) 0 (1 / 2%:R) : 'M[rat]_2) \in unitmx /\ invmx (m22 (1 / 2%:R) (- 1) 0 (1 / 2%:R) : 'M[rat]_2) = m22 2%:R 4%:R 0 2%:R.
  apply: inverse_of; rewrite m22M m22_1; rat_m22.
have [Uh Ih] : (m22 (1 / 2%:R) 0 0 1 : 'M[rat]_2) \in unitmx /\ invmx (m22 (1 / 2%:R) 0 0 1 : 'M[rat]_2) = m22 2%:R 0 0 1.
  apply: inverse_of; rewrite m22M m22_1; rat_m22.
have n0 : norm1 (red0 A0 1%:M A2 1) < 2%:R by rewrite /red0 R /= m22_norm; vm_compute.
have n2 : norm1 (red2 A0 1%:M A2 1) < 2%:R by rewrite /red2 R /= m22_norm; vm_compute.
split; [|split; [|split]].
- rewrite /cycle_reduction state0 /= cr_passE unitmx1 /= n0 n2 /= /np_solve /hat R /= Uh Ih m22M [andThen _ _]/= m22N.
  have -> : m22 (- (2%:R * 1 + 0 * (1 / 2%:R))) (- (2%:R * 0 + 0 * 0)) (- (0 * 1 + 1 * (1 / 2%:R))) (- (0 * 0 + 1 * 0)) = m22 (- 2%:R) 0 (- (1 / 2%:R)) 0 :> 'M[rat]_2 by rat_m22.
  eexists; reflexivity.
- split=> //; split; [|split].
  + by case=> // _; rewrite unitmx1.
  + by case=> [|[|]].
  + by left.
- by rewrite /red2 R /= -m22_0.
- by rewrite /red1 R.
Qed.

Section C25.
Variable F : realFieldType.
Variable n : nat.
Notation M := 'M[F]_n.+1.

(* refuted: with on_failure = "ignore" a reduction that does not converge yields (None, None), with "error" it raises the
   documented exception.  Whenever the reduction gives up, the solver raises ValueError (TypeError for one variable),
   whatever on_failure is; and it never returns (None, None) or raises the documented exception *)
Theorem C25_nonconvergence_escapes k (A B C : M) (D : 'M[F]_(n.+1, k)) N tol onerr msg :
  cycle_reduction A B C N tol = Returned (None, msg) ->
  solve_with_cr A B C D N tol onerr = Raised (if n == 0%N then TypeError else ValueError).
Proof. by rewrite /solve_with_cr /cr_policy => ->. Qed.
Theorem C25_documented_failures_never_happen k (A B C : M) (D : 'M[F]_(n.+1, k)) N tol onerr :
  solve_with_cr A B C D N tol onerr <> Returned (None, None) /\ solve_with_cr A B C D N tol onerr <> Raised GensysFailed.
Proof.
rewrite /solve_with_cr /cr_policy /cycle_reduction.
have I0 : invertible_below A B C 0 by [].
rewrite state0; move: (loop_from tol N I0); rewrite /end_of; case: (cr_loop _ _ _) => [[s|s]|e] //=.
- by move=> _; rewrite /np_solve; case: ifP => //= _; rewrite /np_solve; case: ifP.
- by move=> _; case: ifP.
- by case=> -> _.
Qed.
(* when it gives up: all passes possible, none met both tolerances, and the lag matrix is still large *)
Theorem C25_gives_up_exactly_when (A0 A1 A2 : M) N tol :
  (exists msg, cycle_reduction A0 A1 A2 N tol = Returned (None, msg)) <->
  [/\ (0 < N)%N, (forall j, (j < N)%N -> red1 A0 A1 A2 j \in unitmx),
      (forall j, (0 < j < N)%N -> ~ both_small A0 A1 A2 tol j) & ~~ (norm1 (red0 A0 A1 A2 N) < tol)].
Proof.
rewrite /cycle_reduction state0; have I0 : invertible_below A0 A1 A2 0 by [].
move: (loop_from tol N I0); rewrite /end_of; case: (cr_loop _ _ _) => [[s|s]|e] //=; rewrite ?add0n.
- case=> j [J -> inv Q c]; split=> [[msg]|[N0 inv' Q' big]]; first by rewrite /np_solve; case: ifP.
  exfalso; case: c => [[j0 bs]|[-> [N00|lt]]].
  + move: J; rewrite /= leq_eqVlt => /orP [/eqP jN|jN]; last by case: (Q' j); rewrite ?j0.
    by move: big bs; rewrite /both_small -jN => /negP big [].
  + by move: N0; rewrite N00.
  + by rewrite lt in big.
- case=> N0 -> inv Q big; split=> // _; by eexists.
- case=> -> [j jN nu]; split=> [[msg] //|[_ inv _ _]]; by rewrite inv in nu.
Qed.
End C25.
(* ... which happens: one variable, all coefficients one, any number of passes *)
Theorem C25_case N : exists msg, cycle_reduction (1%:M : 'M[rat]_1) 1%:M 1%:M N.+1 (1 / 2%:R) = Returned (None, msg).
Proof.
have R k : exists (e h : rat), (e = 1 \/ e = -1) /\ reduced (1%:M : 'M[rat]_1) 1%:M 1%:M k = (e%:M, e%:M, e%:M, h%:M).
  elim: k => [|k [e [h [He E]]]]; first by exists 1, 1; split; [left|].
  exists (- e), (h - e); split; first by case: He => ->; [right|left; rewrite opprK].
  rewrite /= E invmx_scalar -!scalar_mxM -!raddfN -!raddfD /=.
  have -> : e / e * e = e by case: He => ->; apply: ratE; vm_compute.
  by rewrite subrr add0r.
have big k : ~~ (norm1 (red0 (1%:M : 'M[rat]_1) 1%:M 1%:M k) < 1 / 2%:R).
  have [e [h [He E]]] := R k; rewrite /red0 E /= norm1_scalar; by case: He => ->; vm_compute.
apply/C25_gives_up_exactly_when; split=> //.
  move=> j _; have [e [h [He E]]] := R j; rewrite /red1 E /= unit1; by case: He => ->.
by move=> j _ [a _]; move: (big j); rewrite a.
Qed.

(* ---------- compiled core ---------- *)
Section C67.
Variable F : realFieldType.
Variable n : nat.
Notation M := 'M[F]_n.+1.
Lemma core_from tol N (s s' : cr_state F n) : core_loop tol N s = Some s' -> cr_loop tol N s = Returned (Left_loop s').
Proof.
elim: N s => [|N IH] s //=; case: (cr_pass s) => //= t; case: ifP => C0; first by case: ifP => C2; [case=> ->|apply: IH].
by case: N IH => [|N] IH //; apply: IH.
Qed.
(* C67: when the compiled core reports convergence with a finite matrix, the Python implementation returns the same matrix *)
Theorem C67_compiled_and_python_agree_on_convergence (A0 A1 A2 : M) N tol T :
  cr_core A0 A1 A2 N tol = (Some T, true) ->
  exists res, cycle_reduction A0 A1 A2 N tol = Returned (Some (T, res), Successful).
Proof.
rewrite /cr_core /cycle_reduction; case E: core_loop => [s|] //; rewrite (core_from E) /=.
by rewrite /np_solve; case: ifP => // U [<-]; eexists.
Qed.
(* refuted: they agree on every input.  When the Python implementation gives up, the compiled one returns a matrix of zeros
   and no error; so does it when no pass is allowed, where the Python one returns -B^-1 A and reports success *)
Theorem C67_agreement_refuted_when_giving_up (A0 A1 A2 : M) N tol msg :
  cycle_reduction A0 A1 A2 N tol = Returned (None, msg) -> cr_core A0 A1 A2 N tol = (Some 0, false).
Proof.
rewrite /cr_core; case E: core_loop => [s|] //; rewrite /cycle_reduction (core_from E) /=.
by rewrite /np_solve; case: ifP.
Qed.
Theorem C67_agreement_refuted_without_passes (A0 A1 A2 : M) tol : A1 \in unitmx ->
  cr_core A0 A1 A2 0 tol = (Some 0, false) /\
  exists res, cycle_reduction A0 A1 A2 0 tol = Returned (Some (- (invmx A1 *m A0), res), Successful).
Proof. by move=> U; split=> //; rewrite /cycle_reduction /= /np_solve U /=; eexists. Qed.
End C67.

(* ---------- adjoints ---------- *)
Section C26.
Variable F : realFieldType.
(* C26: for every perturbation of A, B, C and the response dT it implies through A + B T + C T T = 0, the adjoints returned
   give the response of the loss; exactly if nothing is added to the diagonal, otherwise up to the stated error *)
Theorem C26_adjoints_are_the_gradient n (A B C T T_bar dA dB dC dT A_bar B_bar C_bar : 'M[F]_n) :
  policy_adjoints 0 A B C T T_bar = Returned (A_bar, B_bar, C_bar) -> differential B C T dA dB dC dT ->
  pairing T_bar dT = pairing A_bar dA + pairing B_bar dB + pairing C_bar dC.
Proof. by move=> P D; rewrite (adjoints_chain P D) mul0r subr0. Qed.
Theorem C26_adjoints_with_jitter n jitter (A B C T T_bar dA dB dC dT A_bar B_bar C_bar : 'M[F]_n) :
  policy_adjoints jitter A B C T T_bar = Returned (A_bar, B_bar, C_bar) -> differential B C T dA dB dC dT ->
  pairing T_bar dT = pairing A_bar dA + pairing B_bar dB + pairing C_bar dC - jitter * pairing A_bar dT.
Proof. exact: adjoints_chain. Qed.
(* they do not depend on A, and the three are related by the policy matrix *)
Theorem C26_adjoints_shape n jitter (A B C T T_bar A_bar B_bar C_bar : 'M[F]_n) :
  policy_adjoints jitter A B C T T_bar = Returned (A_bar, B_bar, C_bar) ->
  B_bar = A_bar *m T^T /\ C_bar = B_bar *m T^T /\ forall A', policy_adjoints jitter A' B C T T_bar = Returned (A_bar, B_bar, C_bar).
Proof. move=> P; have [_ eB eC] := adjoint_equation P; split=> //; split; [by rewrite eC eB|move=> A0; exact: P]. Qed.
End C26.
(* hypotheses met: A = 1, B = -5/2, C = 1, T = 1/2; raising A by 3/2 raises T by one *)
Theorem C26_case : exists A_bar B_bar C_bar : 'M[rat]_1,
  policy_adjoints 0 1%:M (- (5%:R / 2%:R))%:M 1%:M (1 / 2%:R)%:M 1%:M = Returned (A_bar, B_bar, C_bar) /\
  differential (- (5%:R / 2%:R))%:M 1%:M ((1 / 2%:R)%:M : 'M[rat]_1) (3%:R / 2%:R)%:M 0 0 1%:M /\
  pairing A_bar (3%:R / 2%:R)%:M = 1.
Proof.
have D : differential (- (5%:R / 2%:R))%:M 1%:M ((1 / 2%:R)%:M : 'M[rat]_1) (3%:R / 2%:R)%:M 0 0 1%:M.
  rewrite /differential !mul0mx !addr0 -!scalar_mxM -!raddfD /=; set c := (X in X%:M); have -> : c = 0 by apply: ratE; vm_compute.
  exact: raddf0.
set r := policy_adjoints _ _ _ _ _ _.
have : exists a b c, r = Returned (a, b, c).
  rewrite /r /policy_adjoints /np_solve; case: ifP => [_|]; first by do 3 eexists.
  set K := stabilize _ _; have -> : K = (- (3%:R / 2%:R))%:M :> 'M[rat]_1.
    apply/matrixP => i j; rewrite [i]ord1 [j]ord1 /K /stabilize !mxE !ord1 !eqxx !mulr1n ?big_ord1 ?mxE ?ord1 ?eqxx ?mulr1n ?big_ord1 ?mxE ?eqxx ?mulr1n ;  apply: ratE; vm_compute. reflexivity.
  by rewrite unit1.
case=> a [b [c E]]; exists a, b, c; split=> //; split=> //.
have := C26_adjoints_are_the_gradient E D.
rewrite !/(pairing _ 0) /pairing !big_ord1 !mxE !eqxx !mulr1n !mulr0 !addr0 mulr1. by move=> <-.
Qed.

(* ---------- backward-looking models ---------- *)
Section C28.
Variable F : realFieldType.
(* C28: the direct solver returns exactly when B is invertible, and then the only T, R with A + B T = 0 and B R + D = 0;
   for a model without leads that is the policy and the impact matrix *)
Theorem C28_backward_solution n k (A B C : 'M[F]_n) (D : 'M[F]_(n, k)) T R :
  backward_policy A B C D = Returned (T, R) <-> B \in unitmx /\ A + B *m T = 0 /\ B *m R + D = 0.
Proof.
have UN : (- B \in unitmx) = (B \in unitmx) by rewrite -scaleN1r unitmxZ ?unitrN1.
rewrite /backward_policy /np_solve UN.
case: ifP => U /=; last by split=> // -[].
have iN : invmx (- B) = - invmx B.
  have e : - B *m - invmx B = 1%:M by rewrite mulNmx mulmxN opprK mulmxV.
  exact: (proj2 (inverse_of e)).
rewrite iN /=; split=> [[<- <-]|[_ [eT eR]]].
  by rewrite mulNmx !mulmxN !mulKVmx // subrr addNr.
congr (Returned (_, _)).
  have -> : A = - (B *m T) by apply/eqP; rewrite -addr_eq0 eT.
  by rewrite mulmxN mulNmx opprK mulKmx.
have -> : D = - (B *m R) by apply/eqP; rewrite -addr_eq0 addrC eR.
by rewrite mulmxN opprK mulKmx.
Qed.
Theorem C28_backward_solution_without_leads n k (A B : 'M[F]_n) (D : 'M[F]_(n, k)) T R :
  backward_policy A B 0 D = Returned (T, R) -> solves A B 0 T /\ impact_of B 0 T D R /\ forall X, solves A B 0 X -> X = T.
Proof.
move=> /C28_backward_solution [U [eT eR]]; rewrite /solves /impact_of !mul0mx !addr0; split=> //; split=> // X; rewrite mul0mx addr0 => eX.
by rewrite -[X](mulKmx U) -[T](mulKmx U); congr (_ *m _); apply: (addrI A); rewrite eX eT.
Qed.
Theorem C28_case (T : 'M[F]_2) : backward_policy (- T) 1%:M 0 (1%:M : 'M[F]_2) = Returned (T, - 1%:M).
Proof. by apply/C28_backward_solution; rewrite unitmx1; split=> //; rewrite !mul1mx !addNr. Qed.
End C28.
