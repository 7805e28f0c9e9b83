(* Properties C115, C116: the solver and the checks inside an estimation graph. *)
From mathcomp Require Import all_ssreflect all_algebra.
From Verif Require Import LA_Spec LA_Model LA_Proofs LA_Main LA_GModel LA_BModel LA_BProps LA_EModel LA_EProofs.
Import GRing.Theory Num.Theory Order.TTheory.
Set Implicit Arguments.
Unset Strict Implicit.
Unset Printing Implicit Defensive.
Local Open Scope ring_scope.

(* ---------- C115: solver="scan_cycle_reduction" ---------- *)
Section C115.
Variables (F : realFieldType) (n : nat).
Notation M := 'M[F]_n.+1.
Lemma scan_returned (j : F) (A B C T : M) N tol k : (0 < N)%N -> tol <= 10%:R ^+ 9 ->
  scan_cycle_reduction j A B C N tol = Returned (T, k) ->
  [/\ (0 < k <= N)%N, forall i, (i < k)%N -> jred1 j A B C i + j%:M \in unitmx,
      forall i, (0 < i < k)%N -> tol <= norm1 (jred0 j A B C i), (k < N)%N -> norm1 (jred0 j A B C k) < tol &
      jhat j A B C k + j%:M \in unitmx /\ T = - (invmx (jhat j A B C k + j%:M) *m A)].
Proof.
move=> N0 t9; rewrite /scan_cycle_reduction -[CR A B C B]/(jstate j A B C 0) -[10%:R ^+ 9]/(carried j A B C 0).
case E : (scan_loop _ _ _ _ _ _) => [[s m]|] //=; rewrite /np_solve; case: ifP => // U [<- <-].
have [/andP [_ mN] es inv bg last] := scan_from E; rewrite add0n in mN last.
have m0 : (0 < m)%N.
  rewrite lt0n; apply/eqP => Z; move: last; rewrite Z => /(_ N0) /=; by rewrite ltNge t9.
rewrite m0 mN; split=> //.
- by move=> i /andP [i0 im]; move: (bg i); rewrite im; case: i i0 {im} => // i _; apply.
- by move=> lt; move: (last lt); case: (m) m0.
by move: U; rewrite es.
Qed.
(* with jitter j: the number of steps reported lies in 1..max_iter, every matrix inverted was invertible, no earlier step met
   the tolerance, fewer steps than max_iter mean that it was met, and T solves the stabilised final system *)
Theorem C115_returned (j : F) (A B C T : M) N tol k : (0 < N)%N -> tol <= 10%:R ^+ 9 ->
  scan_cycle_reduction j A B C N tol = Returned (T, k) ->
  [/\ (0 < k <= N)%N, forall i, (i < k)%N -> jred1 j A B C i + j%:M \in unitmx,
      forall i, (0 < i < k)%N -> tol <= norm1 (jred0 j A B C i), (k < N)%N -> norm1 (jred0 j A B C k) < tol &
      (jhat j A B C k + j%:M) *m T + A = 0].
Proof.
move=> N0 t9 /(scan_returned N0 t9) [a b c d [U ->]]; split=> //.
by rewrite mulmxN mulKVmx // addNr.
Qed.
(* without jitter: how far T is from any solution, and exactness when the lead matrix has vanished *)
Theorem C115_distance (A B C T : M) N tol k : (0 < N)%N -> tol <= 10%:R ^+ 9 ->
  scan_cycle_reduction 0 A B C N tol = Returned (T, k) ->
  forall X, solves A B C X -> T - X = invmx (hat A B C k) *m red2 A B C k *m X ^+ (2 ^ k).+1.
Proof.
move=> N0 t9 /(scan_returned N0 t9) [_ inv _ _ []].
have s0 (Y : M) : Y + 0%:M = Y by rewrite (raddf0 (scalar_mx_additive _ _)) addr0.
rewrite s0 /jhat jreduced0 -/(hat A B C k) => U -> X; apply: distance_to_solution => // i ik.
by move: (inv i ik); rewrite s0 /jred1 jreduced0.
Qed.
Theorem C115_exact (A B C T : M) N tol k : (0 < N)%N -> tol <= 10%:R ^+ 9 ->
  scan_cycle_reduction 0 A B C N tol = Returned (T, k) -> red1 A B C k \in unitmx -> red2 A B C k = 0 -> solves A B C T.
Proof.
move=> N0 t9 /(scan_returned N0 t9) [_ inv _ _ []].
have s0 (Y : M) : Y + 0%:M = Y by rewrite (raddf0 (scalar_mx_additive _ _)) addr0.
rewrite s0 /jhat jreduced0 -/(hat A B C k) => U -> U1 Z; apply: exact_solution => // i; rewrite ltnS leq_eqVlt => /orP [/eqP -> //|ik].
by move: (inv i ik); rewrite s0 /jred1 jreduced0.
Qed.
(* ... or when the lag matrix, the one that is watched, has *)
Theorem C115_exact_lag (A B C T : M) N tol k : (0 < N)%N -> tol <= 10%:R ^+ 9 ->
  scan_cycle_reduction 0 A B C N tol = Returned (T, k) -> red0 A B C k = 0 -> solves A B C T.
Proof.
move=> N0 t9 /(scan_returned N0 t9) [_ inv _ _ []].
have s0 (Y : M) : Y + 0%:M = Y by rewrite (raddf0 (scalar_mx_additive _ _)) addr0.
rewrite s0 /jhat jreduced0 -/(hat A B C k) => U -> Z; apply: exact_solution_lag => // i ik.
by move: (inv i ik); rewrite s0 /jred1 jreduced0.
Qed.
(* the impact matrix always belongs to the T returned *)
Theorem C115_impact p (j : F) (A B C T : M) (D R : 'M[F]_(n.+1, p)) N tol k :
  scan_policy j A B C D N tol = Returned (T, R, k) ->
  scan_cycle_reduction j A B C N tol = Returned (T, k) /\ impact_of B C T D R.
Proof.
rewrite /scan_policy; case: (scan_cycle_reduction _ _ _ _ _ _) => [[T' k']|] //=; rewrite /np_solve; case: ifP => // U [<- <- <-].
split=> //; exact: impact_of_solve.
Qed.
End C115.

Section C115_refuted.
Variable F : realFieldType.
(* the model x(t+1) + 3 x(t) + 3 x(t-1) = 0 *)
Let A : 'M[F]_1 := 3%:R%:M.
Let B : 'M[F]_1 := 3%:R%:M.
Let C : 'M[F]_1 := 1%:M.
Lemma two_neq0 : (2%:R : F) != 0. Proof. by rewrite pnatr_eq0. Qed.
Lemma osc k : exists a0 a1 a2 h : F,
  [/\ jreduced 0 A B C k.+1 = (a0%:M, a1%:M, a2%:M, h%:M), a0 * a2 = 1, 3%:R <= `|a0| & a1 = 1 /\ h = 2%:R \/ a1 = - 1 /\ h = 1].
Proof.
have s0 (Y : 'M[F]_1) : Y + 0%:M = Y by rewrite (raddf0 (scalar_mx_additive _ _)) addr0.
have n3 : (3%:R : F) != 0 by rewrite pnatr_eq0.
elim: k => [|k [a0 [a1 [a2 [h [E p l c]]]]]].
  exists (- 3%:R), 1, (- 3%:R^-1), 2%:R; split=> /=; last by left.
  - have th : (3%:R : F) = 2%:R + 1 by rewrite -(natrD _ 2 1).
    rewrite s0 /A /B /C invmx_scalar -!scalar_mxM -!raddfN -!raddfD /= divff // !mul1r mulr1 mulVf //.
    congr (_%:M, _%:M, _%:M, _%:M); rewrite th.
    + by rewrite addrK -[2%:R]/(1 + 1) addrK.
    + by rewrite addrK.
  - by rewrite mulrNN divff.
  - by rewrite normrN ger0_norm ?ler0n.
have u1 : a1^-1 = a1 by case: c => -[-> _]; rewrite ?invrN invr1.
have l' : 3%:R <= `|a0 * a1 * a0|.
  rewrite !normrM (_ : `|a1| = 1); last by case: c => -[-> _]; rewrite ?normrN normr1.
  rewrite mulr1; apply: le_trans (ler_pmul _ _ l l); rewrite ?ler0n // -natrM ler_nat //.
set s := jreduced 0 A B C k.+1 in E.
have -> : jreduced 0 A B C k.+2 = (- (a0 * a1 * a0)%:M, a1%:M - (a0 * a1 * a2)%:M - (a2 * a1 * a0)%:M, - (a2 * a1 * a2)%:M, h%:M - (a2 * a1 * a0)%:M).
  rewrite -/s /jreduced -/jreduced in E *; rewrite -/(jreduced 0 A B C k.+1) -/s E s0 invmx_scalar u1 -!scalar_mxM //.
rewrite -!raddfN -!raddfD /=; do 4 eexists; split; [reflexivity| | |].
- by rewrite mulrNN mulrACA [a0 * a1 * _]mulrACA p mul1r mulr1; case: c => -[-> _]; rewrite ?mulrNN ?mulr1.
- by rewrite normrN.
have -> : a2 * a1 * a0 = a1 by rewrite mulrAC [a2 * a0]mulrC p mul1r.
have -> : a0 * a1 * a2 = a1 by rewrite mulrAC p mul1r.
by case: c => -[-> ->]; [right|left]; rewrite ?subrr ?sub0r ?opprK ?addNr ?add0r -?[2%:R]/(1 + 1) ?addrK.
Qed.
(* refuted: an unconverged solution is recognisable.  The model has no solution at all; whatever the iteration limit the
   estimation solver returns a policy without complaint, where the numeric solver gives up and reports failure *)
Theorem C115_unconverged_refuted N tol : (0 < N)%N -> tol <= 1 ->
  [/\ exists T, scan_cycle_reduction 0 A B C N tol = Returned (T, N),
      cycle_reduction A B C N tol = Returned (None, All_failed) & forall X, ~ solves A B C X].
Proof.
move=> N0 t1.
have s0 (Y : 'M[F]_1) : Y + 0%:M = Y by rewrite (raddf0 (scalar_mx_additive _ _)) addr0.
have big k : tol <= carried 0 A B C k.
  case: k => [|k] /=; first by apply: le_trans t1 _; rewrite -natrX ler1n.
  have [a0 [a1 [a2 [h [E p l c]]]]] := osc k; rewrite /jred0 E /= norm1_scalar; apply: le_trans t1 (le_trans _ l); by rewrite ler1n.
have inv k : jred1 0 A B C k + 0%:M \in unitmx.
  rewrite s0; case: k => [|k]; first by rewrite /jred1 /= unit1 pnatr_eq0.
  have [a0 [a1 [a2 [h [E p l c]]]]] := osc k; rewrite /jred1 E /= unit1; by case: c => -[-> _]; rewrite ?oppr_eq0 oner_neq0.
have hatN k : jhat 0 A B C k + 0%:M \in unitmx.
  rewrite s0; case: k => [|k]; first by rewrite /jhat /= unit1 pnatr_eq0.
  have [a0 [a1 [a2 [h [E p l c]]]]] := osc k; rewrite /jhat E /= unit1; by case: c => -[_ ->]; rewrite ?oner_neq0 // pnatr_eq0.
have nosol X : ~ solves A B C X.
  rewrite [X]mx11_scalar /solves /A /B /C -!scalar_mxM -!raddfD /=; set x := X 0 0 => /(congr1 (fun Z : 'M_1 => Z 0 0)); rewrite !mxE /= mulr1n mul1r => H.
  have : 0 < (2%:R * x + 3%:R) ^+ 2 + 3%:R by apply: ltr_paddl; rewrite ?sqr_ge0 ?ltr0n.
  have -> : (2%:R * x + 3%:R) ^+ 2 + 3%:R = 4%:R * (3%:R + 3%:R * x + x * x).
    have e1 : (2%:R * x) ^+ 2 = 4%:R * (x * x) by rewrite exprMn -natrX expr2.
    have e2 : (2%:R * x * 3%:R) *+ 2 = 4%:R * (3%:R * x) by rewrite !mulr_natl mulr_natr -!mulrnA.
    have e3 : 3%:R ^+ 2 + 3%:R = 4%:R * 3%:R :> F by rewrite -natrX -natrD -natrM.
    rewrite sqrrD -[LHS]addrA e1 e2 e3 !mulrDr -[RHS]addrA [RHS]addrC [4%:R * (3%:R * x) + _]addrC //.
  by rewrite H mulr0 ltxx.
split=> //.
- exists (- (invmx (jhat 0 A B C N + 0%:M) *m A)).
  rewrite /scan_cycle_reduction -[CR A B C B]/(jstate 0 A B C 0) -[10%:R ^+ 9]/(carried 0 A B C 0) scan_runs // add0n /=.
  by rewrite /np_solve /stabilize hatN.
- rewrite /cycle_reduction -[CR A B C B]/(state_at A B C 0).
  have I0 : invertible_below A B C 0 by [].
  have r0 k : red0 A B C k = jred0 0 A B C k by rewrite /jred0 jreduced0.
  have ns k : (0 < k)%N -> (norm1 (red0 A B C k) < tol) = false.
    by case: k => // k _; apply/negbTE; rewrite -leNgt r0; apply: (big k.+1).
  have := loop_from tol N I0; case: (cr_loop _ _ _) => [[s|s]|e] /=.
  + case=> k [_ _ _ _ [[k0 [bs _]]|[kN' [N0'|sm]]]]; first by rewrite ns in bs.
      by rewrite N0' in N0.
    by rewrite ns // kN' in sm; rewrite ?add0n ?N0.
  + by case=> _ -> _ _ _ /=; rewrite ns // add0n.
  + by case=> _ [k _]; rewrite -(s0 (red1 A B C k)) /red1 -jreduced0 inv.
Qed.
End C115_refuted.

(* ---------- C116: the residual gate ---------- *)
Lemma entry_le (F : rcfType) n p (X : 'M[F]_(n, p)) i j : X i j ^+ 2 <= \sum_a \sum_b X a b ^+ 2.
Proof.
rewrite (bigD1 i) //= (bigD1 j) //= -addrA ler_addl addr_ge0 // sumr_ge0 // => a _; rewrite ?sqr_ge0 // sumr_ge0 // => b _.
exact: sqr_ge0.
Qed.
Section C116.
Variables (F : rcfType) (n k : nat).
(* eq_order, var_order: the solver's equation i is the user's eq_order i, its variable j the user's var_order j *)
Variables (eq_order inv_eq var_order inv_var_order : 'I_n -> 'I_n).
Hypothesis eqK : cancel eq_order inv_eq.
Hypothesis eqK' : cancel inv_eq eq_order.
Hypothesis varK : cancel var_order inv_var_order.
Hypothesis varK' : cancel inv_var_order var_order.
Definition solver_form (Au : 'M[F]_n) : 'M[F]_n := mxsub eq_order var_order Au.
Lemma reordered (Au Bu Cu T : 'M[F]_n) i j :
  (solver_form Au + solver_form Bu *m T + solver_form Cu *m T *m T) i j =
  (Au + Bu *m user_order inv_var_order T + Cu *m user_order inv_var_order T *m user_order inv_var_order T) (eq_order i) (var_order j).
Proof.
have E (Xu Y : 'M[F]_n) i' j' : (solver_form Xu *m Y) i' j' = (Xu *m user_order inv_var_order Y) (eq_order i') (var_order j').
  rewrite !mxE (reindex_onto inv_var_order var_order) => [|m _]; last exact: varK.
  rewrite (eq_bigl xpredT) => [|m]; last by rewrite varK' eqxx.
  by apply: eq_bigr => m _; rewrite !mxE varK' varK.
have U (X Y : 'M[F]_n) : user_order inv_var_order (X *m Y) = user_order inv_var_order X *m user_order inv_var_order Y.
  apply/matrixP => a b; rewrite !mxE (reindex_onto inv_var_order var_order) => [|m _]; last exact: varK.
  rewrite (eq_bigl xpredT) => [|m]; last by rewrite varK' eqxx.
  by apply: eq_bigr => m _; rewrite !mxE.
have D (X Y : 'M[F]_n) a b : (X + Y) a b = X a b + Y a b by rewrite mxE.
by rewrite -!mulmxA -!U !D !E [solver_form Au i j]mxE.
Qed.
(* the number reported is the squared residual of the policy handed to the filter, in the user's own order of variables and
   equations, whatever orders the solver works in *)
Theorem C116_residual (Au Bu Cu T : 'M[F]_n) (R : 'M[F]_(n, k)) :
  let: (Tu, Ru, resid) := setup_policy inv_var_order (solver_form Au) (solver_form Bu) (solver_form Cu) T R in
  resid = \sum_i \sum_j (Au + Bu *m Tu + Cu *m Tu *m Tu) i j ^+ 2.
Proof.
rewrite /setup_policy /policy_resid.
rewrite [RHS](reindex_onto eq_order inv_eq) => [|i _]; last exact: eqK'.
rewrite [RHS](eq_bigl xpredT) => [|i]; last by rewrite eqK eqxx.
apply: eq_bigr => i _; rewrite [RHS](reindex_onto var_order inv_var_order) => [|j _]; last exact: varK'.
rewrite [RHS](eq_bigl xpredT) => [|j]; last by rewrite varK eqxx.
by apply: eq_bigr => j _; rewrite reordered.
Qed.
(* the policy and the impact matrix are the solution in that order *)
Theorem C116_user_solution (Au Bu Cu T : 'M[F]_n) (Du R : 'M[F]_(n, k)) :
  solves (solver_form Au) (solver_form Bu) (solver_form Cu) T <-> solves Au Bu Cu (user_order inv_var_order T).
Proof.
rewrite /solves !mulmxA; split=> H; apply/matrixP => i j.
  by have := congr1 (fun Z : 'M_n => Z (inv_eq i) (inv_var_order j)) H; rewrite reordered eqK' varK' !mxE.
by rewrite reordered H !mxE.
Qed.
(* with add_solver_success_check a finite density bounds every entry of the residual *)
Theorem C116_gate (Au Bu Cu T : 'M[F]_n) (R : 'M[F]_(n, k)) tol :
  let: (Tu, Ru, resid) := setup_policy inv_var_order (solver_form Au) (solver_form Bu) (solver_form Cu) T R in
  solver_gate true resid tol -> forall i j, (Au + Bu *m Tu + Cu *m Tu *m Tu) i j ^+ 2 < tol.
Proof.
have E := C116_residual Au Bu Cu T R; rewrite /setup_policy in E *; rewrite /solver_gate E => small i j.
exact: le_lt_trans (entry_le _ i j) small.
Qed.
(* an exact solution always passes *)
Theorem C116_exact_passes (Au Bu Cu T : 'M[F]_n) (R : 'M[F]_(n, k)) tol : 0 < tol ->
  solves (solver_form Au) (solver_form Bu) (solver_form Cu) T ->
  solver_gate true (setup_policy inv_var_order (solver_form Au) (solver_form Bu) (solver_form Cu) T R).2 tol.
Proof.
move=> t0 S; rewrite /= /policy_resid -mulmxA S big1 // => i _; rewrite big1 // => j _; by rewrite mxE expr0n.
Qed.
End C116.

(* with the variables already in the solver's order, and no column of T outside the states, the two norms are the residuals of
   the state columns and of the impact matrix *)
Theorem C116_norms (F : rcfType) n k (states : {set 'I_n}) (A B C T : 'M[F]_n) (D R : 'M[F]_(n, k)) :
  (forall j, j \notin states -> col j T = 0) ->
  reported_norms states A B C D T R =
  (frobenius (colsub (fun s : 'I_#|states| => enum_val s) (A + B *m T + C *m T *m T)), frobenius (B *m R + C *m T *m R + D)).
Proof.
move=> z; have st (Y : 'M[F]_n) p (X : 'M[F]_(n, p)) : (forall j, j \notin states -> col j Y = 0) ->
    colsub (fun s : 'I_#|states| => enum_val s) Y *m rowsub (fun s : 'I_#|states| => enum_val s) X = Y *m X.
  move=> zY; apply/matrixP => i j; rewrite !mxE [RHS](bigID [pred m | m \in states]) /= [X in _ = _ + X]big1 => [|m nm]; last first.
    by have := congr1 (fun Z : 'cV_n => Z i 0) (zY m nm); rewrite !mxE => ->; rewrite mul0r.
  rewrite addr0 [RHS]sum_set; apply: eq_bigr => s _; by rewrite !mxE.
have zC j : j \notin states -> col j (C *m T) = 0 by move=> /z; rewrite !colE -mulmxA => ->; rewrite mulmx0.
have cs p q (X : 'M[F]_(p, n)) (Y : 'M[F]_(n, n)) (f : 'I_q -> 'I_n) : X *m colsub f Y = colsub f (X *m Y).
  by apply/matrixP => i j; rewrite !mxE; apply: eq_bigr => *; rewrite !mxE.
rewrite /reported_norms; congr pair; congr frobenius.
  have -> : mxsub (fun s : 'I_#|states| => enum_val s) (fun s : 'I_#|states| => enum_val s) T = rowsub (fun s : 'I_#|states| => enum_val s) (colsub (fun s : 'I_#|states| => enum_val s) T).
    by apply/matrixP => i j; rewrite !mxE.
  rewrite [C *m _]cs st // !cs. by apply/matrixP => i j; rewrite !mxE.
by rewrite [C *m _]cs st.
Qed.

Section C116_refuted.
Variable F : rcfType.
Definition m2 (a b c d : F) : 'M[F]_2 := \matrix_(i, j) if i == 0 then if j == 0 then a else b else if j == 0 then c else d.
Lemma ord2_ind (P : 'I_2 -> Prop) : P 0 -> P 1 -> forall i, P i.
Proof. by move=> p0 p1 [[|[|]]] // H; [move: p0|move: p1]; congr P; apply: val_inj. Qed.
Definition swap (i : 'I_2) : 'I_2 := if i == 0 then 1 else 0.
(* x(t) = x(t-1)/2 and y(t) = 0, with the solver working in the order y, x *)
Let Au := m2 (- 2%:R^-1) 0 0 0. Let Bu := m2 1 0 0 1. Let T := m2 0 0 0 2%:R^-1.
(* refuted: the norms recorded with every draw vanish when the model is solved.  T is the exact solution, and the
   deterministic norm recorded is 1/2; and without the option nothing is checked *)
Theorem C116_norms_refuted :
  let A := solver_form id swap Au in let B := solver_form id swap Bu in
  let: (Tu, Ru, resid) := setup_policy swap A B 0 T (0 : 'M[F]_(2, 1)) in
  [/\ solves Au Bu 0 Tu, resid = 0 & (reported_norms [set 0] A B 0 (0 : 'M_(2, 1)) Tu Ru).1 = 2%:R^-1].
Proof.
have n2 : (2%:R : F) != 0 by rewrite pnatr_eq0.
have TuE : user_order swap T = m2 2%:R^-1 0 0 0 by apply/matrixP; apply: ord2_ind; apply: ord2_ind; rewrite !mxE.
have S : solves Au Bu 0 (user_order swap T).
  rewrite TuE /solves mul0mx addr0; apply/matrixP; apply: ord2_ind; apply: ord2_ind;
    by rewrite !mxE !big_ord_recl big_ord0 !mxE /= ?mulr0 ?mul0r ?mul1r ?addr0 ?add0r ?addNr.
have sw : cancel swap swap by apply: ord2_ind.
rewrite /setup_policy; split=> //.
  have := @C116_residual F 2 1 id id swap swap (fun _ => erefl) (fun _ => erefl) sw sw Au Bu 0 T 0.
  have -> : solver_form id swap (0 : 'M[F]_2) = 0 by apply/matrixP => i j; rewrite !mxE.
  rewrite /= => ->.
  by rewrite -mulmxA -[0 *m (_ *m _)]/(0 *m _) S big1 // => i _; rewrite big1 // => j _; rewrite mxE expr0n.
rewrite /reported_norms /= !mul0mx addr0 TuE /frobenius.
have -> : \sum_i \sum_j (colsub (fun s : 'I_#|[set (0 : 'I_2)]| => enum_val s) (solver_form id swap Au) +
     solver_form id swap Bu *m colsub (fun s : 'I_#|[set (0 : 'I_2)]| => enum_val s) (m2 2%:R^-1 0 0 0)) i j ^+ 2 = (2%:R^-1 : F) ^+ 2.
  have ev (s : 'I_#|[set (0 : 'I_2)]|) : enum_val s = 0 by apply/eqP; have := enum_valP s; rewrite inE.
  rewrite exchange_big /=.
  have c1 : #|[set (0 : 'I_2)]| = 1%N by rewrite cards1.
  rewrite (eq_bigr (fun _ => (2%:R^-1 : F) ^+ 2)) => [|s _]; first by rewrite sumr_const card_ord c1 mulr1n.
  rewrite !big_ord_recl big_ord0 !mxE !big_ord_recl !big_ord0 !mxE !ev /=.
  by rewrite ?mulr0 ?mul0r ?mul1r ?addr0 ?add0r expr0n /= ?add0r.
by rewrite sqrtr_sqr ger0_norm // invr_ge0 ler0n.
Qed.
Theorem C116_default_refuted (resid tol : F) : solver_gate false resid tol = true.
Proof. by []. Qed.
End C116_refuted.
(* the hypotheses of C115 are met: x(t) = x(t-1)/2 is solved in one step of five *)
Theorem C115_case (F : realFieldType) :
  scan_cycle_reduction 0 (- (2%:R^-1))%:M 1%:M (0 : 'M[F]_1) 5 3%:R^-1 = Returned ((2%:R^-1)%:M, 1%N).
Proof.
set A : 'M[F]_1 := (- _)%:M; have s0 (Y : 'M[F]_1) : Y + 0%:M = Y by rewrite (raddf0 (scalar_mx_additive _ _)) addr0.
have n2 : (2%:R : F) != 0 by rewrite pnatr_eq0.
have big : 10%:R ^+ 9 < 3%:R^-1 :> F = false.
  apply/negbTE; rewrite -leNgt; apply: (@le_trans _ _ 1); last by rewrite -natrX ler1n.
  by rewrite invf_le1 ?ltr0n // ler1n.
have a1 : jred0 0 A 1%:M 0 1 = (- (2%:R^-1 * 2%:R^-1))%:M.
  by rewrite /jred0 /= s0 invmx1 mulmx1 /A -scalar_mxM mulrNN -raddfN.
have small : norm1 (jred0 0 A 1%:M 0 1) < 3%:R^-1.
  rewrite a1 norm1_scalar normrN ger0_norm ?mulr_ge0 ?invr_ge0 ?ler0n // -invfM ltf_pinv ?posrE -?natrM ?ltr0n // ltr_nat //.
have h1 : jhat 0 A 1%:M 0 1 = 1%:M by rewrite /jhat /= !mul0mx subr0.
change (scan_cycle_reduction 0 A 1%:M 0 5 3%:R^-1) with (let! e := scan_loop 0 3%:R^-1 5 (jstate 0 A 1%:M (0 : 'M[F]_1) 0) (10%:R ^+ 9) 0 in let! x := np_solve (stabilize 0 (cHat e.1)) A in Returned (- x, e.2)).
rewrite /scan_loop -/scan_loop big scan_passE s0 unitmx1 /= small /= /np_solve /stabilize h1 s0 unitmx1 /= invmx1 mul1mx.
by rewrite /A -raddfN opprK.
Qed.
