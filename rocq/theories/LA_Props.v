(* The statements: cyclic reduction. *)
From mathcomp Require Import all_ssreflect all_algebra.
From Verif Require Import LA_Spec LA_Model LA_Proofs LA_Main.
Import GRing.Theory Num.Theory Order.TTheory.
Set Implicit Arguments.
Unset Strict Implicit.
Unset Printing Implicit Defensive.
Local Open Scope ring_scope.

Section C24.
Variable F : realFieldType.
Variable n : nat.
Notation M := 'M[F]_n.+1.

(* C24: a normal return means that the loop took a definite number k of possible reduction steps and that the matrix is the
   one the k-th reduced system defines; the residual reported is that of the original equation *)
Theorem C24_returned_matrix_is_the_reduction (A0 A1 A2 : M) N tol T res msg :
  cycle_reduction A0 A1 A2 N tol = Returned (Some (T, res), msg) ->
  msg = Successful /\ res = A0 + A1 *m T + A2 *m T *m T /\
  exists k, [/\ stops_after A0 A1 A2 tol N k, (forall k', stops_after A0 A1 A2 tol N k' -> k' = k), hat A0 A1 A2 k \in unitmx &
                hat A0 A1 A2 k *m T + A0 = 0].
Proof.
move=> /cycle_reduction_returns [-> [-> [k [st U ->]]]]; split=> //; split=> //; exists k; split=> //.
  by move=> k' st'; apply: stops_unique st' st.
by rewrite mulmxN mulKVmx // addNr.
Qed.

(* ... every solution X of the equation is then within the stated distance of it *)
Theorem C24_distance_to_every_solution (A0 A1 A2 : M) N tol T res msg k :
  cycle_reduction A0 A1 A2 N tol = Returned (Some (T, res), msg) -> stops_after A0 A1 A2 tol N k ->
  forall X, solves A0 A1 A2 X ->
    hat A0 A1 A2 k *m (T - X) = red2 A0 A1 A2 k *m X ^+ (2 ^ k).+1 /\
    norm1 (T - X) <= norm1 (invmx (hat A0 A1 A2 k)) * norm1 (red2 A0 A1 A2 k) * norm1 (X ^+ (2 ^ k).+1).
Proof.
move=> /cycle_reduction_returns [_ [_ [k' [st U ->]]]] /stops_unique -/(_ _ st) -> X S; case: st => _ [inv _].
rewrite (distance_to_solution inv U S); split; first by rewrite -!mulmxA mulKVmx.
apply: le_trans (norm1M _ _) _; apply: ler_wpmul2r; [exact: norm1_ge0|exact: norm1M].
Qed.

(* ... in particular there is no other solution if the last reduced lead matrix vanishes, and it is a solution *)
Theorem C24_exact_when_the_lead_matrix_vanishes (A0 A1 A2 : M) N tol T res msg k :
  cycle_reduction A0 A1 A2 N tol = Returned (Some (T, res), msg) -> stops_after A0 A1 A2 tol N k -> red2 A0 A1 A2 k = 0 ->
    (forall X, solves A0 A1 A2 X -> X = T) /\
    (red1 A0 A1 A2 k \in unitmx -> solves A0 A1 A2 T /\ res = 0).
Proof.
move=> /cycle_reduction_returns [_ [-> [k' [st U ->]]]] /stops_unique -/(_ _ st) -> Z; case: st => _ [inv _]; split.
  move=> X S; apply/esym/eqP; rewrite -subr_eq0 (distance_to_solution inv U S) Z mulmx0 mul0mx; exact/eqP.
move=> V; have inv' : invertible_below A0 A1 A2 k'.+1.
  by move=> j; rewrite ltnS leq_eqVlt => /orP [/eqP -> //|]; exact: inv.
have S := exact_solution inv' U Z; split=> //; rewrite -[_ *m _ *m _]mulmxA; exact: S.
Qed.

(* the pair returned by the solver: R is the impact matrix of the T returned with it *)
Theorem C24_impact_matrix_matches k (A B C : M) (D : 'M[F]_(n.+1, k)) N tol onerr T R :
  solve_with_cr A B C D N tol onerr = Returned (Some T, Some R) -> impact_of B C T D R.
Proof.
rewrite /solve_with_cr /cr_policy; case: (cycle_reduction _ _ _ _ _) => //= -[[[X res]|] msg] //.
by rewrite /np_solve; case: ifP => //= U [<- <-]; apply: impact_of_solve.
Qed.

(* the second success-like result string cannot occur *)
Theorem C24_partial_convergence_is_never_reported (A0 A1 A2 : M) N tol r :
  cycle_reduction A0 A1 A2 N tol <> Returned (r, A2_not_converged).
Proof.
rewrite /cycle_reduction state0; have I0 : invertible_below A0 A1 A2 0 by [].
move: (loop_from tol N I0); rewrite /end_of; case: (cr_loop _ _ _) => [[s|s]|e] //=.
  by move=> _; rewrite /np_solve; case: ifP.
by case=> _ -> _ _ /negbTE /= ->.
Qed.
End C24.

Section Refuted.
Variable F : realFieldType.
(* refuted: "Optimization successful" means that the matrix (nearly) solves the equation.  Whatever the tolerance, there is
   a one-variable model without any solution for which the first pass reports success and T = 2 *)
Theorem C24_success_means_solution_refuted (tol : F) : 0 < tol ->
  exists A0 A1 A2 : 'M[F]_1,
    (forall N, (0 < N)%N -> exists res, cycle_reduction A0 A1 A2 N tol = Returned (Some (2%:R%:M, res), Successful)) /\
    (forall X, ~ solves A0 A1 A2 X).
Proof.
move=> t0; pose s := tol / 8%:R.
have s0 : 0 < s by rewrite divr_gt0 ?ltr0n.
have st : tol = s * 8%:R by rewrite divfK ?pnatr_eq0.
have sN : s != 0 by rewrite gt_eqF.
exists (2%:R * s)%:M, s%:M, s%:M; split.
  case=> // N _; eexists; rewrite /cycle_reduction /= pass_scalar //=.
  have e1 : 2%:R * s * s^-1 = 2%:R by rewrite mulfK.
  have e2 : s * s^-1 = 1 by rewrite divff.
  have q : 0 <= 2%:R * (2%:R * s) by apply: mulr_ge0; [exact: ler0n|apply: mulr_ge0; [exact: ler0n|exact: ltW]].
  rewrite e1 e2 !norm1_scalar !mul1r !normrN (ger0_norm q) (ger0_norm (ltW s0)) st.
  have -> : 2%:R * (2%:R * s) < s * 8%:R.
    by rewrite mulrA -natrM mulrC ltr_pmul2l // ltr_nat.
  have -> : s < s * 8%:R by rewrite ltr_pmulr // ltr1n.
  have -> : s - 2%:R * s = - s by rewrite mulr_natl mulr2n opprD addrA subrr add0r.
  rewrite /= /np_solve unit1 oppr_eq0 sN /= invmx_scalar -scalar_mxM -raddfN /=.
  have -> : - ((- s)^-1 * (2%:R * s)) = 2%:R :> F.
    by rewrite invrN mulNr opprK mulrCA mulVf // mulr1.
  reflexivity.
move=> X; rewrite /solves => /matrixP /(_ 0 0); rewrite !mxE !big_ord1 !mxE !big_ord1 !eqxx !mulr1n.
set x := X 0 0 => H.
have : s * ((x + 2%:R^-1) ^+ 2 + 7%:R / 4%:R) = 0.
  rewrite -[RHS]H.
  have -> : (x + 2%:R^-1) ^+ 2 = x * x + x + 4%:R^-1.
    rewrite sqrrD -expr2 -[_ *+ 2]mulr_natr mulfVK ?pnatr_eq0 // exprVn -natrX. done.
  have -> : x * x + x + 4%:R^-1 + 7%:R / 4%:R = x * x + x + 2%:R.
    rewrite -[LHS]addrA; congr (_ + _).
    have -> : 4%:R^-1 + 7%:R / 4%:R = (8%:R / 4%:R : F) by rewrite -[X in X + _]mul1r -mulrDl -(natrD _ 1 7).
    by rewrite -[8%N]/(2 * 4)%N natrM mulfK ?pnatr_eq0.
  have poly c : s * (x * x + x + c) = c * s + s * x + s * (x * x) by rewrite !mulrDr [s * c]mulrC addrC addrA addrAC.
  exact: poly.
move=> /eqP; rewrite mulf_eq0 (negbTE sN) /= => /eqP K.
have : 0 < (x + 2%:R^-1) ^+ 2 + 7%:R / 4%:R by rewrite ltr_paddl ?sqr_ge0 // divr_gt0 ?ltr0n.
by rewrite K ltxx.
Qed.

(* refuted: success means that both reduced matrices met the tolerance *)
Theorem C24_success_means_tolerances_met_refuted :
  exists A0 A1 A2 : 'M[F]_1, forall N tol, 0 < tol -> tol <= 1 ->
    (exists res, cycle_reduction A0 A1 A2 N tol = Returned (Some (0, res), Successful)) /\
    forall k, norm1 (red2 A0 A1 A2 k) = 1.
Proof.
exists 0%:M, 1%:M, 1%:M => N tol t0 t1; split; last first.
  move=> k; rewrite /red2.
  suff [h [-> | ->]] : exists h : 'M[F]_1, reduced (0%:M : 'M_1) 1%:M 1%:M k = (0%:M, 1%:M, 1%:M, h) \/ reduced (0%:M : 'M_1) 1%:M 1%:M k = (0%:M, 1%:M, (-1)%:M, h).
    by rewrite norm1_scalar normr1.
    by rewrite norm1_scalar normrN1.
  elim: k => [|k [h [H | H]]] /=; first by exists 1%:M; left.
  - rewrite H invmx_scalar -!scalar_mxM invr1 !(mul0r, mulr0, mul1r, mulr1, mulrNN, raddf0, mulmx0, mul0mx, subr0, oppr0, addr0).
    by exists h; right; rewrite raddfN.
  - rewrite H invmx_scalar -!scalar_mxM invr1 !(mul0r, mulr0, mul1r, mulr1, mulrNN, raddf0, mulmx0, mul0mx, subr0, oppr0, addr0).
    by exists h; right; rewrite raddfN.
have loop b (Hb : b = 1 \/ b = -1) : cr_loop tol N (CR (0%:M : 'M[F]_1) 1%:M b%:M 1%:M) = Returned (Left_loop (CR (0%:M : 'M[F]_1) 1%:M (if N is 0 then b%:M else (-1)%:M) 1%:M)).
  elim: N b Hb => [|N IH] b Hb //=.
  rewrite pass_scalar ?oner_neq0 //= !(mul0r, mulr0, invr1, mulr1, subr0, oppr0).
  have -> : - (b * b) = -1 by case: Hb => ->; rewrite ?mulrNN mulr1.
  rewrite norm1_scalar normr0 t0 norm1_scalar normrN1 ltNge t1 /= !addr0 IH; last by right.
  by case: N {IH}.
rewrite /cycle_reduction loop; last by left.
rewrite /= /np_solve unit1 oner_neq0 /= raddf0 mulmx0 oppr0; eexists; reflexivity.
Qed.

End Refuted.

Lemma ratE (x y : rat) : x == y -> x = y. Proof. by move/eqP. Qed.
(* hypotheses met: 1 - 5/2 x + x^2 = 0 has the roots 1/2 and 2; after one pass with tolerance 1/2 the result is 10/21 *)
Theorem C24_case : exists res,
  cycle_reduction (1%:M : 'M[rat]_1) (- (5%:R / 2%:R))%:M 1%:M 7 (2%:R^-1) = Returned (Some ((10%:R / 21%:R)%:M, res), Successful) /\
  solves (1%:M : 'M[rat]_1) (- (5%:R / 2%:R))%:M 1%:M (2%:R^-1)%:M.
Proof.
eexists; split; last first.
  rewrite /solves -!scalar_mxM -!raddfD /=; set c := (X in X%:M); have -> : c = 0 by apply: ratE; vm_compute.
  exact: raddf0.
rewrite /cycle_reduction /= pass_scalar; last by vm_compute.
rewrite /= !norm1_scalar; set c1 := (_ < _); have -> : c1 by vm_compute.
rewrite /= /np_solve unit1; set c2 := (_ != _); have -> : c2 by vm_compute.
rewrite /= invmx_scalar -scalar_mxM -raddfN /=; set t := (X in X%:M); have -> : t = 10%:R / 21%:R by apply: ratE; vm_compute.
reflexivity.
Qed.
