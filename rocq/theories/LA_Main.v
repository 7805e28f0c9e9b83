(* Cyclic reduction: the returned matrix against the solutions of the quadratic equation. *)
From mathcomp Require Import all_ssreflect all_algebra.
From Verif Require Import LA_Spec LA_Model LA_Proofs.
Import GRing.Theory Num.Theory Order.TTheory.
Set Implicit Arguments.
Unset Strict Implicit.
Unset Printing Implicit Defensive.
Local Open Scope ring_scope.

Section Norms.
Variable F : realFieldType.
Lemma bigmax_ge (I : Type) (r : seq I) (f : I -> F) : 0 <= \big[Num.max/0]_(i <- r) f i.
Proof. by elim/big_rec: _ => // i x _ H; rewrite le_maxr H orbT. Qed.
Lemma bigmax_upper (I : eqType) (r : seq I) (f : I -> F) i : i \in r -> f i <= \big[Num.max/0]_(j <- r) f j.
Proof.
elim: r => // a r IH; rewrite inE big_cons le_maxr => /orP [/eqP ->|/IH ->]; by rewrite ?lexx ?orbT.
Qed.
Lemma bigmax_lub (I : Type) (r : seq I) (f : I -> F) c : 0 <= c -> (forall i, f i <= c) -> \big[Num.max/0]_(i <- r) f i <= c.
Proof. by move=> c0 H; elim/big_rec: _ => // i x _ Hx; rewrite le_maxl H Hx. Qed.
Lemma norm1_ge0 m p (A : 'M[F]_(m, p)) : 0 <= norm1 A. Proof. exact: bigmax_ge. Qed.
Lemma norm1_col m p (A : 'M[F]_(m, p)) j : \sum_i `|A i j| <= norm1 A.
Proof. by rewrite /norm1; apply: (@bigmax_upper _ _ (fun j => \sum_i `|A i j|)); rewrite mem_index_enum. Qed.
Lemma norm1_lub m p (A : 'M[F]_(m, p)) c : 0 <= c -> (forall j, \sum_i `|A i j| <= c) -> norm1 A <= c.
Proof. exact: bigmax_lub. Qed.
Lemma norm1M m q p (A : 'M[F]_(m, q)) (B : 'M[F]_(q, p)) : norm1 (A *m B) <= norm1 A * norm1 B.
Proof.
apply: norm1_lub => [|j]; first by rewrite mulr_ge0 ?norm1_ge0.
apply: (@le_trans _ _ (\sum_i \sum_l `|A i l| * `|B l j|)).
  apply: ler_sum => i _; rewrite mxE; apply: le_trans (ler_norm_sum _ _ _) _.
  by apply: ler_sum => l _; rewrite normrM.
rewrite exchange_big /=.
apply: (@le_trans _ _ (\sum_l norm1 A * `|B l j|)).
  apply: ler_sum => l _; rewrite -mulr_suml; apply: ler_wpmul2r => //; exact: norm1_col.
by rewrite -mulr_sumr; apply: ler_wpmul2l; [exact: norm1_ge0|exact: norm1_col].
Qed.
Lemma norm1_scalar (a : F) : norm1 (a%:M : 'M_1) = `|a|.
Proof. by rewrite /norm1 big_ord_recl big_ord0 big_ord1 mxE eqxx mulr1n; apply/max_idPl. Qed.
Lemma norm1_eq0 m p (A : 'M[F]_(m, p)) : norm1 A = 0 -> A = 0.
Proof.
move=> H; apply/matrixP => i j; rewrite mxE; apply/eqP; rewrite -normr_eq0 eq_le normr_ge0 andbT.
rewrite -H; apply: le_trans (norm1_col A j); rewrite (bigD1 i) //= ler_addl; exact: sumr_ge0.
Qed.
Lemma norm1_0 m p : norm1 (0 : 'M[F]_(m, p)) = 0.
Proof.
apply/eqP; rewrite eq_le norm1_ge0 andbT; apply: norm1_lub => // j; rewrite big1 // => i _; by rewrite mxE normr0.
Qed.
End Norms.

Section CRM.
Variable F : realFieldType.
Variable n : nat.
Notation M := 'M[F]_n.+1.

(* what a normal return means *)
Lemma cycle_reduction_returns (A0 A1 A2 : M) N tol T res msg :
  cycle_reduction A0 A1 A2 N tol = Returned (Some (T, res), msg) ->
  msg = Successful /\ res = A0 + A1 *m T + A2 *m T *m T /\
  exists k, [/\ stops_after A0 A1 A2 tol N k, hat A0 A1 A2 k \in unitmx & T = - (invmx (hat A0 A1 A2 k) *m A0)].
Proof.
rewrite /cycle_reduction state0; have I0 : invertible_below A0 A1 A2 0 by [].
move: (loop_from tol N I0); rewrite /end_of; case: (cr_loop _ _ _) => [[s|s]|e] //=.
case=> j [J -> inv Q cond] /=; rewrite /np_solve; case: ifP => // U [<- <- <-] /=; split=> //; split=> //.
exists j; split=> //; split=> //; split=> //; split=> //.
Qed.

Lemma stops_unique (A0 A1 A2 : M) N tol k k' : stops_after A0 A1 A2 tol N k -> stops_after A0 A1 A2 tol N k' -> k = k'.
Proof.
wlog lt : k k' / (k < k')%N.
  move=> W H H'; case: (ltngtP k k') => // L; [exact: W|by apply/esym; apply: W].
move=> [kN [_ [_ c]]] [kN' [_ [Q _]]]; case: c => [[k0 bs]|[kN0 _]].
  by case: (Q k); rewrite ?k0 ?lt.
by move: (leq_trans lt kN'); rewrite kN0 ltnn.
Qed.

(* a solution gives a sequence that solves every reduced system *)
Lemma solution_identity (A0 A1 A2 X : M) k :
  invertible_below A0 A1 A2 k -> solves A0 A1 A2 X ->
  A0 + hat A0 A1 A2 k *m X + red2 A0 A1 A2 k *m X ^+ (2 ^ k).+1 = 0.
Proof.
move=> inv S.
have L0 : level A0 A1 A2 0 (1%:M : M) (fun m => X ^+ m.+1).
  have S' : A0 + A1 *m X + A2 *m (X ^+ 2) = 0 by rewrite expr2.
  split=> [|m]; rewrite /hat /red0 /red1 /red2 /=; first by rewrite mulmx1 expr1.
  have -> : X ^+ m.+2 = X *m X ^+ m.+1 by rewrite exprS.
  have -> : X ^+ m.+3 = X ^+ 2 *m X ^+ m.+1 by rewrite -[_.+3]/(2 + m.+1)%N exprD.
  by rewrite !mulmxA -!mulmxDl -[A2 *m X *m X]mulmxA S mul0mx.
have [L _] := level_iter inv L0; move: L; rewrite muln0 muln1 mulmx1 expr1; done.
Qed.

Lemma distance_to_solution (A0 A1 A2 X : M) k :
  invertible_below A0 A1 A2 k -> hat A0 A1 A2 k \in unitmx -> solves A0 A1 A2 X ->
  - (invmx (hat A0 A1 A2 k) *m A0) - X = invmx (hat A0 A1 A2 k) *m red2 A0 A1 A2 k *m X ^+ (2 ^ k).+1.
Proof.
move=> inv U S; have /(congr1 (fun Z => invmx (hat A0 A1 A2 k) *m Z)) := solution_identity inv S.
rewrite !mulmxDr mulmx0 !mulmxA mulVmx // mul1mx => H.
apply/eqP; rewrite -subr_eq0 -opprD -opprD oppr_eq0 ; apply/eqP; exact: H.
Qed.

(* when the last reduced A2 vanishes, the candidate is a solution *)
Lemma exact_solution (A0 A1 A2 : M) k :
  invertible_below A0 A1 A2 k.+1 -> hat A0 A1 A2 k \in unitmx -> red2 A0 A1 A2 k = 0 ->
  solves A0 A1 A2 (- (invmx (hat A0 A1 A2 k) *m A0)).
Proof.
move=> inv U Z.
have invk : invertible_below A0 A1 A2 k by move=> j jk; apply: inv; apply: ltnW.
set T := - _.
(* x(1) = T x(0) along every sequence *)
have first (x0 : M) y : level A0 A1 A2 0 x0 y -> y 0%N = T *m x0.
  move=> L; have [E _] := level_iter invk L; move: E; rewrite Z mul0mx addr0 muln0 => E.
  have : invmx (hat A0 A1 A2 k) *m (A0 *m x0 + hat A0 A1 A2 k *m y 0%N) = 0 by rewrite E mulmx0.
  rewrite mulmxDr mulKmx // mulmxA => /eqP; rewrite addrC addr_eq0 => /eqP ->.
  by rewrite /T mulNmx.
(* one such sequence exists *)
pose G := - (invmx (red1 A0 A1 A2 k) *m red0 A0 A1 A2 k).
have Lk : level A0 A1 A2 k (1%:M : M) (fun m => G ^+ m *m T).
  split=> [|m]; rewrite Z !mul0mx addr0.
    by rewrite expr0 mul1mx mulmx1 /T mulmxN mulKVmx // subrr.
  have -> : G ^+ m.+1 *m T = G *m (G ^+ m *m T) by rewrite exprS mulmxA.
  set W := G ^+ m *m T; rewrite /G mulNmx mulmxN -mulmxA mulKVmx ?subrr //; exact: inv.
have [y Ly y0] := level_back invk Lk.
have y0T : y 0%N = T by rewrite (first _ _ Ly) mulmx1.
have Lshift : level A0 A1 A2 0 (y 0%N) (fun m => y m.+1).
  by case: Ly => L0 L1; split=> [|m]; [exact: (L1 0%N)|exact: L1].
have y1 := first _ _ Lshift; rewrite y0T in y1.
case: Ly => L0 _; move: L0; rewrite y0T y1 mulmx1; done.
Qed.

(* the impact matrix *)
Lemma impact_of_solve k (B C T : M) (D : 'M[F]_(n.+1, k)) : C *m T + B \in unitmx ->
  impact_of B C T D (- (invmx (C *m T + B) *m D)).
Proof.
move=> U; rewrite /impact_of mulmxA -mulmxDl [B + _]addrC mulmxN mulKVmx // addNr. done.
Qed.
End CRM.

(* ---------- one variable ---------- *)
Section One.
Variable F : realFieldType.
Lemma unit1 (a : F) : ((a%:M : 'M_1) \in unitmx) = (a != 0).
Proof. by rewrite unitmxE det_scalar1 unitfE. Qed.
Lemma red_scalar (a0 a1 a2 : F) k :
  exists b0 b1 b2 h, reduced (a0%:M : 'M_1) a1%:M a2%:M k = (b0%:M, b1%:M, b2%:M, h%:M).
Proof.
elim: k => [|k [b0 [b1 [b2 [h H]]]]] /=; first by exists a0, a1, a2, a1.
rewrite H /= invmx_scalar -!scalar_mxM -!raddfN -!raddfD /=. by do 4 eexists.
Qed.
Lemma pass_scalar (a0 a1 a2 h : F) : a1 != 0 ->
  cr_pass (CR (a0%:M : 'M_1) a1%:M a2%:M h%:M) =
  Returned (CR (- (a0 * a1^-1 * a0))%:M (a1 - a0 * a1^-1 * a2 - a2 * a1^-1 * a0)%:M (- (a2 * a1^-1 * a2))%:M (h - a2 * a1^-1 * a0)%:M).
Proof.
move=> N0; rewrite /cr_pass /np_solve /= unit1 N0 /=.
rewrite mul_mx_row mul_col_row block_mxKul block_mxKur block_mxKdl block_mxKdr invmx_scalar !mulmxA.
by rewrite -!scalar_mxM -!raddfN -!raddfD /= .
Qed.
End One.
