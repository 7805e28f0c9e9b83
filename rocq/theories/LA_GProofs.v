(* Proofs about gensys: the core. *)
From mathcomp Require Import all_ssreflect all_algebra.
From Verif Require Import LA_Model LA_GModel LA_GSpec.
Import GRing.Theory Num.Theory Order.TTheory.
Set Implicit Arguments.
Unset Strict Implicit.
Unset Printing Implicit Defensive.
Local Open Scope ring_scope.

Section CT.
Variable K : numClosedFieldType.
Lemma ctK m p (X : 'M[K]_(m, p)) : ct (ct X) = X.
Proof. by apply/matrixP => i j; rewrite !mxE conjCK. Qed.
Lemma ctM m q p (X : 'M[K]_(m, q)) (Y : 'M[K]_(q, p)) : ct (X *m Y) = ct Y *m ct X.
Proof. by rewrite /ct map_mxM trmx_mul. Qed.
Lemma ct1 n : ct (1%:M : 'M[K]_n) = 1%:M.
Proof. by rewrite /ct map_mx1 trmx1. Qed.
Lemma ctB m p (X Y : 'M[K]_(m, p)) : ct (X - Y) = ct X - ct Y.
Proof. by rewrite /ct map_mxB linearB. Qed.
Lemma ct0 m p : ct (0 : 'M[K]_(m, p)) = 0. Proof. by rewrite /ct map_mx0 trmx0. Qed.
Definition dg r (f : 'I_r -> K) : 'M[K]_r := diag_mx (\row_i f i).
Lemma dg_at r (f : 'I_r -> K) i j : dg f i j = f i *+ (i == j).
Proof. by rewrite !mxE. Qed.
Lemma dgM r p (f : 'I_r -> K) (X : 'M[K]_(r, p)) : dg f *m X = \matrix_(i, j) (f i * X i j).
Proof. by rewrite /dg mul_diag_mx; apply/matrixP => i j; rewrite !mxE. Qed.
Lemma dg_dg r (f g : 'I_r -> K) : dg f *m dg g = dg (fun i => f i * g i).
Proof. by rewrite dgM; apply/matrixP => i j; rewrite !mxE mulrnAr. Qed.
Lemma dg_one r (f : 'I_r -> K) : (forall i, f i = 1) -> dg f = 1%:M.
Proof. by move=> H; apply/matrixP => i j; rewrite dg_at H mxE. Qed.
Lemma ct_dg r (f : 'I_r -> K) : (forall i, f i \is Num.real) -> ct (dg f) = dg f.
Proof.
move=> H; apply/matrixP => i j; rewrite mxE mxE !dg_at rmorphMn /= (CrealP (H _)) eq_sym.
by case: eqP => // ->.
Qed.
(* upper triangular with a nonzero diagonal: invertible *)
Lemma upper_unit n (X : 'M[K]_n) : upper X -> (forall i, X i i != 0) -> X \in unitmx.
Proof.
move=> U D; rewrite -unitmx_tr unitmxE det_trig.
  by rewrite unitfE; apply/prodf_neq0 => i _; rewrite mxE.
by apply/is_trig_mxP => i j ij; rewrite mxE U.
Qed.
End CT.

Section Core.
Variable K : numClosedFieldType.
Variables (ns nu ne : nat).
Notation N := (ns + nu)%N.
Variables (g0 g1 : 'M[K]_N) (pi : 'M[K]_(N, ne)) (rs : K) (d : qz K N).
Hypothesis rs0 : 0 < rs.
Hypothesis QZok : qz_contract rs g0 g1 d ns.
Hypothesis NZ : ~~ [exists i, coincident rs (qalpha d i) (qbeta d i)].
Notation A := (qA d).
Notation B := (qB d).
Notation Q := (Qm d).
Notation Zh := (ct (qZ d)).

Lemma QV : Q *m qQ d = 1%:M. Proof. exact: (qz_Q QZok). Qed.
Lemma VQ : qQ d *m Q = 1%:M. Proof. exact: (mulmx1C QV). Qed.
Lemma ZhZ : Zh *m qZ d = 1%:M. Proof. exact: (qz_Z QZok). Qed.
Lemma ZZh : qZ d *m Zh = 1%:M. Proof. exact: (mulmx1C ZhZ). Qed.
Lemma Qg0 : Q *m g0 = A *m Zh. Proof. by rewrite (qz_g0 QZok) !mulmxA QV mul1mx. Qed.
Lemma Qg1 : Q *m g1 = B *m Zh. Proof. by rewrite (qz_g1 QZok) !mulmxA QV mul1mx. Qed.
Lemma Qinj q (X Y : 'M[K]_(N, q)) : Q *m X = Q *m Y -> X = Y.
Proof. by move=> H; rewrite -[X]mul1mx -VQ -mulmxA H mulmxA VQ mul1mx. Qed.

Notation A11 := (ulsubmx A). Notation A12 := (ursubmx A). Notation A22 := (drsubmx A).
Notation B11 := (ulsubmx B). Notation B12 := (ursubmx B). Notation B22 := (drsubmx B).
Lemma upper_block (X : 'M[K]_N) : upper X -> X = block_mx (ulsubmx X) (ursubmx X) 0 (drsubmx X).
Proof.
move=> U; rewrite -[LHS]submxK; congr block_mx; apply/matrixP => i j; rewrite !mxE; apply: U => /=.
by apply: leq_trans (ltn_ord j) _; rewrite leq_addr.
Qed.
Lemma Abl : A = block_mx A11 A12 0 A22. Proof. exact: upper_block (qz_upA QZok). Qed.
Lemma Bbl : B = block_mx B11 B12 0 B22. Proof. exact: upper_block (qz_upB QZok). Qed.

Lemma rsR : rs \is Num.real. Proof. by rewrite realE (ltW rs0). Qed.
Lemma first_stable (i : 'I_ns) : is_stable rs (A (lshift nu i) (lshift nu i)) (B (lshift nu i) (lshift nu i)).
Proof. by rewrite -(qz_alpha QZok) -(qz_beta QZok) (qz_sorted QZok) /= ltn_ord. Qed.
Lemma last_unstable (i : 'I_nu) : ~~ is_stable rs (A (rshift ns i) (rshift ns i)) (B (rshift ns i) (rshift ns i)).
Proof. by rewrite -(qz_alpha QZok) -(qz_beta QZok) (qz_sorted QZok) /= -leqNgt leq_addr. Qed.
Lemma stableP a b : is_stable rs a b -> a != 0 /\ `|b| < `|a|.
Proof.
case/orP => /andP [b1 a1].
  have lt : `|b| < `|a| by apply: lt_le_trans b1 a1.
  by split=> //; rewrite -normr_gt0; apply: lt_le_trans rs0 a1.
split=> //; rewrite -normr_gt0; apply: le_lt_trans a1; exact: normr_ge0.
Qed.
Lemma unstableP (i : 'I_nu) : B (rshift ns i) (rshift ns i) != 0 /\ `|A (rshift ns i) (rshift ns i)| <= `|B (rshift ns i) (rshift ns i)|.
Proof.
move: (last_unstable i); set a := A _ _; set b := B _ _; rewrite /is_stable negb_or !negb_and.
have nc : ~~ coincident rs a b.
  apply/negP => c; move/negP: NZ; apply; apply/existsP; exists (rshift ns i).
  by rewrite (qz_alpha QZok) (qz_beta QZok).
rewrite /coincident negb_and in nc.
have cmp x y : `|x| \is Num.real -> y \is Num.real -> (~~ (`|x| < y)) = (y <= `|x| :> K).
  by move=> xr yr; rewrite real_leNgt.
have nr (x : K) : `|x| \is Num.real by exact: normr_real.
rewrite !cmp ?rsR ?nr // in nc *.
rewrite -!real_ltNge ?rsR ?nr //.
case/andP => h1 h2.
have rb : rs <= `|b|.
  case/orP: nc => // ra; case/orP: h1 => // h; by rewrite lt_geF in ra.
have ab : `|a| <= `|b| by case/orP: h2 => // h; rewrite (le_gtF rb) in h.
by split=> //; rewrite -normr_gt0; apply: lt_le_trans rs0 rb.
Qed.
Lemma A11_unit : A11 \in unitmx.
Proof.
apply: upper_unit => [i j ij|i]; rewrite !mxE; first exact: (qz_upA QZok).
exact: (proj1 (stableP (first_stable i))).
Qed.

Variables (s : svd K nu ne) (s1 : svd K ns ne).
Hypothesis S2 : svd_contract rs (eta_wt pi d) s.
Hypothesis S1 : svd_contract rs (eta_wt_1 pi d) s1.
Notation Phi := (ct (inner_term s s1)).
Definition Pinv : 'M[K]_(ne, nu) := sv s *m dg (fun i => (ss i)^-1) *m ct (su s).

Lemma ss_real m (X : 'M[K]_(m, ne)) (t : svd K m ne) : svd_contract rs X t -> forall i, ss (s := t) i \is Num.real.
Proof. by move=> H i; rewrite realE (ltW (lt_trans rs0 (svd_s H i))). Qed.
Lemma PhiE : Phi = eta_wt_1 pi d *m Pinv.
Proof.
have -> : inner_term s s1 = su s *m (dg (fun i => (ss i)^-1) *m ct (sv s)) *m sv s1 *m (dg (fun i => ss i) *m ct (su s1)).
  rewrite /inner_term; congr (_ *m _ *m _ *m _); rewrite dgM; apply/matrixP => i j; by rewrite !mxE // mulrC.
have r1 : ct (dg (fun i => (ss (s := s) i)^-1)) = dg (fun i => (ss (s := s) i)^-1).
  by apply: ct_dg => i; rewrite realV; apply: ss_real S2 i.
have r2 : ct (dg (fun i => ss (s := s1) i)) = dg (fun i => ss (s := s1) i) by apply: ct_dg => i; apply: ss_real S1 i.
by rewrite !ctM !ctK r1 r2 [in RHS](svd_M S1) /Pinv -[diag_mx _]/(dg _) !mulmxA.
Qed.
Lemma dd1 m (X : 'M[K]_(m, ne)) (t : svd K m ne) : svd_contract rs X t -> dg (fun i => ss (s := t) i) *m dg (fun i => (ss (s := t) i)^-1) = 1%:M.
Proof. move=> H; rewrite dg_dg dg_one // => i; rewrite divff // gt_eqF //; exact: lt_trans rs0 (svd_s H i). Qed.

(* enough singular values kept: the expectation errors reach every unstable direction *)
Lemma existence : (nu <= skept s)%N -> eta_wt pi d *m Pinv = 1%:M.
Proof.
move=> le; rewrite (svd_M S2) -[diag_mx _]/(dg _) /Pinv !mulmxA -[_ *m ct (sv s) *m sv s]mulmxA (svd_v S2) mulmx1.
rewrite -[_ *m dg _ *m dg _]mulmxA (dd1 S2) mulmx1.
have U := svd_u S2.
have ge : (skept s <= nu)%N.
  rewrite -(mxrank1 K (skept s)) -U; apply: leq_trans (mxrankM_maxr _ _) _; exact: rank_leq_row.
move: (su s) U; have -> : skept s = nu by apply/eqP; rewrite eqn_leq le ge.
by move=> u U; apply: mulmx1C.
Qed.
Lemma existence_conv (H : 'M[K]_(ne, nu)) : eta_wt pi d *m H \in unitmx -> (nu <= skept s)%N.
Proof.
move=> U; have e := mxrank_unit U; apply: leq_trans (_ : \rank (eta_wt pi d *m H) <= _)%N; first by rewrite e.
rewrite (svd_M S2) -!mulmxA; apply: leq_trans (mxrankM_maxl _ _) _; exact: rank_leq_col.
Qed.
(* no loose direction: the expectation errors are determined *)
Lemma uniqueness : loose_for_rank s s1 = 0 -> Phi *m eta_wt pi d = eta_wt_1 pi d.
Proof.
move=> /eqP; rewrite subr_eq0 => /eqP E.
have E' : ct (sv s1) = ct (sv s1) *m sv s *m ct (sv s) by rewrite {1}E !ctM ctK mulmxA.
have F : eta_wt_1 pi d *m sv s *m ct (sv s) = eta_wt_1 pi d by rewrite (svd_M S1) -!mulmxA [ct (sv s1) *m _]mulmxA -E'.
rewrite PhiE -[RHS]F; move: (eta_wt_1 pi d) => e1; rewrite (svd_M S2) -[diag_mx _]/(dg _) /Pinv.
rewrite -!mulmxA [ct (su s) *m _]mulmxA (svd_u S2) mul1mx [dg _ *m (dg _ *m _)]mulmxA.
have -> : dg (fun i => (ss (s := s) i)^-1) *m dg (fun i => ss (s := s) i) = 1%:M by apply: mulmx1C; apply: dd1 S2.
by rewrite mul1mx.
Qed.

(* ---------- the solution operator ---------- *)
Notation G0 := (G_0 d s s1).
Notation TQ Y := (T_mat s s1 *m (Q *m Y)).
Lemma TmE q (X : 'M[K]_(N, q)) : T_mat s s1 *m X = usubmx X - Phi *m dsubmx X.
Proof. by rewrite -{1}[X]vsubmxK /T_mat mul_row_col mul1mx mulNmx. Qed.
Lemma G0E : G0 = block_mx A11 (A12 - Phi *m A22) 0 1%:M.
Proof.
rewrite /G_0 TmE {1 2}Abl /block_mx col_mxKu col_mxKd mul_mx_row mulmx0.
by rewrite [- row_mx _ _]opp_row_mx add_row_mx oppr0 addr0.
Qed.
Lemma G0_unit : G0 \in unitmx.
Proof. by rewrite G0E unitmxE det_ublock det1 mulr1 -unitmxE A11_unit. Qed.
Definition sol q (Y : 'M[K]_(N, q)) : 'M[K]_(N, q) := qZ d *m (invmx G0 *m col_mx (TQ Y) 0).
Lemma G1_sol : G_1_complex d s s1 = sol g1.
Proof.
rewrite /G_1_complex /sol Qg1 mulmxA -!mulmxA; congr (_ *m (_ *m _)).
by rewrite mul_col_mx mul0mx !mulmxA.
Qed.
Lemma impact_sol k (psi : 'M[K]_(N, k)) : impact_complex psi d s s1 = sol psi.
Proof. by rewrite /impact_complex /sol !mulmxA. Qed.
Lemma sol_mul q p (Y : 'M[K]_(N, q)) (X : 'M[K]_(q, p)) : sol Y *m X = sol (Y *m X).
Proof. by rewrite /sol -!mulmxA; congr (_ *m (_ *m _)); rewrite mul_col_mx mul0mx !mulmxA. Qed.

Lemma low_of q (V : 'M[K]_(ns, q)) : dsubmx (invmx G0 *m col_mx V 0) = 0 /\ A *m (invmx G0 *m col_mx V 0) = col_mx V 0.
Proof.
set X := _ *m _; have E : G0 *m X = col_mx V 0 by rewrite /X mulKVmx // G0_unit.
have Z : dsubmx X = 0.
  move: E; rewrite G0E -{1}[X]vsubmxK /block_mx mul_col_mx !mul_row_col mul0mx add0r mul1mx.
  by move=> /(congr1 dsubmx); rewrite !col_mxKd.
split=> //; rewrite Abl -{1}[X]vsubmxK Z /block_mx mul_col_mx !mul_row_col !mulmx0 !addr0 mul0mx.
congr (col_mx _ _).
move: E; rewrite G0E -{1}[X]vsubmxK Z /block_mx mul_col_mx !mul_row_col !mulmx0 !addr0.
by move=> /(congr1 usubmx); rewrite !col_mxKu.
Qed.
Lemma sol_low q (Y : 'M[K]_(N, q)) : dsubmx (Zh *m sol Y) = 0.
Proof. by rewrite /sol mulmxA ZhZ mul1mx; case: (low_of (TQ Y)). Qed.
Lemma sol_g0 q (Y : 'M[K]_(N, q)) : Q *m (g0 *m sol Y) = col_mx (TQ Y) 0.
Proof. by rewrite mulmxA Qg0 /sol -mulmxA [Zh *m _]mulmxA ZhZ mul1mx; case: (low_of (TQ Y)). Qed.

Lemma QQ q (Y : 'M[K]_(N, q)) : Q *m Y = col_mx (Q1 d *m Y) (Q2 d *m Y).
Proof. by rewrite /Q1 /Q2 -mul_col_mx vsubmxK. Qed.
Lemma TQE q (Y : 'M[K]_(N, q)) : TQ Y = Q1 d *m Y - Phi *m (Q2 d *m Y).
Proof. by rewrite TmE QQ col_mxKu col_mxKd. Qed.

Lemma sol_exists q (Y : 'M[K]_(N, q)) : (nu <= skept s)%N -> g0 *m sol Y = Y + pi *m (- (Pinv *m (Q2 d *m Y))).
Proof.
move=> le; apply: Qinj; rewrite sol_g0 mulmxDr TQE QQ [Q *m (pi *m _)]QQ add_col_mx; congr col_mx.
  by rewrite PhiE !mulmxN [Q1 d *m (pi *m _)]mulmxA -/(eta_wt_1 pi d) !mulmxA.
by rewrite !mulmxN [Q2 d *m (pi *m _)]mulmxA -/(eta_wt pi d) mulmxA existence // mul1mx subrr.
Qed.
Lemma Q2g1 : Q2 d *m g1 = B22 *m dsubmx Zh.
Proof.
move: Qg1; rewrite QQ {1}Bbl -{1}[Zh]vsubmxK /block_mx mul_col_mx !mul_row_col mul0mx add0r.
by move=> /(congr1 dsubmx); rewrite !col_mxKd.
Qed.
Lemma Q2g0 : Q2 d *m g0 = A22 *m dsubmx Zh.
Proof.
move: Qg0; rewrite QQ {1}Abl -{1}[Zh]vsubmxK /block_mx mul_col_mx !mul_row_col mul0mx add0r.
by move=> /(congr1 dsubmx); rewrite !col_mxKd.
Qed.
Lemma sol_pi q (Y : 'M[K]_(ne, q)) : loose_for_rank s s1 = 0 -> sol (pi *m Y) = 0.
Proof.
move=> L; rewrite -sol_mul /sol TQE -/(eta_wt pi d) -/(eta_wt_1 pi d) uniqueness // subrr col_mx0 !mulmx0 mul0mx. done.
Qed.
Lemma sol_unique q (X Y : 'M[K]_(N, q)) : dsubmx (Zh *m X) = 0 -> g0 *m X = Y -> X = sol Y.
Proof.
move=> Z E; have H : G0 *m (Zh *m X) = col_mx (TQ Y) 0.
  rewrite /G_0 mul_col_mx -[T_mat s s1 *m A *m _]mulmxA [A *m _]mulmxA -Qg0 -mulmxA E; congr col_mx.
  by rewrite -[Zh *m X]vsubmxK mul_row_col mul0mx mul1mx add0r Z.
by rewrite /sol -H mulKmx ?G0_unit // mulmxA ZZh mul1mx.
Qed.

(* a stable invariant direction has no unstable component *)
Lemma no_unstable_part q (Y : 'M[K]_(N, q)) (X : 'M[K]_q) :
  stable_mx X -> g0 *m Y *m X = g1 *m Y -> dsubmx (Zh *m Y) = 0.
Proof.
move=> st E; set F := dsubmx _.
have FE : A22 *m (F *m X) = B22 *m F.
  have FZ : F = dsubmx Zh *m Y by rewrite /F -{1}[Zh]vsubmxK mul_col_mx col_mxKd.
  by rewrite FZ !mulmxA -Q2g0 -Q2g1 -!mulmxA [g0 *m _]mulmxA E.
have rows m : forall i : 'I_nu, (nu - i <= m)%N -> row i F = 0.
  elim: m => [|m IH] i; first by rewrite leqn0 subn_eq0 leqNgt ltn_ord.
  move=> le.
  have later (j : 'I_nu) : (i < j)%N -> row j F = 0.
    by move=> ij; apply: IH; rewrite -ltnS; apply: leq_trans le; apply: ltn_sub2l.
  have upr (U : 'M[K]_N) (G : 'M[K]_(nu, q)) : upper U -> (forall j : 'I_nu, (i < j)%N -> row j G = 0) ->
      row i (drsubmx U *m G) = U (rshift ns i) (rshift ns i) *: row i G.
    move=> uU lG; apply/rowP => c; rewrite !mxE (bigD1 i) //= !mxE big1 ?addr0 // => j ji; rewrite !mxE.
    case: (ltngtP i j) => ij.
    - by move/rowP: (lG j ij) => /(_ c); rewrite !mxE => ->; rewrite mulr0.
    - by rewrite uU ?mul0r //= ltn_add2l.
    - by move: ji; rewrite (val_inj ij) eqxx.
  have [Bnz leAB] := unstableP i.
  have Ei : A (rshift ns i) (rshift ns i) *: (row i F *m X) = B (rshift ns i) (rshift ns i) *: row i F.
    rewrite -(upr B F (qz_upB QZok) later) -FE (upr A _ (qz_upA QZok)) ?row_mul //.
    by move=> j ij; rewrite row_mul later // mul0mx.
  apply/eqP/negPn/negP => nz.
  set a := A _ _ in Ei leAB; set b := B _ _ in Ei Bnz leAB.
  have anz : a != 0.
    apply/eqP => a0; move: Ei; rewrite a0 scale0r => /esym /eqP; rewrite scaler_eq0 (negbTE Bnz) /= => z.
    by rewrite z in nz.
  have ev : eigenvalue X (b / a).
    apply/eigenvalueP; exists (row i F) => //.
    by rewrite mulrC -scalerA -Ei scalerA mulVf // scale1r.
  have := st _ ev; rewrite normrM normfV ltr_pdivr_mulr ?normr_gt0 // mul1r => lt.
  by move: (lt_le_trans lt leAB); rewrite ltxx.
by apply/row_matrixP => i; rewrite row0; apply: (rows nu); rewrite leq_subr.
Qed.

(* every eigenvalue of the solution operator applied to g1 is inside the unit circle *)
Lemma sol_stable : stable_mx (sol g1).
Proof.
move=> a /eigenvalueP [v ev nz].
pose w := v *m qZ d.
have wnz : w != 0.
  apply: contraNneq nz => w0; by rewrite -[v]mulmx1 -ZZh mulmxA -/w w0 mul0mx.
pose W := invmx G0 *m col_mx (T_mat s s1 *m B) 0.
have WE : w *m W = a *: w.
  have -> : w *m W = v *m sol g1 *m qZ d.
    rewrite -G1_sol /G_1_complex -/W /w -!mulmxA ZhZ mulmx1. done.
  by rewrite ev -scalemxAl.
have [low AW] := low_of (T_mat s s1 *m B); rewrite -/W in low AW.
have Wb : W = block_mx (ulsubmx W) (ursubmx W) 0 0.
  rewrite -[LHS]submxK -[dlsubmx W]/(lsubmx (dsubmx W)) -[drsubmx W]/(rsubmx (dsubmx W)) low !linear0. done.
set W11 := ulsubmx W in Wb; set W12 := ursubmx W in Wb.
have A11W : A11 *m W11 = B11.
  move: AW; rewrite Wb {1}Abl mulmx_block !mulmx0 !addr0 TmE {1 2}Bbl.
  rewrite /block_mx col_mxKu col_mxKd mul_mx_row mulmx0 opp_row_mx add_row_mx oppr0 addr0.
  by move=> /(congr1 usubmx); rewrite !col_mxKu => /(congr1 lsubmx); rewrite !row_mxKl.
have [w1E w2E] : lsubmx w *m W11 = a *: lsubmx w /\ lsubmx w *m W12 = a *: rsubmx w.
  move: WE; rewrite Wb -{1}[w]hsubmxK mul_row_block !mulmx0 !addr0 => H.
  by split; [move/(congr1 lsubmx): H|move/(congr1 rsubmx): H]; rewrite ?row_mxKl ?row_mxKr linearZ.
rewrite real_ltNge ?normr_real ?real1 //; apply/negP => a1.
have a0 : a != 0 by rewrite -normr_gt0; apply: lt_le_trans a1; exact: ltr01.
pose R := B11 - a *: A11.
have RU : R \in unitmx.
  apply: upper_unit => [i j ij|i]; rewrite !mxE.
    by rewrite (qz_upA QZok) // (qz_upB QZok) // mulr0 subr0.
  have [anz lt] := stableP (first_stable i); rewrite subr_eq0; apply/eqP => e.
  move: lt; rewrite e normrM; apply/negP; rewrite -real_leNgt ?realM ?normr_real //.
  by rewrite ler_pemull.
have z0 : lsubmx w *m invmx A11 = 0.
  rewrite -[LHS](mulmxK RU) /R mulmxBr -scalemxAr -[_ *m invmx A11 *m A11]mulmxA mulVmx ?A11_unit // mulmx1.
  by rewrite -A11W -mulmxA [invmx A11 *m _]mulmxA mulVmx ?A11_unit // mul1mx w1E subrr mul0mx.
have w1 : lsubmx w = 0 by rewrite -[lsubmx w](mulmxKV A11_unit) z0 mul0mx.
have w2 : rsubmx w = 0.
  by move: w2E; rewrite w1 mul0mx => /esym /eqP; rewrite scaler_eq0 (negbTE a0) => /eqP.
by move: wnz; rewrite -[w]hsubmxK w1 w2 row_mx0 eqxx.
Qed.
End Core.
