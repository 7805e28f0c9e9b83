(* Properties C117, C118: the symbolic Blanchard-Kahn check and the gradient of the eigenvalues. *)
From mathcomp Require Import all_ssreflect all_algebra.
From Verif Require Import LA_Spec LA_Model LA_Main LA_GModel LA_GSpec LA_GProofs LA_GMain LA_BModel LA_BProofs LA_BProps LA_EModel LA_EProps.
Import GRing.Theory Num.Theory Order.TTheory.
Set Implicit Arguments.
Unset Strict Implicit.
Unset Printing Implicit Defensive.
Local Open Scope ring_scope.

(* s lists the eigenvalues of M with their multiplicities: what numpy.linalg.eig returns *)
Definition spectrum (K : numClosedFieldType) N (M : 'M[K]_N) (s : seq K) : Prop := char_poly M = \prod_(z <- s) ('X - z%:P).

Section Poly.
Variable K : numClosedFieldType.
Lemma poly_ext (p q : {poly K}) : (forall x, x != 0 -> p.[x] = q.[x]) -> p = q.
Proof.
move=> H; apply/eqP; rewrite -subr_eq0; apply/eqP.
pose rs := [seq (i.+1)%:R : K | i <- iota 0 (size (p - q))].
apply: (roots_geq_poly_eq0 (rs := rs)).
- by apply/allP => x /mapP [i _ ->]; rewrite /root hornerD hornerN H ?subrr // pnatr_eq0.
- by rewrite map_inj_uniq ?iota_uniq // => i j /eqP; rewrite eqr_nat => /eqP [].
- by rewrite size_map size_iota.
Qed.
Lemma spectrum_at N (M : 'M[K]_N) s x : spectrum M s -> \det (x%:M - M) = \prod_(z <- s) (x - z).
Proof.
move=> /(congr1 (fun p => p.[x])); rewrite horner_prod (eq_bigr (fun z => x - z)) => [<-|z _]; last by rewrite !hornerE.
rewrite /char_poly -horner_evalE -det_map_mx; congr (\det _); apply/matrixP => i j; rewrite !mxE /= horner_evalE !hornerE.
by rewrite hornerMn hornerX.
Qed.
Lemma size_spectrum N (M : 'M[K]_N) s : spectrum M s -> size s = N.
Proof. by move=> /(congr1 (fun p : {poly K} => size p)); rewrite size_char_poly size_prod_XsubC => -[]. Qed.
Lemma spectrum_root N (M : 'M[K]_N) s x : spectrum M s -> (x \in s) = (\det (x%:M - M) == 0).
Proof.
move=> S; rewrite (spectrum_at x S) prodf_seq_eq0; apply/idP/hasP => [xs|[z zs /=]]; first by exists x => //=; rewrite subrr.
by rewrite subr_eq0 => /eqP ->.
Qed.
(* det(1 - x M), read backwards *)
Lemma spectrum_pencil N (G0 G1 : 'M[K]_N) s : G0 \in unitmx -> spectrum (invmx G0 *m G1) s ->
  \det (pen G0 G1) = \det G0 *: prodf [seq (1, z) | z <- s].
Proof.
move=> U S; apply: poly_ext => x x0; rewrite hornerZ prodf_at.
have -> : (\det (pen G0 G1)).[x] = \det (G0 - x *: G1).
  rewrite -horner_evalE -det_map_mx; congr (\det _); apply/matrixP => i j; rewrite !mxE /= horner_evalE !hornerE //.
have -> : G0 - x *: G1 = G0 *m (x *: (x^-1%:M - invmx G0 *m G1)).
  rewrite scalerBr scale_scalar_mx divff // mulmxBr mulmx1 -scalemxAr mulKVmx //.
rewrite det_mulmx detZ (spectrum_at x^-1 S); congr (_ * _).
rewrite big_map -{1}(size_spectrum S) /= {S}; elim: s => [|z s IH]; first by rewrite !big_nil expr0 mul1r.
by rewrite !big_cons /= -IH exprS mulrACA mulrBr divff // [x * z]mulrC.
Qed.
Definition outside (p : K * K) := `|p.1| < `|p.2|.
Lemma outside_proj p q : p.2 != 0 -> q.2 != 0 -> p.1 * q.2 = q.1 * p.2 -> outside p = outside q.
Proof.
move=> p2 q2 E; have n2 (x : K) : x != 0 -> 0 < `|x| by rewrite normr_gt0.
rewrite /outside -(ltr_pmul2r (n2 _ q2)) -[RHS](ltr_pmul2r (n2 _ p2)) -!normrM E.
by rewrite [q.2 * _]mulrC.
Qed.
Lemma cnt_spectrum s : cnt outside [seq (1, z) | z <- s] = n_unstable_pt s.
Proof.
rewrite /cnt /n_unstable_pt count_map; apply: eq_count => z /=; rewrite /outside /= normr1.
by case: (boolP (1 < `|z|)) => h //=; rewrite -normr_gt0 (lt_trans ltr01 h).
Qed.
Lemma nz_spectrum s : nz [seq (1 : K, z) | z <- s].
Proof. by apply/allP => p /mapP [z _ ->] /=; rewrite oner_neq0. Qed.
End Poly.

Section C117.
Variables (K : numClosedFieldType) (n : nat) (A B C : 'M[K]_n).

(* the eigenvalues that the check looks at are the roots of the (regularised) pencil of the model *)
Theorem C117_roots l (lead : 'I_l -> 'I_n) eps M s z :
  bk_matrix A B C lead eps = Returned M -> spectrum M s -> (z \in s) = (\det (z *: G0_reg B C lead eps - G1_sel A lead) == 0).
Proof.
rewrite /bk_matrix; case: ifP => // U [<-] S; rewrite (spectrum_root z S).
have -> : z *: G0_reg B C lead eps - G1_sel A lead = G0_reg B C lead eps *m (z%:M - invmx (G0_reg B C lead eps) *m G1_sel A lead).
  by rewrite mulmxBr mul_mx_scalar mulKVmx.
by rewrite det_mulmx mulf_eq0; move: U; rewrite unitmxE unitfE => /negbTE ->.
Qed.

Section Forms.
Variables (l : nat) (lead : 'I_l -> 'I_n) (eps : K).
Lemma sel_l i : sel_idx lead (lshift l i) = lshift n i.
Proof. by rewrite /sel_idx; case: splitP => [j /= e|j /= e]; [congr (lshift _ _); apply: val_inj|move: (ltn_ord i); rewrite e ltnNge leq_addr]. Qed.
Lemma sel_r i : sel_idx lead (rshift n i) = rshift n (lead i).
Proof.
rewrite /sel_idx; case: splitP => [j /= e|j /= e]; first by move: (ltn_ord j); rewrite -e ltnNge leq_addr.
by congr (rshift _ (lead _)); apply: val_inj; apply/eqP; rewrite -(eqn_add2l n) e.
Qed.
Lemma G0_form : G0_reg B C lead eps = block_mx (- B + eps%:M) (- colsub lead C) (rowsub lead 1%:M) eps%:M.
Proof.
apply/matrixP => i j; rewrite /G0_reg mxE mxE mxE [in X in _ + X]mxE.
case: (split_ordP i) => i' ->; case: (split_ordP j) => j' ->; rewrite ?sel_l ?sel_r.
- by rewrite !block_mxEul !mxE eq_lshift.
- by rewrite !block_mxEur !mxE eq_lrshift mulr0n addr0.
- by rewrite !block_mxEdl !mxE eq_rlshift mulr0n addr0 opprK.
- by rewrite !block_mxEdr !mxE eq_rshift oppr0 add0r.
Qed.
Hypothesis inj : injective lead.
Lemma G1_form : G1_sel A lead = block_mx A 0 0 1%:M.
Proof.
apply/matrixP => i j; rewrite /G1_sel mxE.
case: (split_ordP i) => i' ->; case: (split_ordP j) => j' ->; rewrite ?sel_l ?sel_r.
- by rewrite !block_mxEul.
- by rewrite !block_mxEur !mxE.
- by rewrite !block_mxEdl !mxE.
- by rewrite !block_mxEdr !mxE (inj_eq inj).
Qed.
Lemma col_row_leads : (forall j, (forall i, lead i != j) -> col j C = 0) -> colsub lead C *m rowsub lead 1%:M = C.
Proof.
move=> H; apply/matrixP => i j; rewrite mxE.
case: (boolP [exists m, lead m == j]) => [/existsP [m /eqP <-]|/existsPn no].
  rewrite (bigD1 m) //= !mxE eqxx mulr1 big1 ?addr0 // => q nq; rewrite !mxE (inj_eq inj) (negbTE nq) mulr0 //.
have := congr1 (fun Z : 'cV_n => Z i 0) (H j no); rewrite !mxE => ->; rewrite big1 // => q _; by rewrite !mxE (negbTE (no q)) mulr0.
Qed.
End Forms.

(* unlike the table of the numeric check, they include every eigenvalue of every solution with its own sign *)
Theorem C117_solution_roots l (lead : 'I_l -> 'I_n) M s (T : 'M[K]_n) m :
  injective lead -> (forall j, (forall i, lead i != j) -> col j C = 0) ->
  bk_matrix A B C lead 0 = Returned M -> spectrum M s -> solves A B C T -> eigenvalue T m -> m \in s.
Proof.
move=> inj dr bk S so ei; rewrite (C117_roots m bk S).
have dT : \det (T - m%:M) == 0.
  case/eigenvalueP: ei => w0 ew nw; by apply/det0P; exists w0 => //; rewrite mulmxBr ew mul_mx_scalar subrr.
move: dT; rewrite -det_tr => /det0P [u nu0 eu].
have ev : T *m u^T = m *: u^T.
  apply: trmx_inj; apply/eqP; rewrite -subr_eq0; apply/eqP; rewrite -[RHS]eu trmx_mul trmxK linearZ /= trmxK linearB /= mulmxBr tr_scalar_mx.
  by rewrite mul_mx_scalar.
pose v : 'cV[K]_(n + l) := col_mx u^T (rowsub lead (m *: u^T)).
have v0 : v^T != 0.
  apply: contraNneq nu0 => /(congr1 trmx); rewrite trmxK trmx0 /v => /(congr1 usubmx).
  by rewrite col_mxKu => E; rewrite -[u]trmxK E (_ : usubmx 0 = 0) ?trmx0 //; apply/matrixP => i j; rewrite !mxE.
rewrite -det_tr; apply/det0P; exists v^T => //; rewrite -trmx_mul; apply: trmx_inj; rewrite trmxK trmx0.
rewrite G0_form G1_form // (raddf0 (scalar_mx_additive _ _)) (raddf0 (scalar_mx_additive _ _)) addr0.
have CT : colsub lead C *m rowsub lead (m *: u^T) = m *: (C *m u^T).
  rewrite (_ : rowsub lead (m *: u^T) = rowsub lead 1%:M *m (m *: u^T)); last first.
    apply/matrixP => i j; rewrite !mxE (bigD1 (lead i)) //= !mxE eqxx mul1r big1 ?addr0 // => q nq; rewrite !mxE eq_sym (negbTE nq) mul0r //.
  by rewrite mulmxA col_row_leads // -scalemxAr.
rewrite /v mulmxBl -scalemxAl !mul_block_col !mul0mx !mul1mx !addr0 add0r scale_col_mx opp_col_mx add_col_mx.
rewrite -[RHS]col_mx0; congr col_mx; last first.
  apply/matrixP => i j; rewrite !mxE (bigD1 (lead i)) //= !mxE eqxx mul1r big1 ?addr0 ?subrr // => q nq; rewrite !mxE eq_sym (negbTE nq) mul0r //.
rewrite !mulNmx CT -opprD scalerN -opprD; apply/eqP; rewrite oppr_eq0; apply/eqP.
have := congr1 (fun Z => Z *m u^T) so; rewrite mul0mx !mulmxDl -!mulmxA ev -!scalemxAr ev -scalemxAr => Z.
by rewrite -[RHS]Z addrC scalerDr addrA.
Qed.

(* any two lists of roots of proportional pencils have equally many outside the unit circle *)
Lemma spectrum_count N (G0 G1 : 'M[K]_N) s (ps : seq (K * K)) c : G0 \in unitmx -> spectrum (invmx G0 *m G1) s -> nz ps -> c != 0 ->
  \det (pen G0 G1) = c *: prodf ps -> n_unstable_pt s = cnt (@outside K) ps.
Proof.
move=> U S z c0 E; rewrite -cnt_spectrum; have d0 : \det G0 != 0 by move: U; rewrite unitmxE unitfE.
apply: (count_same (@outside_proj K) (nz_spectrum s) z (c := (\det G0)^-1 * c)).
  by rewrite mulf_neq0 ?invr_eq0.
by rewrite -scalerA -E (spectrum_pencil U S) scalerA mulVf // scale1r.
Qed.

(* without the regularisation, and with the leads that the numbers show, the count is the one of the numeric check, away from the
   unit circle *)
Theorem C117_counts_agree tol AA BB U V M s : 0 < tol ->
  @ordqz_contract K n A B C tol AA BB U V -> clear AA BB ->
  bk_matrix A B C (@lead_var_idx K n C tol) 0 = Returned M -> spectrum M s -> n_unstable_pt s = n_unstable AA BB.
Proof.
move=> t0 O cl; rewrite /bk_matrix; case: ifP => // Ug [<-] S.
have e0 : G0_reg B C (@lead_var_idx K n C tol) 0 = U *m - AA *m ct V.
  by rewrite /G0_reg (raddf0 (scalar_mx_additive _ _)) addr0 mulmxN mulNmx -(oq_A O) opprK.
have e1 : G1_sel A (@lead_var_idx K n C tol) = U *m BB *m ct V by rewrite -(oq_B O).
have upN : upper (- AA) by move=> i j ij; rewrite mxE (oq_upA O) ?oppr0.
have dn (X : 'M[K]_(n + n_leads C tol)) : ct X *m X = 1%:M -> \det X != 0 /\ \det (ct X) != 0.
  by move=> H; have [a b] := mulmx1_unit H; move: a b; rewrite !unitmxE !unitfE.
have [uU _] := dn _ (oq_U O); have [_ uV] := dn _ (oq_V O).
have z : nz (pairs (- AA) BB).
  apply/allP => p /mapP [i _ ->] /=; rewrite mxE oppr_eq0 -negb_and; apply/negP => /andP [/eqP a /eqP b].
  by have [_ [] h] := cl i; move: h; rewrite a b normr0 add0r (lt_gtF t0).
have c0 : \det U * \det (ct V) != 0 by rewrite mulf_neq0.
rewrite (spectrum_count Ug S z c0); last first.
  by rewrite e0 e1 pen_mul !det_mulmx !det_map_mx (det_upper upN (oq_upB O)) -mul_polyC polyCM mulrAC.
rewrite /cnt /pairs /n_unstable /bk_eigenvalues !count_map; apply: eq_count => i.
have [a0 cl'] := cl i; rewrite /= /eigenvalue_at (negbTE a0) /= /outside /= mxE normrN normrM normfV ltr_pdivl_mulr ?normr_gt0 // mul1r.
case: cl' => h.
  have ba : `|BB i i| < `|AA i i| by apply: le_lt_trans h; rewrite ler_addl (ltW t0).
  rewrite (lt_gtF ba) /=; apply/esym/negbTE; apply/negP => h2.
  have := ler_norm_sub (AA i i + tol) tol; rewrite addrK (ger0_norm (ltW t0)) => h3.
  have := lt_le_trans h h3; rewrite ltr_add2r => h4; by have := lt_trans h2 h4; rewrite ltxx.
have ab : `|AA i i| < `|BB i i| by apply: le_lt_trans h; rewrite ler_addl (ltW t0).
have b0 : BB i i != 0 by rewrite -normr_gt0; apply: le_lt_trans ab.
rewrite ab b0; apply/esym; apply: le_lt_trans h; apply: le_trans (ler_norm_add _ _) _; by rewrite (ger0_norm (ltW t0)).
Qed.

(* a variable written at t+1 whose lead drops out at the parameters (its column of C is zero) changes the two counts by one
   each, hence not the verdict: the leads may be read off the equations instead of the numbers *)
Definition one_more l (lead : 'I_l -> 'I_n) (j : 'I_n) (i : 'I_(l + 1)) : 'I_n := match split i with inl a => lead a | inr _ => j end.
Section OneMore.
Variables (l : nat) (lead : 'I_l -> 'I_n) (j : 'I_n) (eps : K).
Hypothesis fresh : forall i, lead i != j.
Hypothesis colj : col j C = 0.
Let e : (n + (l + 1))%N = (n + l + 1)%N := addnA n l 1%N.
Lemma sel_old i : sel_idx (one_more lead j) (cast_ord (esym e) (lshift 1 i)) = sel_idx lead i.
Proof.
case: (split_ordP i) => i' ->.
  have -> : cast_ord (esym e) (lshift 1 (lshift l i')) = lshift (l + 1) i' by apply: val_inj.
  by rewrite !sel_l.
have -> : cast_ord (esym e) (lshift 1 (rshift n i')) = rshift n (lshift 1 i') by apply: val_inj.
rewrite !sel_r /one_more; case: splitP => a /= h; last by move: (ltn_ord i'); rewrite h ltnNge leq_addr.
by congr (rshift _ (lead _)); apply: val_inj.
Qed.
Lemma sel_new o : sel_idx (one_more lead j) (cast_ord (esym e) (rshift (n + l) o)) = rshift n j.
Proof.
have -> : cast_ord (esym e) (rshift (n + l) o) = rshift n (rshift l o) by apply: val_inj; rewrite /= addnA.
by rewrite sel_r /one_more; case: splitP => a /= h //; move: (ltn_ord a); rewrite -h ltnNge leq_addr.
Qed.
Lemma G0E l' (f : 'I_l' -> 'I_n) a b :
  G0_reg B C f eps a b = - (block_mx B C (- 1%:M) 0 (sel_idx f a) (sel_idx f b)) + eps *+ (a == b).
Proof. by rewrite /G0_reg mxE mxE mxE [eps%:M a b]mxE. Qed.
Lemma G0_more : exists r, castmx (e, e) (G0_reg B C (one_more lead j) eps) = block_mx (G0_reg B C lead eps) 0 r eps%:M.
Proof.
exists (dlsubmx (castmx (e, e) (G0_reg B C (one_more lead j) eps))); rewrite -[LHS]submxK.
have cz i : C i j = 0 by have := congr1 (fun Z : 'cV_n => Z i 0) colj; rewrite !mxE.
have cast (x y : 'I_(n + l + 1)) : (cast_ord (esym e) x == cast_ord (esym e) y) = (x == y) by rewrite (inj_eq (@cast_ord_inj _ _ _)).
congr block_mx; apply/matrixP => a b; rewrite 2![LHS]mxE castmxE /= G0E ?sel_old ?sel_new cast.
- by rewrite G0E eq_lshift.
- rewrite eq_lrshift mulr0n addr0 [RHS]mxE.
  by case: (split_ordP a) => a' ->; rewrite ?sel_l ?sel_r ?block_mxEur ?block_mxEdr ?cz ?mxE oppr0.
- by rewrite block_mxEdr !mxE eq_rshift oppr0 add0r.
Qed.
Lemma G1_more : castmx (e, e) (G1_sel A (one_more lead j)) = block_mx (G1_sel A lead) 0 0 1%:M.
Proof.
rewrite -[LHS]submxK; congr block_mx; apply/matrixP => a b; rewrite 2![LHS]mxE castmxE /= /G1_sel [LHS]mxE ?sel_old ?sel_new.
- by rewrite [RHS]mxE.
- by case: (split_ordP a) => a' ->; rewrite ?sel_l ?sel_r ?block_mxEur ?block_mxEdr !mxE ?(negbTE (fresh _)).
- by case: (split_ordP b) => b' ->; rewrite ?sel_l ?sel_r ?block_mxEdl ?block_mxEdr !mxE ?[j == _]eq_sym ?(negbTE (fresh _)).
- by rewrite block_mxEdr !mxE !ord1 !eqxx.
Qed.
End OneMore.
Lemma det_cast N N' (h : N = N') (R : comRingType) (X : 'M[R]_N) : \det (castmx (h, h) X) = \det X.
Proof. by case: N' / h. Qed.
Lemma pen_cast N N' (h : N = N') (X Y : 'M[K]_N) : pen (castmx (h, h) X) (castmx (h, h) Y) = castmx (h, h) (pen X Y).
Proof. by case: N' / h. Qed.
Theorem C117_superfluous_lead l (lead : 'I_l -> 'I_n) j eps M M' s s' : 0 < eps -> eps < 1 ->
  (forall i, lead i != j) -> col j C = 0 ->
  bk_matrix A B C lead eps = Returned M -> spectrum M s ->
  bk_matrix A B C (one_more lead j) eps = Returned M' -> spectrum M' s' ->
  n_unstable_pt s' = (n_unstable_pt s).+1 /\ bk_satisfied (l + 1) s' = bk_satisfied l s.
Proof.
move=> e0 e1 fr cj; rewrite /bk_matrix; case: ifP => // U [<-] S; case: ifP => // U' [<-] S'.
suff E : n_unstable_pt s' = (n_unstable_pt s).+1 by split=> //; rewrite /bk_satisfied E addn1 eqSS.
pose ps := (eps, 1) :: [seq (1 : K, z) | z <- s].
have z : nz ps by rewrite /= oner_neq0 orbT nz_spectrum.
have d0 : \det (G0_reg B C lead eps) != 0 by move: U; rewrite unitmxE unitfE.
rewrite (spectrum_count U' S' z d0).
  by rewrite /cnt /= -/(cnt _ _) cnt_spectrum /outside /= normr1 ger0_norm ?(ltW e0) // e1 oner_neq0.
have [r G0e] := G0_more lead eps cj; have G1e := G1_more fr.
rewrite -(det_cast (addnA n l 1%N)) -pen_cast G0e G1e.
have -> : pen (block_mx (G0_reg B C lead eps) 0 r eps%:M) (block_mx (G1_sel A lead) 0 0 1%:M) =
          block_mx (pen (G0_reg B C lead eps) (G1_sel A lead)) 0 (map_mx polyC r) (fac (eps, 1))%:M.
  rewrite /pen !map_block_mx scale_block_mx opp_block_mx add_block_mx !map_mx0 !scaler0 subr0 oppr0 addr0; congr block_mx.
  by rewrite !map_scalar_mx /= scale_scalar_mx -raddfB /= /fac /= polyC1 mulr1 scale1r.
by rewrite det_lblock (spectrum_pencil U S) det_scalar1 /ps /prodf big_cons -scalerAl mulrC.
Qed.
End C117.

(* ---------- C118 ---------- *)
Section C118.
Variables (K : numClosedFieldType) (n : nat) (A V dA dV : 'M[K]_n) (lambda dlambda g_real g_imag : 'rV[K]_n).
Definition real_mx m p (X : 'M[K]_(m, p)) : Prop := forall i j, X i j \is Num.real.
(* V holds the eigenvectors in the order in which the eigenvalues are returned; (dA, dV, dlambda) is a first-order change of
   the decomposition A V = V diag(lambda) *)
Hypothesis vectors : V \in unitmx.
Hypothesis eigen : A *m V = V *m diag_mx lambda.
Hypothesis first_order : dA *m V + A *m dV = dV *m diag_mx lambda + V *m diag_mx dlambda.
Hypothesis real_dA : real_mx dA.
Hypothesis real_g : real_mx g_real /\ real_mx g_imag.
(* the gradient returned pairs with a real change of the matrix to give the change of the two outputs *)
Theorem C118_gradient :
  \sum_i \sum_j eig_pullback V g_real g_imag i j * dA i j =
  \sum_i (g_real 0 i * 'Re (dlambda 0 i) + g_imag 0 i * 'Im (dlambda 0 i)).
Proof.
have W : invmx V *m dA *m V = diag_mx dlambda + (invmx V *m dV *m diag_mx lambda - diag_mx lambda *m (invmx V *m dV)).
  have H : invmx V *m (dA *m V + A *m dV) = invmx V *m (dV *m diag_mx lambda + V *m diag_mx dlambda) by rewrite first_order.
  have L : invmx V *m A = diag_mx lambda *m invmx V.
    by apply: (can_inj (mulmxK vectors)); rewrite -!mulmxA eigen mulVmx // mulmx1 mulKmx.
  rewrite !mulmxDr !mulmxA L mulVmx // mul1mx in H.
  have -> : invmx V *m dA *m V = invmx V *m dV *m diag_mx lambda + diag_mx dlambda - diag_mx lambda *m invmx V *m dV by rewrite -H addrK.
  by rewrite [_ + diag_mx dlambda]addrC -addrA !mulmxA.
have Wd i : (invmx V *m dA *m V) i i = dlambda 0 i.
  by rewrite W mul_mx_diag mul_diag_mx !mxE eqxx mulr1n [lambda 0 i * _]mulrC subrr addr0.
pose g := g_real - 'i *: g_imag; pose P := (invmx V)^T *m diag_mx g *m V^T.
have -> : \sum_i \sum_j eig_pullback V g_real g_imag i j * dA i j = 'Re (\sum_i \sum_j P i j * dA i j).
  rewrite raddf_sum; apply: eq_bigr => i _; rewrite raddf_sum; apply: eq_bigr => j _.
  by rewrite [RHS](ReMr (real_dA i j)) /eig_pullback mxE.
have -> : \sum_i \sum_j P i j * dA i j = \tr (P^T *m dA).
  rewrite /mxtrace exchange_big /=; apply: eq_bigr => j _; rewrite [RHS]mxE; apply: eq_bigr => i _; by rewrite [P^T j i]mxE.
have -> : P^T = V *m diag_mx g *m invmx V by rewrite /P !trmx_mul !trmxK tr_diag_mx mulmxA.
have -> : V *m diag_mx g *m invmx V *m dA = V *m (diag_mx g *m (invmx V *m dA)) by rewrite !mulmxA.
rewrite mxtrace_mulC -mulmxA /mxtrace raddf_sum; apply: eq_bigr => i _.
rewrite mul_diag_mx mxE Wd /g.
by case: real_g => rr ri; rewrite !mxE mulrBl raddfB /= (ReMl (rr 0 i)) -mulrA ReMil (ImMl (ri 0 i)) opprK.
Qed.
End C118.

(* the hypotheses are met.  C118: a diagonal matrix with distinct entries and an off-diagonal change; C117: x(t) = 2 x(t-1) with
   the lead of x multiplied by a parameter that is zero *)
Theorem C118_case (K : numClosedFieldType) :
  exists (V dA dV : 'M[K]_2) (lambda dlambda : 'rV[K]_2),
    [/\ V \in unitmx, diag_mx lambda *m V = V *m diag_mx lambda, real_mx dA, dA *m V + diag_mx lambda *m dV = dV *m diag_mx lambda + V *m diag_mx dlambda
      & dA != 0 /\ dlambda != 0].
Proof.
exists 1%:M, (const_mx 1), (\matrix_(i, j) if i == j then 0 else if i == 0 then 1 else -1), (\row_j if j == 0 then 1 else 2%:R), (const_mx 1).
split; rewrite ?unitmx1 ?mulmx1 ?mul1mx //.
- by move=> i j; rewrite mxE real1.
- have d (x : K) : x + x = 2%:R * x by rewrite mulr_natl mulr2n.
  rewrite mul_mx_diag mul_diag_mx; apply/matrixP; apply: ord2_ind; apply: ord2_ind; rewrite !mxE /= ?mulr0n ?mulr1n ?mulr0 ?mul0r ?mulr1 ?mul1r ?addr0 ?add0r //.
  by rewrite mulrN1 mulr2n opprD addrA subrr add0r.
- by split; apply/eqP => /matrixP /(_ 0 0); rewrite !mxE => /eqP; rewrite oner_eq0.
Qed.
Theorem C117_case (K : numClosedFieldType) (eps : K) : 0 < eps -> eps < 1 ->
  let A : 'M[K]_1 := (- 2%:R)%:M in let C : 'M[K]_1 := 0 in let lead : 'I_0 -> 'I_1 := fun i => 0 in
  exists M M' s s', [/\ bk_matrix A 1%:M C lead eps = Returned M, spectrum M s, bk_matrix A 1%:M C (one_more lead 0) eps = Returned M', spectrum M' s'
                     & n_unstable_pt s = 1%N /\ bk_satisfied 0 s = false].
Proof.
move=> e0 e1 A C lead.
have ue : - 1 + eps != 0 :> K by rewrite addrC subr_eq0 lt_eqF.
have csub l (f : 'I_l -> 'I_1) : - colsub f C = 0 by apply/matrixP => i j; rewrite !mxE oppr0.
have U l (f : 'I_l -> 'I_1) : G0_reg 1%:M C f eps \in unitmx.
  rewrite G0_form csub unitmxE det_lblock -raddfN -raddfD det_scalar1 det_scalar unitfE mulf_neq0 ?expf_neq0 //; by rewrite gt_eqF.
have E l (f : 'I_l -> 'I_1) : exists s, spectrum (invmx (G0_reg 1%:M C f eps) *m G1_sel A f) s.
  have [s es] := closed_field_poly_normal (char_poly (invmx (G0_reg 1%:M C f eps) *m G1_sel A f)); exists s.
  by rewrite /spectrum {1}es (monicP (char_poly_monic _)) scale1r.
have B l (f : 'I_l -> 'I_1) : bk_matrix A 1%:M C f eps = Returned (invmx (G0_reg 1%:M C f eps) *m G1_sel A f) by rewrite /bk_matrix U.
have [s S] := E _ lead; have [s' S'] := E _ (one_more lead 0).
exists (invmx (G0_reg 1%:M C lead eps) *m G1_sel A lead), (invmx (G0_reg 1%:M C (one_more lead 0) eps) *m G1_sel A (one_more lead 0)), s, s'.
suff n1 : n_unstable_pt s = 1%N by split=> //; rewrite /bk_satisfied n1.
have := size_spectrum S; case: s S => [|z [|]] // S _.
have : z \in [:: z] by rewrite inE.
rewrite (C117_roots z (B _ lead) S) G0_form csub G1_form; last by case.
rewrite scale_block_mx opp_block_mx add_block_mx !scaler0 subr0 det_lblock [X in _ * X](_ : _ = 1); last by rewrite det_mx00.
rewrite mulr1 -raddfN -raddfD scale_scalar_mx -raddfB det_scalar1 /= opprK addr_eq0 => /eqP E2.
rewrite /n_unstable_pt /= addn0; suff -> : 1 < `|z| by [].
have n0 : 0 < `|- 1 + eps| by rewrite normr_gt0.
rewrite -(ltr_pmul2r n0) mul1r -normrM E2 normrN normr_nat addrC distrC ger0_norm ?subr_ge0 ?(ltW e1) //.
by apply: (@lt_le_trans _ _ 1); rewrite ?gtr_addl ?oppr_lt0 // ler1n.
Qed.
