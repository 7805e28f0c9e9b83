(* Lemmas: counting generalised eigenvalues. *)
From mathcomp Require Import all_ssreflect all_algebra.
From Verif Require Import LA_Spec LA_Model LA_Main LA_GModel LA_GSpec LA_GProofs LA_GMain LA_BModel.
Import GRing.Theory Num.Theory Order.TTheory.
Set Implicit Arguments.
Unset Strict Implicit.
Unset Printing Implicit Defensive.
Local Open Scope ring_scope.

Section Count.
Variable K : fieldType.
Implicit Types (s t : seq (K * K)).
Definition fac (p : K * K) : {poly K} := p.1%:P - p.2 *: 'X.
Definition prodf s : {poly K} := \prod_(p <- s) fac p.
Variable P : pred (K * K).
Definition cnt s := count [pred p | P p && (p.2 != 0)] s.
Hypothesis Pproj : forall p q, p.2 != 0 -> q.2 != 0 -> p.1 * q.2 = q.1 * p.2 -> P p = P q.
Definition nz s := all [pred p : K * K | (p.1 != 0) || (p.2 != 0)] s.
Lemma fac_at p x : (fac p).[x] = p.1 - p.2 * x.
Proof. by rewrite /fac !hornerE. Qed.
Lemma prodf_at s x : (prodf s).[x] = \prod_(p <- s) (p.1 - p.2 * x).
Proof. by rewrite /prodf horner_prod; apply: eq_bigr => p _; rewrite fac_at. Qed.
Lemma fac_neq0 p : (p.1 != 0) || (p.2 != 0) -> fac p != 0.
Proof.
move=> H; apply/eqP => E.
have e x : p.1 - p.2 * x = 0 by rewrite -fac_at E horner0.
have e1 : p.1 = 0 by rewrite -(e 0) mulr0 subr0.
have e2 : p.2 = 0 by apply: oppr_inj; rewrite oppr0 -(e 1) e1 mulr1 sub0r.
by move: H; rewrite e1 e2 eqxx.
Qed.
Lemma find_root t r : nz t -> (prodf t).[r] = 0 -> exists q, [/\ q \in t, q.2 != 0 & q.1 = q.2 * r].
Proof.
move=> N; rewrite prodf_at => /eqP; rewrite prodf_seq_eq0 => /hasP [q qt /= z]; exists q.
have e : q.1 = q.2 * r by apply/eqP; rewrite -subr_eq0.
split=> //; apply/eqP => z2; move/allP: N => /(_ q qt) /=; by rewrite e z2 mul0r eqxx.
Qed.
Lemma count_same s : forall t c, nz s -> nz t -> c != 0 -> prodf s = c *: prodf t -> cnt s = cnt t.
Proof.
elim: s => [|p s IH] t c.
  move=> _ nt c0; rewrite /prodf big_nil => E; apply/esym/eqP; rewrite -leqn0 leqNgt -has_count; apply/hasP => -[q qt /= /andP [_ q2]].
  have : (1 : {poly K}).[q.1 / q.2] = 0.
    rewrite E hornerZ -/(prodf t) prodf_at (_ : \prod_(_ <- t) _ = 0) ?mulr0 //.
    by apply/eqP; rewrite prodf_seq_eq0; apply/hasP; exists q => //=; rewrite mulrC divfK ?subrr.
  by rewrite hornerC => /eqP; rewrite oner_eq0.
move=> /andP [np ns] nt c0; rewrite {1}/prodf big_cons -/(prodf s) => E.
case: (boolP (p.2 == 0)) => [z2|p2].
  have p1 : p.1 != 0 by move: np; rewrite /= z2 orbF.
  have -> : cnt (p :: s) = cnt s by rewrite /cnt /= z2 andbF.
  apply: (IH _ (c / p.1)) => //.
    by rewrite mulf_neq0 ?invr_eq0.
  move: E; rewrite /fac (eqP z2) scale0r subr0 mul_polyC => E.
  by rewrite mulrC -scalerA -E scalerA mulVf // scale1r.
have R : (prodf t).[p.1 / p.2] = 0.
  have : (fac p * prodf s).[p.1 / p.2] = 0 by rewrite hornerM fac_at [p.2 * _]mulrC divfK // subrr mul0r.
  by rewrite E hornerZ => /eqP; rewrite mulf_eq0 (negbTE c0) => /eqP.
have [q [qt q2 q1]] := find_root nt R.
have pt := perm_to_rem qt.
have -> : cnt t = cnt (q :: rem q t) by rewrite /cnt; apply/permP.
have Pq : P p = P q by apply: Pproj => //; rewrite q1 -mulrA divfK // mulrC.
rewrite /cnt /= Pq p2 q2; congr (_ + _)%N; apply: (IH _ (c * (q.2 / p.2))) => //.
- by move: nt; rewrite /nz (perm_all _ pt) /= => /andP [].
- by rewrite !mulf_neq0 ?invr_eq0.
have fq : fac q = (q.2 / p.2) *: fac p.
  rewrite /fac q1 scalerBr scalerA divfK //; congr (_ - _); rewrite -mul_polyC -polyCM; congr (_%:P).
  by rewrite mulrA mulrAC.
move: E; rewrite [prodf t](perm_big _ pt) /= big_cons fq -/(prodf _) => E.
by apply: (mulfI (fac_neq0 np)); rewrite E -scalerAl -scalerAr scalerA.
Qed.
End Count.

Section Pencil.
Variable K : numClosedFieldType.
Definition pen N (X Y : 'M[K]_N) : 'M[{poly K}]_N := map_mx polyC X - 'X *: map_mx polyC Y.
Definition pairs N (X Y : 'M[K]_N) : seq (K * K) := [seq (X i i, Y i i) | i <- enum 'I_N].
Lemma pen_mul N (U X Y V : 'M[K]_N) : pen (U *m X *m V) (U *m Y *m V) = map_mx polyC U *m pen X Y *m map_mx polyC V.
Proof. by rewrite /pen !map_mxM mulmxBr mulmxBl -!scalemxAr -scalemxAl. Qed.
Lemma det_upper N (X Y : 'M[K]_N) : upper X -> upper Y -> \det (pen X Y) = prodf (pairs X Y).
Proof.
move=> ux uy; rewrite -det_tr det_trig.
  rewrite /prodf /pairs big_map big_enum; apply: eq_bigr => i _; rewrite !mxE /fac /=.
  by rewrite -mul_polyC commr_polyX.
by apply/is_trig_mxP => i j ij; rewrite !mxE (ux _ _ ij) (uy _ _ ij) mulr0 subrr.
Qed.
Definition inside (p : K * K) := `|p.1| <= `|p.2|.
Lemma inside_proj p q : p.2 != 0 -> q.2 != 0 -> p.1 * q.2 = q.1 * p.2 -> inside p = inside q.
Proof.
move=> p2 q2 E; have n2 (x : K) : x != 0 -> 0 < `|x| by rewrite normr_gt0.
rewrite /inside -(ler_pmul2r (n2 _ q2)) -[RHS](ler_pmul2r (n2 _ p2)) -!normrM E.
by rewrite [q.2 * _]mulrC.
Qed.
(* two triangular forms of equivalent pencils have the same number of roots inside *)
Lemma equivalent_count N (X Y X' Y' U V U' V' : 'M[K]_N) :
  upper X -> upper Y -> upper X' -> upper Y' ->
  U *m X *m V = U' *m X' *m V' -> U *m Y *m V = U' *m Y' *m V' ->
  U \in unitmx -> V \in unitmx -> U' \in unitmx -> V' \in unitmx -> nz (pairs X Y) ->
  nz (pairs X' Y') /\ cnt inside (pairs X Y) = cnt inside (pairs X' Y').
Proof.
move=> ux uy ux' uy' e1 e2 u v u' v' z.
have E : (\det U * \det V) *: prodf (pairs X Y) = (\det U' * \det V') *: prodf (pairs X' Y').
  rewrite -!det_upper //; have := congr1 determinant (pen_mul U X Y V); rewrite e1 e2 pen_mul !det_mulmx !det_map_mx.
  move=> D; rewrite -!mul_polyC !polyCM; move: D; rewrite mulrAC => ->; by rewrite mulrAC.
have d0 (M : 'M[K]_N) : M \in unitmx -> \det M != 0 by rewrite unitmxE unitfE.
have p0 : prodf (pairs X Y) != 0.
  rewrite /prodf; elim: (pairs X Y) z => [|p s IH] /=; first by rewrite big_nil oner_neq0.
  by case/andP => zp zs; rewrite big_cons mulf_neq0 ?IH // fac_neq0.
have z' : nz (pairs X' Y').
  apply/allP => p ps /=; rewrite -negb_and; apply/negP => /andP [/eqP a /eqP b].
  move: E; rewrite [prodf (pairs X' Y')](_ : _ = 0).
    by move/eqP; rewrite scaler0 scaler_eq0 (negbTE p0) orbF mulf_eq0 !(negbTE (d0 _ _)).
  by apply/eqP; rewrite /prodf prodf_seq_eq0; apply/hasP; exists p => //=; rewrite /fac a b scale0r subrr.
split=> //; apply: (count_same inside_proj z z' (c := (\det U * \det V)^-1 * (\det U' * \det V'))).
  by rewrite !mulf_neq0 ?invr_eq0 ?mulf_neq0 ?d0.
by rewrite -scalerA -E scalerA mulVf ?scale1r // mulf_neq0 ?d0.
Qed.
End Pencil.

Section Codes.
Variable K : numClosedFieldType.
(* the codes (1, 1) pin the number of unstable roots down *)
Lemma codes_count N ne (g0 g1 : 'M[K]_N) (pi : 'M[K]_(N, ne)) rs d ns nu (e : (ns + nu)%N = N) s s1 :
  0 < rs -> qz_contract rs g0 g1 d ns -> svd_contract rs (svd_input pi d e) s -> svd_contract rs (svd_input_1 pi d e) s1 ->
  \rank pi = ne -> (nu <= skept s)%N -> loose_for_rank s s1 = 0 -> nu = ne.
Proof.
move=> rs0 Qz; case: N / e g0 g1 pi d Qz => g0 g1 pi d Qz /= S2 S1 rk le L; apply/eqP; rewrite eqn_leq; apply/andP; split.
  apply: leq_trans le _; rewrite -(mxrank1 K (skept s)) -(svd_v S2).
  apply: leq_trans (mxrankM_maxr _ _) _; exact: rank_leq_row.
have E : pi = qQ d *m col_mx (ct (inner_term s s1)) 1%:M *m eta_wt pi d.
  rewrite -mulmxA mul_col_mx mul1mx (uniqueness rs0 S2 S1 L).
  have -> : col_mx (eta_wt_1 pi d) (eta_wt pi d) = Qm d *m pi by rewrite [RHS]QQ.
  by rewrite mulmxA (VQ Qz) mul1mx.
rewrite -{1}rk E; apply: leq_trans (mxrankM_maxr _ _) _; exact: rank_leq_row.
Qed.
Lemma inside_unstable (rs a b : K) : 0 < rs -> ~~ coincident rs a b ->
  (inside (a, b) && (b != 0)) = ~~ is_stable rs a b.
Proof.
move=> rs0; have rr : rs \is Num.real by rewrite realE (ltW rs0).
have nr (x : K) : `|x| \is Num.real by exact: normr_real.
rewrite /inside /is_stable /coincident /=.
case: (boolP (`|b| < rs)) => B.
  rewrite andbT -real_leNgt // => ra; rewrite ra /=; apply/negbTE; rewrite negb_and; apply/orP; left; apply/negP => ab.
  by have := le_lt_trans (le_trans ra ab) B; rewrite ltxx.
rewrite -real_leNgt // in B; rewrite andbF /= B /= => _.
have -> : b != 0 by rewrite -normr_gt0; apply: lt_le_trans B.
by rewrite andbT real_leNgt.
Qed.
Lemma cnt_pairs N (X Y : 'M[K]_N) : cnt (@inside K) (pairs X Y) = #|[pred i | inside (X i i, Y i i) && (Y i i != 0)]|.
Proof. by rewrite /cnt /pairs count_map -size_filter cardE /enum_mem; congr size; rewrite -filter_predI; apply: eq_filter => i; rewrite /= ?andbT. Qed.
Lemma gensys_count N (g0 g1 : 'M[K]_N) rs d ns nu (e : (ns + nu)%N = N) :
  0 < rs -> qz_contract rs g0 g1 d ns -> ~~ [exists i, coincident rs (qalpha d i) (qbeta d i)] ->
  nz (pairs (qA d) (qB d)) /\ cnt (@inside K) (pairs (qA d) (qB d)) = nu.
Proof.
move=> rs0 Qz /existsPn nc.
have {}nc i : ~~ coincident rs (qA d i i) (qB d i i) by rewrite -(qz_alpha Qz) -(qz_beta Qz) nc.
split.
  apply/allP => p /mapP [i _ ->] /=; rewrite -negb_and; apply/negP => /andP [/eqP a /eqP b]; move: (nc i).
  by rewrite /coincident a b normr0 rs0.
rewrite cnt_pairs (eq_card (B := [pred i : 'I_N | (ns <= i)%N])); last first.
  by move=> i; rewrite !inE (inside_unstable rs0 (nc i)) -(qz_alpha Qz) -(qz_beta Qz) (qz_sorted Qz) -leqNgt.
case: N / e g0 g1 d Qz nc => *; rewrite -[RHS]card_ord -(card_imset _ (@rshift_inj ns nu)); apply: eq_card => i.
rewrite !inE; apply/idP/imsetP => [le|[j _ ->]]; last by rewrite leq_addr.
by case: (splitP i) le => j E; rewrite ?E; [rewrite leqNgt ltn_ord|exists j => //; apply: val_inj].
Qed.
End Codes.
