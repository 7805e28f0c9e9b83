(* The statements: gensys on concrete systems, and its constant term. *)
From mathcomp Require Import all_ssreflect all_algebra.
From Verif Require Import LA_Spec LA_Model LA_Props LA_Props2 LA_GModel LA_GSpec LA_GProofs LA_GMain LA_GProps.
Import GRing.Theory Num.Theory Order.TTheory.
Set Implicit Arguments.
Unset Strict Implicit.
Unset Printing Implicit Defensive.
Local Open Scope ring_scope.

Section Case.
Variable K : numClosedFieldType.
Notation r := (ratr : rat -> K).
Definition qm (a b c d : rat) : 'M[K]_(1 + 1) := map_mx r (m22 a b c d).
Lemma qmM a b c d a' b' c' d' : qm a b c d *m qm a' b' c' d' = map_mx r (m22 a b c d *m m22 a' b' c' d').
Proof. by rewrite /qm map_mxM. Qed.
Lemma conj_r q : conjC (r q) = r q. Proof. exact: fmorph_rat. Qed.
Lemma ct_r m p (X : 'M[rat]_(m, p)) : ct (map_mx r X) = map_mx r X^T.
Proof. by apply/matrixP => i j; rewrite !mxE conj_r. Qed.
Lemma m22T (F : ringType) (a b c d : F) : (m22 a b c d)^T = m22 a c b d.
Proof. by apply: m22_ext; rewrite !mxE. Qed.
Lemma ct_qm a b c d : ct (qm a b c d) = qm a c b d. Proof. by rewrite /qm ct_r m22T. Qed.
Lemma norm_r q : `|r q| = r `|q|.
Proof.
case: (lerP 0 q) => h; first by rewrite (ger0_norm h) ger0_norm ?ler0q.
by rewrite (ltr0_norm h) ltr0_norm ?ltrq0 // rmorphN.
Qed.
Lemma ltr_r p q : (r p < r q) = (p < q). Proof. exact: ltr_rat. Qed.
Definition tol : K := r (1 / 10%:R).
Definition A1 : 'M[K]_1 := 1%:M.
Definition B1 : 'M[K]_1 := (r (- (11%:R / 6%:R)))%:M.
Definition C1 : 'M[K]_1 := (r (2%:R / 3%:R))%:M.
Definition Q45 : 'M[K]_(1 + 1) := qm (4%:R / 5%:R) (- (3%:R / 5%:R)) (3%:R / 5%:R) (4%:R / 5%:R).
Definition TA : 'M[K]_(1 + 1) := qm (4%:R / 3%:R) (- (5%:R / 3%:R)) 0 (1 / 2%:R).
Definition d45 : qz K (1 + 1) := QZ TA 1%:M (fun i => TA i i) (fun _ => 1) Q45 Q45.
Definition svd1 (v : rat) : svd K 1 1 := @SVD K 1 1 1 1%:M (fun _ => r v) 1%:M.

Lemma leads1 : n_leads C1 tol = 1%N.
Proof.
rewrite /n_leads /lead_vars (_ : [set _ | _] = setT) ?cardsT ?card_ord //; apply/setP => j.
by rewrite !inE big_ord1 mxE !ord1 eqxx mulr1n /tol norm_r ltr_r.
Qed.
Lemma ct1 m : ct (1%:M : 'M[K]_m) = 1%:M.
Proof. by apply/matrixP => i j; rewrite !mxE eq_sym rmorphMn rmorph1. Qed.
Lemma svd1_ok v : 1 / 10%:R < v -> svd_contract tol ((r v)%:M : 'M[K]_1) (svd1 v).
Proof.
move=> h; split; rewrite /= ?ct1 ?mulmx1 ?mul1mx //; first by move=> i; rewrite ltr_r.
by apply/matrixP => i j; rewrite !mxE !ord1 eqxx !mulr1n.
Qed.
Lemma qm1 : 1%:M = qm 1 0 0 1.
Proof. by rewrite /qm -m22_1 map_scalar_mx rmorph1. Qed.
Lemma Q45_unitary : ct Q45 *m Q45 = 1%:M.
Proof. rewrite /Q45 ct_qm qmM m22M qm1; congr (map_mx _ _); rat_m22. Qed.
Lemma pick (F : ringType) (a b c d : F) (i j : 'I_2) : m22 a b c d i j = if i == 0 then if j == 0 then a else b else if j == 0 then c else d.
Proof. by rewrite mxE. Qed.
Lemma case_facts (l : nat) (L : l = 1%N) (lead : 'I_l -> 'I_1) (g0 g1 : 'M[K]_(1 + l)) (pi : 'M[K]_(1 + l, l)) :
  g0 = block_mx (- B1) (- colsub lead C1) (rowsub lead 1%:M) 0 -> g1 = block_mx A1 0 0 1%:M -> pi = col_mx 0 1%:M ->
  exists (d : qz K (1 + l)) (e : (1 + 1)%N = (1 + l)%N) (s s1 : svd K 1 l),
    [/\ qz_contract tol g0 g1 d 1, svd_contract tol (svd_input pi d e) s, svd_contract tol (svd_input_1 pi d e) s1,
        ~~ [exists i, coincident tol (qalpha d i) (qbeta d i)] /\
        (forall i, - qA d i i + tol != 0 /\ (`|qB d i i| + tol < `|qA d i i| \/ `|qA d i i| + tol < `|qB d i i|)) &
        eu1 s1 (\rank (loose_for_rank s s1)) = 1].
Proof.
subst l => -> -> ->; exists d45, erefl, (svd1 (4%:R / 5%:R)), (svd1 (3%:R / 5%:R)).
have l0 i : lead i = 0 by rewrite ord1.
have G1 : block_mx A1 0 0 1%:M = 1%:M :> 'M[K]_(1 + 1) by rewrite -scalar_mx_block.
have P : col_mx 0 1%:M = \matrix_(i, j) (i == 1)%:R :> 'M[K]_(1 + 1, 1).
  apply/matrixP => i j; rewrite !mxE; case: splitP => k; rewrite ord1 !mxE => E.
    by have -> : i = 0 by apply: val_inj.
  by have -> : i = 1 by [apply: val_inj]; rewrite ord1 !eqxx.
have G0 : block_mx (- B1) (- colsub lead C1) (rowsub lead 1%:M) 0 = qm (11%:R / 6%:R) (- (2%:R / 3%:R)) 1 0.
  apply/matrixP => i j; rewrite /qm !mxE; case: splitP => k; rewrite ord1 !mxE; case: splitP => m; rewrite ord1 !mxE ?l0 ?eqxx => jE iE.
  - by have -> : i = 0 by [apply: val_inj]; have -> : j = 0 by [apply: val_inj]; rewrite /= rmorphN opprK.
  - by have -> : i = 0 by [apply: val_inj]; have -> : j = 1 by [apply: val_inj]; rewrite /= rmorphN.
  - by have -> : i = 1 by [apply: val_inj]; have -> : j = 0 by [apply: val_inj]; rewrite /= rmorph1.
  - by have -> : i = 1 by [apply: val_inj]; have -> : j = 1 by [apply: val_inj]; rewrite /= rmorph0.
have two (i : 'I_(1 + 1)) : i = 0 \/ i = 1 by exact: ord2.
split.
- split=> //=.
  + exact: Q45_unitary.
  + exact: Q45_unitary.
  + rewrite G0 /Q45 /TA ct_qm !qmM map_mxM -map_mxM; rewrite /qm -map_mxM !m22M; congr (map_mx _ _); rat_m22.
  + by rewrite G1 mulmx1; apply/esym/mulmx1C/Q45_unitary.
  + by move=> i j; case: (two i) => ->; case: (two j) => -> //= _; rewrite /TA /qm mxE pick /= rmorph0.
  + by move=> i j lt; rewrite mxE; case: eqP lt => // ->; rewrite ltnn.
  + by move=> i; rewrite mxE eqxx.
  + have n1 : 1 = r 1 by rewrite rmorph1.
    move=> i; case: (two i) => ->; rewrite /is_stable /TA /qm mxE pick /= /tol n1 !norm_r !ltr_r !ler_rat; by vm_compute.
- have -> : svd_input (col_mx 0 1%:M) d45 erefl = (r (4%:R / 5%:R))%:M; last by apply: svd1_ok; vm_compute.
  rewrite /svd_input /eta_wt P /Q2 /Qm /= /Q45 ct_qm; apply/matrixP => i j; rewrite !ord1 !mxE !big_ord_recl big_ord0 !mxE /=.
  by rewrite mulr0 add0r mulr1 addr0.
- have -> : svd_input_1 (col_mx 0 1%:M) d45 erefl = (r (3%:R / 5%:R))%:M; last by apply: svd1_ok; vm_compute.
  rewrite /svd_input_1 /eta_wt_1 P /Q1 /Qm /= /Q45 ct_qm; apply/matrixP => i j; rewrite !ord1 !mxE !big_ord_recl big_ord0 !mxE /=.
  by rewrite mulr0 add0r mulr1 addr0.
- have n1 : 1 = r 1 by rewrite rmorph1.
  split; last first.
    move=> i; rewrite /= /TA /qm /tol !mxE eqxx mulr1n n1 !norm_r -!rmorphN -!rmorphD !ltr_r fmorph_eq0.
    by case: (two i) => -> /=; split; [by vm_compute|by left; vm_compute|by vm_compute|by right; vm_compute].
  apply/existsPn => i /=; rewrite /coincident /TA /qm mxE pick n1 !norm_r !ltr_r; case: (two i) => -> /=; by vm_compute.
- by rewrite /eu1 /loose_for_rank /= ct1 !mulmx1 subrr mxrank0.
Qed.

(* hypotheses of C65 met: x(t-1) - 11/6 x(t) + 2/3 E x(t+1) + z(t) = 0 has the policies 3/4 and 2; every part of the contract
   of LAPACK holds for the decomposition below and gensys returns 3/4 *)
Theorem C65_case : let D : 'M[K]_1 := 1%:M in
  [/\ 0 < tol, (forall j, ~~ (tol < \sum_i `|C1 i j|) -> col j C1 = 0),
      real_mx A1 /\ real_mx B1 /\ real_mx C1 /\ real_mx D &
  exists d (e : (1 + 1)%N = (1 + n_leads C1 tol)%N) s s1 R,
    [/\ qz_contract tol (set_g0 B1 C1 tol) (set_g1 A1 C1 tol) d 1, svd_contract tol (svd_input (set_pi C1 tol) d e) s,
        svd_contract tol (svd_input_1 (set_pi C1 tol) d e) s1 &
        solve_with_gensys (gensys_core (set_const C1 tol) (set_psi C1 D tol) (set_pi C1 tol) tol d e s s1
                                       (\rank (loose_for_rank s s1))) true
          = Returned (Some ((r (3%:R / 4%:R))%:M), Some R)]].
Proof.
move=> D; have t0 : 0 < tol by rewrite /tol ltr0q.
have dr : forall j, ~~ (tol < \sum_i `|C1 i j|) -> col j C1 = 0.
  by move=> j; rewrite big_ord1 mxE !ord1 eqxx mulr1n /tol norm_r ltr_r; have -> : (1 / 10%:R < `|2%:R / 3%:R : rat|) = true by vm_compute.
have rl q : real_mx ((r q)%:M : 'M[K]_1) by move=> i j; apply/CrealP; rewrite mxE !ord1 eqxx mulr1n conj_r.
have r1 : real_mx (1%:M : 'M[K]_1) by have := rl 1; rewrite rmorph1.
split=> //; first by split; [exact: r1|split; [exact: rl|split; [exact: rl|exact: r1]]].
have [d [e [s [s1 [q a b [z _] u]]]]] := case_facts leads1 (g0_form B1 C1 tol) (g1_form A1 C1 tol) (pi_form C1 tol).
exists d, e, s, s1.
set c := gensys_core _ _ _ _ _ _ _ _ _.
have ce : (geu c).1.2 = 1.
  rewrite /c /gensys_core (negbTE z) -[RHS]u.
  by move: (set_const _ _) (set_psi _ _ _) (set_pi _ _) (d) => x1 x2 x3 x4; move: x1 x2 x3 x4; case: _ / (e).
have st : stable_mx ((r (3%:R / 4%:R))%:M : 'M[K]_1).
  move=> a' /eigenvalueP [v]; rewrite mul_mx_scalar => /eqP; rewrite -subr_eq0 -scalerBl scaler_eq0 subr_eq0 => /orP [/eqP <- _|/eqP -> /eqP //].
  by rewrite norm_r -(rmorph1 (ratr_rmorphism K)) ltr_rat.
have so : solves A1 B1 C1 (r (3%:R / 4%:R))%:M.
  have sm (x y : K) : x%:M *m y%:M = (x * y)%:M :> 'M[K]_1 by rewrite -scalar_mxM.
  have sa (x y : K) : x%:M + y%:M = (x + y)%:M :> 'M[K]_1 by rewrite -raddfD.
  have rm (x y : rat) : r x * r y = r (x * y) by rewrite rmorphM.
  have ra (x y : rat) : r x + r y = r (x + y) by rewrite rmorphD.
  have r11 : (1 : K) = r 1 by rewrite rmorph1.
  rewrite /solves /A1 /B1 /C1 r11 !sm !sa !rm !ra.
  set x := (X in r X); have -> : x = 0 by [apply: ratE; vm_compute]. by rewrite rmorph0 raddf0.
have [R E] := @C65_solvable_models_are_solved K 1 1 A1 B1 C1 D tol (conj r1 (conj (rl _) (conj (rl _) r1))) t0 dr d 1 1 e s s1 q a b true _ st so ce.
by exists R.
Qed.
End Case.

(* C66: the codes (0, 1) are reachable.  An explosive autoregression y(t) = 2 y(t-1) without expectation errors has one
   unstable root, no stable solution, nothing undetermined; the failure is reported as "unknown" *)
Theorem C66_unexplained_failure_reachable (K : numClosedFieldType) :
  exists (d : qz K 1) (e : (0 + 1)%N = 1%N) (s : svd K 1 0) (s1 : svd K 0 0),
    [/\ qz_contract (2%:R^-1) (1%:M : 'M[K]_1) (2%:R)%:M d 0, svd_contract 2%:R^-1 (svd_input (0 : 'M[K]_(1, 0)) d e) s,
        svd_contract 2%:R^-1 (svd_input_1 (0 : 'M[K]_(1, 0)) d e) s1 &
        interpret (geu (gensys_core (0 : 'M[K]_1) (1%:M : 'M[K]_1) (0 : 'M[K]_(1, 0)) 2%:R^-1 d e s s1
                                    (\rank (loose_for_rank s s1)))) = Unknown_code].
Proof.
exists (QZ 1%:M (2%:R)%:M (fun _ => 1) (fun _ => 2%:R) 1%:M 1%:M), erefl, (@SVD K 1 0 0 0 (fun _ => 1) 0), (@SVD K 0 0 0 0 (fun _ => 1) 0).
have h2 : (2%:R^-1 : K) <= 1 by rewrite invf_le1 ?ltr0n // ler1n.
have e0 p (X Y : 'M[K]_(0, p)) : X = Y by apply/matrixP => -[].
have f0 p (X Y : 'M[K]_(p, 0)) : X = Y by apply/matrixP => i -[].
split.
- split=> //=; rewrite ?ct1 ?mulmx1 ?mul1mx //.
  + by move=> i j; rewrite !ord1.
  + by move=> i j; rewrite !ord1.
  + by move=> i; rewrite mxE ord1.
  + by move=> i; rewrite mxE ord1.
  + move=> i; rewrite /is_stable normr1 ger0_norm ?ler0n // ltn0.
    have -> : (2%:R < 1 :> K) = false by rewrite -[1]/(1%:R) ltr_nat.
    have -> : (2%:R < 2%:R^-1 :> K) = false by apply: le_gtF; apply: (le_trans h2); rewrite ler1n.
    by rewrite andbF.
- split=> //; try exact: e0; try exact: f0. by case.
- split=> //; try exact: e0; try exact: f0. by case.
- have cz : [exists i : 'I_1, coincident (2%:R^-1 : K) 1 2%:R] = false.
    by apply/existsP => -[_]; rewrite /coincident normr1 (le_gtF h2).
  by rewrite /gensys_core /= cz.
Qed.

Section C69.
Variable K : numClosedFieldType.
(* C69: the model's own system has no constant, and then the constant returned is zero *)
Theorem C69_no_constant_no_constant N k kc ne psi pi (rs : K) d ns nu (e : (ns + nu)%N = N) s s1 nl :
  gC (@gensys_core K N k kc ne 0 psi pi rs d ns nu e s s1 nl) = 0.
Proof.
rewrite /gensys_core; case: ifP => // _; case: N / e psi pi d => psi pi d /=.
by rewrite /C_complex !mulmx0 col_mx0 mulmx0 re_0.
Qed.
(* refuted: y = G1 y(t-1) + C is the solution of g0 y = g1 y(t-1) + c.  2 y = y(t-1) + 1 gets the matrix 1/2 and the
   constant 1, not 1/2 *)
Theorem C69_constant_solves_refuted :
  exists (d : qz K 1) (e : (1 + 0)%N = 1%N) (s : svd K 0 0) (s1 : svd K 1 0),
    [/\ qz_contract (2%:R^-1) (2%:R%:M : 'M[K]_1) 1%:M d 1, svd_contract 2%:R^-1 (svd_input (0 : 'M[K]_(1, 0)) d e) s,
        svd_contract 2%:R^-1 (svd_input_1 (0 : 'M[K]_(1, 0)) d e) s1 &
        let g := gensys_core (1%:M : 'M[K]_1) (0 : 'M[K]_1) (0 : 'M[K]_(1, 0)) 2%:R^-1 d e s s1 (\rank (loose_for_rank s s1)) in
        [/\ geu g = (1, 1, 0%N), gG1 g = (2%:R^-1)%:M, gC g = 1%:M &
            forall y_lag : 'M[K]_1, 2%:R%:M *m (gG1 g *m y_lag + gC g) <> y_lag + 1%:M]].
Proof.
exists (QZ (2%:R)%:M 1%:M (fun _ => 2%:R) (fun _ => 1) 1%:M 1%:M), erefl, (@SVD K 0 0 0 0 (fun _ => 1) 0), (@SVD K 1 0 0 0 (fun _ => 1) 0).
have h2 : (2%:R^-1 : K) <= 1 by rewrite invf_le1 ?ltr0n // ler1n.
have n2 : (2%:R : K) != 0 by rewrite pnatr_eq0.
have e0 p (X Y : 'M[K]_(0, p)) : X = Y by apply/matrixP => -[].
have f0 p (X Y : 'M[K]_(p, 0)) : X = Y by apply/matrixP => i -[].
split.
- split=> //=; rewrite ?ct1 ?mulmx1 ?mul1mx //.
  + by move=> i j; rewrite !ord1.
  + by move=> i j; rewrite !ord1.
  + by move=> i; rewrite mxE ord1.
  + by move=> i; rewrite mxE ord1.
  + move=> i; rewrite /is_stable normr1 ger0_norm ?ler0n // ord1 h2.
    have -> : (1 < 2%:R :> K) by rewrite ltr1n.
    by rewrite orbT.
- split=> //; try exact: e0; try exact: f0. by case.
- split=> //; try exact: e0; try exact: f0. by case.
- set d := QZ _ _ _ _ _ _. set s := SVD _ _ _. set s1 := SVD _ _ _.
  have z0 : 0 = lshift 0 (0 : 'I_1) :> 'I_(1 + 0) by apply: val_inj.
  have Tm : T_mat s s1 = (1%:M : 'M[K]_1).
    by apply/matrixP => i j; rewrite [in LHS]ord1 [in RHS]ord1 [j]ord1; have := row_mxEl (1%:M : 'M[K]_1) (- ct (inner_term s s1)) 0 0; rewrite -z0.
  have cl p (X : 'M[K]_(1, p)) (Y : 'M[K]_(0, p)) : col_mx X Y = X :> 'M[K]_(1, p).
    by apply/matrixP => i j; rewrite ord1; have := col_mxEu X Y 0 j; rewrite -z0.
  have G0 : G_0 (d : qz K (1 + 0)) s s1 = (2%:R%:M : 'M[K]_1) by rewrite /G_0 cl Tm mul1mx.
  have cz : [exists i : 'I_1, coincident (2%:R^-1 : K) 2%:R 1] = false.
    by apply/existsP => -[_]; rewrite /coincident normr1 (le_gtF h2) andbF.
  have rr (x : K) : x \is Num.real -> re_mx (x%:M : 'M[K]_1) = x%:M.
    by move=> xr; apply: re_real => i j; rewrite mxE !ord1 eqxx mulr1n.
  have G1 : re_mx (G_1_complex (d : qz K (1 + 0)) s s1) = ((2%:R^-1)%:M : 'M[K]_1).
    by rewrite /G_1_complex G0 cl Tm /= ct1 !mul1mx !mulmx1 invmx_scalar rr // realV realn.
  have GC : re_mx (qZ (d : qz K (1 + 0)) *m C_complex (1%:M : 'M[K]_(1 + 0)) (d : qz K (1 + 0)) s s1) = (1%:M : 'M[K]_1).
    by rewrite /C_complex cl Tm /Qm /= ct1 !mul1mx rr // real1.
  rewrite /gensys_core /= cz /= G1 GC; split=> // y.
  have -> : 2%:R%:M *m ((2%:R^-1)%:M *m y + 1%:M) = y + 2%:R%:M :> 'M[K]_1.
    by rewrite mulmxDr mulmx1 !mul_scalar_mx scalerA divff // scale1r.
  move=> /addrI /matrixP /(_ 0 0) /eqP.
  by rewrite !mxE !eqxx !mulr1n (_ : 1 = 1%:R :> K) // eqr_nat.
Qed.
End C69.
