(* Gensys on the linearised model. *)
From mathcomp Require Import all_ssreflect all_algebra.
From Verif Require Import LA_Spec LA_Model LA_GModel LA_GSpec LA_GProofs.
Import GRing.Theory Num.Theory Order.TTheory.
Set Implicit Arguments.
Unset Strict Implicit.
Unset Printing Implicit Defensive.
Local Open Scope ring_scope.

Section Facts.
Variable K : numClosedFieldType.
Record core_facts N k ne (g0 g1 : 'M[K]_N) (psi : 'M[K]_(N, k)) (pi : 'M[K]_(N, ne)) (enough noloose : Prop) (Gc : 'M[K]_N) (Ic : 'M[K]_(N, k)) : Prop := {
  cf_stable : stable_mx Gc;
  cf_exists : enough -> exists H H', [/\ g0 *m Gc = g1 + pi *m H, H *m Gc = 0, H *m Ic = 0 & g0 *m Ic = psi + pi *m H'];
  cf_needed : forall q (Y : 'M[K]_(N, q)) (X : 'M[K]_q) (J : 'M[K]_(q, N)) H,
      stable_mx X -> g0 *m Y *m X = g1 *m Y -> g0 *m Y *m X *m J = g1 + pi *m H -> enough;
  cf_zero : noloose -> forall q (Y : 'M[K]_(N, q)) Y', g1 *m Y = pi *m Y' -> Gc *m Y = 0;
  cf_unique : forall q (Y : 'M[K]_(N, q)) (X : 'M[K]_q), stable_mx X -> g0 *m Y *m X = g1 *m Y -> Gc *m Y = Y *m X }.

Lemma gensys_facts N k kc ne (g0 g1 : 'M[K]_N) (c : 'M[K]_(N, kc)) (psi : 'M[K]_(N, k)) (pi : 'M[K]_(N, ne)) rs d ns nu
    (e : (ns + nu)%N = N) s s1 n_loose :
  0 < rs -> qz_contract rs g0 g1 d ns -> ~~ [exists i, coincident rs (qalpha d i) (qbeta d i)] ->
  svd_contract rs (svd_input pi d e) s -> svd_contract rs (svd_input_1 pi d e) s1 ->
  exists Gc Ic, let r := gensys_core c psi pi rs d e s s1 n_loose in
    [/\ gG1 r = re_mx Gc, gimpact r = re_mx Ic, geu r = (eu0 s, eu1 s1 n_loose, eu2 s1 n_loose) &
        core_facts g0 g1 psi pi (nu <= skept s)%N (loose_for_rank s s1 = 0) Gc Ic].
Proof.
move=> rs0 Qz NZ; rewrite /gensys_core (negbTE NZ).
case: N / e g0 g1 c psi pi d Qz NZ => g0 g1 c psi pi d Qz NZ /= S2 S1.
exists (sol d s s1 g1), (sol d s s1 psi); rewrite (G1_sol Qz) impact_sol; split=> //; split.
- exact: (sol_stable rs0 Qz).
- move=> le; eexists; eexists; split; first exact: (sol_exists rs0 Qz S2 S1).
  + by rewrite (Q2g1 Qz) mulNmx -!mulmxA mul_dsub_mx (sol_low rs0 Qz) !mulmx0 oppr0.
  + by rewrite (Q2g1 Qz) mulNmx -!mulmxA mul_dsub_mx (sol_low rs0 Qz) !mulmx0 oppr0.
  + exact: (sol_exists rs0 Qz S2 S1).
- move=> q Y X J H st inv eq.
  have low := no_unstable_part rs0 Qz NZ st inv.
  have E : Q2 d *m (g1 + pi *m H) = 0.
    by rewrite -eq !mulmxA (Q2g0 Qz) -[drsubmx _ *m _ *m Y]mulmxA mul_dsub_mx low !mulmx0 !mul0mx.
  apply: (@existence_conv _ _ _ _ _ _ _ _ S2 (- (H *m rsubmx (qZ d)))).
  have ZZ : dsubmx (ct (qZ d)) *m rsubmx (qZ d) = 1%:M.
    by rewrite mul_dsub_mx mulmx_rsub (ZhZ Qz) scalar_mx_block block_mxEh row_mxKr col_mxKd.
  have -> : eta_wt pi d *m - (H *m rsubmx (qZ d)) = drsubmx (qB d).
    move: E; rewrite mulmxDr (Q2g1 Qz) mulmxA -/(eta_wt pi d) => /eqP; rewrite addr_eq0 => /eqP E.
    by rewrite mulmxN mulmxA -mulNmx -E -mulmxA ZZ mulmx1.
  apply: upper_unit => [i j ij|i]; rewrite !mxE; first by apply: (qz_upB Qz); rewrite /= ltn_add2l.
  exact: (proj1 (unstableP rs0 Qz NZ i)).
- by move=> L q Y Y' E; rewrite sol_mul E (sol_pi rs0 S2 S1).
- move=> q Y X st inv; rewrite sol_mul; apply/esym; apply: (sol_unique rs0 Qz) => //; last by rewrite mulmxA.
  by rewrite mulmxA -mul_dsub_mx (no_unstable_part rs0 Qz NZ st inv) mul0mx.
Qed.
End Facts.

Section SetupForm.
Variable K : numClosedFieldType.
Variables (n k : nat) (A B C : 'M[K]_n) (D : 'M[K]_(n, k)) (tol : K).
Notation l := (n_leads C tol).
(* the rows of the identity that belong to the lead variables; the kept columns of C *)
Definition Sel : 'M[K]_(l, n) := rowsub (@lead_var_idx K n C tol) 1%:M.
Definition CL : 'M[K]_(n, l) := colsub (@lead_var_idx K n C tol) C.
Lemma idx_l i : eqs_and_leads_idx (C := C) (tol := tol) (lshift l i) = lshift n i.
Proof. by rewrite /eqs_and_leads_idx; case: splitP => [j /= e|j /= e]; [congr (lshift _ _); apply: val_inj|move: (ltn_ord i); rewrite e ltnNge leq_addr]. Qed.
Lemma idx_r i : eqs_and_leads_idx (C := C) (tol := tol) (rshift n i) = rshift n (lead_var_idx i).
Proof.
rewrite /eqs_and_leads_idx; case: splitP => [j /= e|j /= e]; first by move: (ltn_ord j); rewrite -e ltnNge leq_addr.
by congr (rshift _ (lead_var_idx _)); apply: val_inj; apply/eqP; rewrite -(eqn_add2l n) e.
Qed.
Lemma g0_form : set_g0 B C tol = block_mx (- B) (- CL) Sel 0.
Proof.
apply/matrixP => i j; rewrite /set_g0 mxE mxE.
case: (split_ordP i) => i' ->; case: (split_ordP j) => j' ->; rewrite ?idx_l ?idx_r /Gamma_0.
- by rewrite !block_mxEul !mxE.
- by rewrite !block_mxEur !mxE.
- by rewrite !block_mxEdl !mxE opprK.
- by rewrite !block_mxEdr !mxE oppr0.
Qed.
Lemma lead_inj : injective (@lead_var_idx K n C tol). Proof. exact: enum_val_inj. Qed.
Lemma g1_form : set_g1 A C tol = block_mx A 0 0 1%:M.
Proof.
apply/matrixP => i j; rewrite /set_g1 mxE.
case: (split_ordP i) => i' ->; case: (split_ordP j) => j' ->; rewrite ?idx_l ?idx_r /Gamma_1.
- by rewrite !block_mxEul.
- by rewrite !block_mxEur !mxE.
- by rewrite !block_mxEdl !mxE.
- by rewrite !block_mxEdr !mxE (inj_eq lead_inj).
Qed.
Lemma psi_form : set_psi C D tol = col_mx D 0.
Proof.
apply/matrixP => i j; rewrite /set_psi mxE.
by case: (split_ordP i) => i' ->; rewrite ?idx_l ?idx_r /Psi_full ?col_mxEu ?col_mxEd // !mxE.
Qed.
Lemma pi_form : set_pi C tol = col_mx 0 1%:M.
Proof.
apply/matrixP => i j; rewrite /set_pi mxE.
by case: (split_ordP i) => i' ->; rewrite ?idx_l ?idx_r /Pi_full ?col_mxEu ?col_mxEd // !mxE // (inj_eq lead_inj).
Qed.
(* columns of C dropped are zero *)
Definition dropped_are_zero : Prop := forall j, ~~ (tol < \sum_i `|C i j|) -> col j C = 0.
Lemma CL_Sel : dropped_are_zero -> CL *m Sel = C.
Proof.
move=> H; apply/matrixP => i j; rewrite mxE.
case: (boolP (j \in lead_vars C tol)) => [J|J].
  rewrite (bigD1 (enum_rank_in J j)) //= !mxE /lead_var_idx enum_rankK_in // eqxx mulr1 big1 ?addr0 // => m nm.
  rewrite !mxE; case: eqP => // E; rewrite ?mulr0 //; case/eqP: nm; apply: lead_inj; by rewrite /lead_var_idx enum_rankK_in.
have Z : C i j = 0.
  have cz : col j C = 0 by apply: H; move: J; rewrite inE.
  by move/matrixP: cz => /(_ i 0); rewrite !mxE.
rewrite Z big1 // => m _; rewrite !mxE; case: eqP => [E|]; last by rewrite mulr0.
by case/negP: J; rewrite -E; apply: enum_valP.
Qed.
End SetupForm.

Section Solved.
Variable K : numClosedFieldType.
Variables (n k kc : nat) (A B C : 'M[K]_n) (D : 'M[K]_(n, k)) (tol : K).
Notation l := (n_leads C tol).
Notation S := (Sel C tol).
Notation CLx := (CL C tol).
Hypothesis drop : dropped_are_zero C tol.

Definition stacked (X : 'M[K]_n) : 'M[K]_(n + l, n) := col_mx 1%:M (S *m X).
Lemma stacked_inv X : solves A B C X -> set_g0 B C tol *m stacked X *m X = set_g1 A C tol *m stacked X.
Proof.
move=> H; rewrite g0_form g1_form /stacked !mul_block_col !mul1mx !mulmx1 !mul0mx !addr0 add0r mul_col_mx; congr col_mx.
move: H; rewrite /solves -{1}(CL_Sel drop) => H; apply/eqP; rewrite eq_sym -subr_eq0 mulmxDl !mulNmx opprD !opprK addrA.
by apply/eqP; rewrite -[RHS]H !mulmxA.
Qed.
Lemma stacked_err X : solves A B C X ->
  set_g0 B C tol *m stacked X *m X *m row_mx 1%:M 0 = set_g1 A C tol + set_pi C tol *m row_mx (S *m X) (- 1%:M).
Proof.
move=> H; rewrite (stacked_inv H) g1_form pi_form /stacked mul_block_col mul1mx mulmx1 !mul0mx addr0 add0r.
rewrite mul_col_mx ![_ *m row_mx 1%:M 0]mul_mx_row !mulmx1 !mulmx0 mul_col_mx mul0mx mul1mx block_mxEv add_col_mx.
by congr col_mx; rewrite ?addr0 // add_row_mx add0r subrr.
Qed.

Variables (enough noloose : Prop) (Gc : 'M[K]_(n + l)) (Ic : 'M[K]_(n + l, k)).
Hypothesis facts : core_facts (set_g0 B C tol) (set_g1 A C tol) (set_psi C D tol) (set_pi C tol) enough noloose Gc Ic.

Lemma exists_needed X : stable_mx X -> solves A B C X -> enough.
Proof. by move=> st H; apply: (cf_needed facts st (stacked_inv H) (stacked_err H)). Qed.

Lemma right_zero : noloose -> Gc = block_mx (ulsubmx Gc) 0 (dlsubmx Gc) 0.
Proof.
move=> L; have Z := cf_zero facts L (Y := col_mx 0 1%:M) (Y' := 1%:M).
have {}Z : Gc *m col_mx 0 1%:M = 0.
  by apply: Z; rewrite g1_form pi_form mul_block_col !mulmx0 !mul0mx !add0r mulmx1 mulmx1.
move: Z; rewrite -{1}[Gc]submxK mul_block_col !mulmx0 !mulmx1 !add0r -col_mx0 => Z.
have -> // : block_mx (ulsubmx Gc) 0 (dlsubmx Gc) 0 = block_mx (ulsubmx Gc) (ursubmx Gc) (dlsubmx Gc) (drsubmx Gc); last by rewrite submxK.
by move/eq_col_mx: Z => [-> ->].
Qed.

Lemma policy_unique X : noloose -> stable_mx X -> solves A B C X -> ulsubmx Gc = X.
Proof.
move=> L st H; have := cf_unique facts st (stacked_inv H).
rewrite (right_zero L) /stacked mul_block_col !mulmx1 !mul0mx !addr0 mul_col_mx mul1mx => /eq_col_mx [-> _].
by rewrite /= block_mxKul.
Qed.

Lemma policy_solves : enough -> noloose ->
  [/\ solves A B C (ulsubmx Gc), impact_of B C (ulsubmx Gc) D (usubmx Ic) & stable_mx (ulsubmx Gc)].
Proof.
move=> en L; have [H [H' [e1 e2 e3 e4]]] := cf_exists facts en.
have bl := right_zero L; set T := ulsubmx Gc in bl *; set G2 := dlsubmx Gc in bl *.
have HE : H = row_mx (S *m T) (- 1%:M).
  move: e1; rewrite g0_form g1_form pi_form bl mulmx_block !mulmx0 !mul0mx !addr0 mul_col_mx mul0mx mul1mx.
  rewrite -{1}[H]hsubmxK /block_mx -[X in _ = _ + X]/(col_mx 0 (row_mx _ _)) add_col_mx => /eq_col_mx [_].
  rewrite add_row_mx add0r => /eq_row_mx [-> /eqP]; rewrite eq_sym addrC addr_eq0 => /eqP r.
  by rewrite -[LHS]hsubmxK -r; congr row_mx; rewrite r.
have G2E : G2 = S *m T *m T.
  move: e2; rewrite HE bl mul_row_block !mulmx0 !mulNmx !mul1mx addr0 -row_mx0 => /eq_row_mx [/eqP]; rewrite subr_eq0 => /eqP <- _.
  by [].
have R2E : dsubmx Ic = S *m T *m usubmx Ic.
  move: e3; rewrite HE -{1}[Ic]vsubmxK mul_row_col mulNmx mul1mx => /eqP; rewrite subr_eq0 => /eqP <-; by [].
split.
- move: e1; rewrite g0_form g1_form pi_form {1}bl mulmx_block !mulmx0 !addr0 mul_col_mx mul0mx.
  rewrite -{1}[H]hsubmxK /block_mx -row_mx0 add_col_mx => /eq_col_mx [+ _]; rewrite add_row_mx !addr0 => /eq_row_mx [+ _].
  rewrite G2E => E; rewrite /solves -(CL_Sel drop) -E !mulNmx !mulmxA. 
  by rewrite -opprD -addrA addNr.
- move: e4; rewrite g0_form psi_form pi_form -{1}[Ic]vsubmxK mul_block_col mul_col_mx !mul0mx add_col_mx addr0 => /eq_col_mx [+ _].
  rewrite R2E; set R := usubmx Ic; rewrite addr0 => E; rewrite /impact_of -(CL_Sel drop) -E !mulNmx !mulmxA.
  by rewrite -opprD subrr.
- move=> a /eigenvalueP [v ev nz]; apply: (cf_stable facts); apply/eigenvalueP; exists (row_mx v 0).
    by rewrite {1}bl mul_row_block !mul0mx !mulmx0 !addr0 ev scale_row_mx scaler0.
  by apply: contraNneq nz => z; move: z; rewrite -row_mx0 => /eq_row_mx [-> _].
Qed.
End Solved.
