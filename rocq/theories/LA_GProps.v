(* The statements: gensys. *)
From mathcomp Require Import all_ssreflect all_algebra.
From Verif Require Import LA_Spec LA_Model LA_GModel LA_GSpec LA_GProofs LA_GMain.
Import GRing.Theory Num.Theory Order.TTheory.
Set Implicit Arguments.
Unset Strict Implicit.
Unset Printing Implicit Defensive.
Local Open Scope ring_scope.

Section Real.
Variable K : numClosedFieldType.
Definition cj m p (X : 'M[K]_(m, p)) := map_mx conjC X.
Lemma cj_real m p (X : 'M[K]_(m, p)) : real_mx X -> cj X = X.
Proof. by move=> H; apply/matrixP => i j; rewrite mxE; apply/CrealP. Qed.
Lemma real_cj m p (X : 'M[K]_(m, p)) : cj X = X -> real_mx X.
Proof. by move=> H i j; apply/CrealP; move/matrixP: H => /(_ i j); rewrite mxE. Qed.
Lemma re_real m p (X : 'M[K]_(m, p)) : real_mx X -> re_mx X = X.
Proof. by move=> H; apply/matrixP => i j; rewrite mxE; apply/Creal_ReP. Qed.
Lemma real_re m p (X : 'M[K]_(m, p)) : real_mx (re_mx X).
Proof. by move=> i j; rewrite mxE Creal_Re. Qed.
Lemma re_mulr m q p (X : 'M[K]_(m, q)) (Y : 'M[K]_(q, p)) : real_mx X -> re_mx (X *m Y) = X *m re_mx Y.
Proof.
move=> H; apply/matrixP => i j; rewrite !mxE raddf_sum; apply: eq_bigr => l _; rewrite mxE; exact: ReMl.
Qed.
Lemma re_add m p (X Y : 'M[K]_(m, p)) : re_mx (X + Y) = re_mx X + re_mx Y.
Proof. by apply/matrixP => i j; rewrite !mxE raddfD. Qed.
Lemma re_0 m p : re_mx (0 : 'M[K]_(m, p)) = 0.
Proof. by apply/matrixP => i j; rewrite !mxE raddf0. Qed.
Lemma stable_cj n (X : 'M[K]_n) : stable_mx X -> stable_mx (cj X).
Proof.
move=> st a /eigenvalueP [v ev nz]; rewrite -norm_conjC; apply: st; apply/eigenvalueP; exists (cj v).
  have -> : X = cj (cj X) by apply/matrixP => i j; rewrite !mxE conjCK.
  by rewrite /cj -map_mxM ev map_mxZ.
apply: contraNneq nz => z; apply/eqP/matrixP => i j; move/matrixP: z => /(_ i j); rewrite !mxE => /eqP.
by rewrite conjC_eq0 => /eqP.
Qed.
End Real.

Section C66a.
Variable K : numClosedFieldType.
(* C66: every way the solver ends: matrices exactly for the codes (1, 1), otherwise the failure the caller asked for *)
Theorem C66_outcome_follows_the_codes n l k kc (r : gensys_result K (n + l) k kc) onerr :
  solve_with_gensys r onerr =
  if success (geu r) then Returned (Some (ulsubmx (gG1 r)), Some (usubmx (gimpact r)))
  else if onerr then Raised GensysFailed else Returned (None, None).
Proof.
rewrite /solve_with_gensys /gensys; case Z: (failed_zeros _) => //=.
have -> // : success (geu r) = false.
by move: Z; rewrite /failed_zeros /success => /andP [/eqP -> _].
Qed.
End C66a.

Section C65.
Variable K : numClosedFieldType.
Variables (n k : nat) (A B C : 'M[K]_n) (D : 'M[K]_(n, k)) (tol : K).
Notation l := (n_leads C tol).
Notation g0 := (set_g0 B C tol). Notation g1 := (set_g1 A C tol).
Notation psi := (set_psi C D tol). Notation pi := (set_pi C tol).
Hypothesis reals : real_mx A /\ real_mx B /\ real_mx C /\ real_mx D.
Hypothesis tol0 : 0 < tol.
(* the columns of C that count as absent are exactly zero *)
Hypothesis drop : forall j, ~~ (tol < \sum_i `|C i j|) -> col j C = 0.
(* what LAPACK returned, meeting its contract *)
Variables (d : qz K (n + l)) (ns nu : nat) (e : (ns + nu)%N = (n + l)%N) (s : svd K nu l) (s1 : svd K ns l).
Hypothesis okq : qz_contract tol g0 g1 d ns.
Hypothesis ok2 : svd_contract tol (svd_input pi d e) s.
Hypothesis ok1 : svd_contract tol (svd_input_1 pi d e) s1.
Notation result := (gensys_core (set_const C tol) psi pi tol d e s s1 (\rank (loose_for_rank s s1))).

Lemma core_cases : geu result = (-2%:Z, -2%:Z, 0%N) \/
  exists Gc Ic, [/\ gG1 result = re_mx Gc, gimpact result = re_mx Ic, (geu result).1 = (eu0 s, eu1 s1 (\rank (loose_for_rank s s1))) &
        core_facts g0 g1 psi pi (nu <= skept s)%N (loose_for_rank s s1 = 0) Gc Ic].
Proof.
case Z : [exists i, coincident tol (qalpha d i) (qbeta d i)]; first by left; rewrite /gensys_core Z.
right; have [Gc [Ic [a b c f]]] := gensys_facts (set_const C tol) psi (\rank (loose_for_rank s s1)) tol0 okq (negbT Z) ok2 ok1.
by exists Gc, Ic; rewrite a b c.
Qed.
Lemma loose_zero : eu1 s1 (\rank (loose_for_rank s s1)) = 1 -> loose_for_rank s s1 = 0.
Proof.
rewrite /eu1; case: ifP => // /orP [/orP [/eqP z|/eqP z]|r] _.
- by apply/matrixP => i; have : (i < 0)%N by apply: leq_trans (ltn_ord i) _; rewrite z.
- by apply/matrixP => i j; have : (j < 0)%N by apply: leq_trans (ltn_ord j) _; rewrite z.
- by apply/eqP; rewrite -mxrank_eq0.
Qed.
Lemma enough_of : eu0 s = 1 -> (nu <= skept s)%N. Proof. by rewrite /eu0; case: ifP. Qed.

(* a solved model: the policy matrix is real and solves *)
Lemma solved_facts Gc Ic : core_facts g0 g1 psi pi (nu <= skept s)%N (loose_for_rank s s1 = 0) Gc Ic ->
  (nu <= skept s)%N -> loose_for_rank s s1 = 0 ->
  let T := ulsubmx Gc in
  [/\ re_mx T = T, solves A B C T, stable_mx T, impact_of B C T D (re_mx (usubmx Ic)) & real_mx T].
Proof.
move=> f en L T; have [so im st] := policy_solves drop f en L.
case: reals => rA [rB [rC rD]].
have E : cj T = T.
  apply/esym; apply: (policy_unique drop f L (stable_cj st)).
  have : cj (A + B *m T + C *m (T *m T)) = 0 by rewrite /T so /cj map_mx0.
  by rewrite /cj !map_mxD !map_mxM -!/(cj _) (cj_real rA) (cj_real rB) (cj_real rC).
have rT := real_cj E; split=> //; first exact: re_real.
move: (congr1 (@re_mx K n k) im); rewrite re_0 !re_add re_mulr // re_mulr // re_mulr // (re_real rD). done.
Qed.

(* C65: matrices are returned only when they are the unique stable solution of the model and its impact matrix, both real *)
Theorem C65_gensys_returns_the_unique_stable_solution onerr T R :
  solve_with_gensys result onerr = Returned (Some T, Some R) ->
  [/\ solves A B C T, impact_of B C T D R, stable_mx T, real_mx T /\ real_mx R &
      forall X, stable_mx X -> solves A B C X -> X = T].
Proof.
rewrite C66_outcome_follows_the_codes.
case: core_cases => [-> /=|[Gc [Ic [eG eI eE f]]]]; first by case: onerr.
rewrite /success eE eG eI /=.
case: ifP => [/andP [/eqP x0 /eqP x1]|]; last by case: onerr.
have en := enough_of x0; have L := loose_zero x1.
have [rT so st im rl] := solved_facts f en L.
have uE : ulsubmx (re_mx Gc) = ulsubmx Gc.
  by rewrite -[RHS]rT; apply/matrixP => i j; rewrite !mxE.
have iE : usubmx (re_mx Ic) = re_mx (usubmx Ic) by apply/matrixP => i j; rewrite !mxE.
case=> <- <-; rewrite uE iE; split=> //; first by split=> //; exact: real_re.
by move=> X sX solX; rewrite (policy_unique drop f L sX solX).
Qed.
(* ... the existence code 0 means that there is no stable solution at all *)
Theorem C65_existence_code_zero_means_no_stable_solution :
  (geu result).1.1 = 0 -> forall X, stable_mx X -> ~ solves A B C X.
Proof.
case: core_cases => [-> //|[Gc [Ic [_ _ -> f]]]] /= z X st so.
by move: (exists_needed drop f st so) z; rewrite /eu0 => ->.
Qed.
(* ... and a model with a stable solution is solved, by that solution, whenever the uniqueness code is 1 *)
Theorem C65_solvable_models_are_solved onerr X :
  stable_mx X -> solves A B C X -> (geu result).1.2 = 1 ->
  exists R, solve_with_gensys result onerr = Returned (Some X, Some R).
Proof.
move=> st so; case: core_cases => [-> //|[Gc [Ic [eG eI eE f]]]]; rewrite eE /= => u1.
have en := exists_needed drop f st so; have L := loose_zero u1.
have [rT _ _ _ _] := solved_facts f en L.
rewrite C66_outcome_follows_the_codes /success eE /= u1 /eu0 en /= eG eI.
eexists; congr (Returned (Some _, Some _)).
rewrite -(policy_unique drop f L st so) -[RHS]rT; by apply/matrixP => i j; rewrite !mxE.
Qed.
End C65.

Section C27.
Variable K : numClosedFieldType.
Variables (n k p : nat) (A B C : 'M[K]_n) (D : 'M[K]_(n, k)) (tol : K).
Notation lead := (@lead_var_idx K n C tol).
(* C27: the system handed to gensys says that the model holds with w in the place of the expected lead variables, and that
   eta is the error of the last expectation *)
Theorem C27_system_is_the_model (x_lag x : 'M[K]_(n, p)) (w_lag w eta : 'M[K]_(n_leads C tol, p)) (z : 'M[K]_(k, p)) :
  set_g0 B C tol *m col_mx x w = set_g1 A C tol *m col_mx x_lag w_lag + set_psi C D tol *m z + set_pi C tol *m eta <->
  A *m x_lag + B *m x + colsub lead C *m w + D *m z = 0 /\ rowsub lead x = w_lag + eta.
Proof.
have SE : rowsub lead x = Sel C tol *m x by rewrite /Sel mul_rowsub_mx mul1mx.
rewrite SE g0_form g1_form psi_form pi_form !mul_block_col !mul_col_mx !mul0mx !mul1mx !add_col_mx !addr0 add0r.
have four (a b c y : 'M[K]_(n, p)) : a + b + c + y = a + y + (b + c) by rewrite -!addrA; congr (_ + _); rewrite addrA addrC.
split=> [/eq_col_mx [E ->]|[E ->]]; last congr col_mx.
- by split=> //; rewrite four -E !mulNmx -opprD addNr.
- by apply/eqP; rewrite !mulNmx -opprD eq_sym -addr_eq0; apply/eqP; rewrite -[RHS]E four.
Qed.
(* ... so that, if the columns of C dropped are zero, it is the model with the full lead vector *)
Theorem C27_leads_are_complete (xe : 'M[K]_(n, p)) :
  (forall j, ~~ (tol < \sum_i `|C i j|) -> col j C = 0) -> colsub lead C *m rowsub lead xe = C *m xe.
Proof.
by move=> H; rewrite -[RHS](congr1 (fun Z => Z *m xe) (CL_Sel H)) -mulmxA /Sel mul_rowsub_mx mul1mx.
Qed.
End C27.
(* refuted: the system is the model for every C.  A column whose absolute sum does not exceed the tolerance is dropped *)
Theorem C27_small_leads_kept_refuted (K : numClosedFieldType) (tol : K) : 0 < tol ->
  exists C : 'M[K]_1, C <> 0 /\ n_leads C tol = 0%N /\ forall x w, colsub (@lead_var_idx K 1 C tol) C *m w = (0 : 'M[K]_(1, 1)) /\ (C *m x = 0 -> x = 0 :> 'M[K]_1).
Proof.
move=> t0; exists tol%:M; have tn : tol != 0 by rewrite gt_eqF.
have l0 : n_leads (tol%:M : 'M[K]_1) tol = 0%N.
  apply/eqP; rewrite cards_eq0; apply/eqP/setP => j; rewrite !inE big_ord1 mxE !ord1 eqxx mulr1n ger0_norm ?ltW //.
split; first by move/matrixP => /(_ 0 0); rewrite !mxE eqxx mulr1n; apply/eqP.
split=> // x w; split.
  apply/matrixP => i j; rewrite !mxE big1 // => m; by have : (m < 0)%N by apply: leq_trans (ltn_ord m) _; rewrite l0.
by rewrite mul_scalar_mx => /eqP; rewrite scaler_eq0 (negbTE tn) => /eqP.
Qed.

Section C66.
Variable K : numClosedFieldType.
(* the codes the core can produce *)
Theorem C66_codes N k kc ne c psi pi (rs : K) d ns nu (e : (ns + nu)%N = N) s s1 nl :
  let eu := geu (@gensys_core K N k kc ne c psi pi rs d ns nu e s s1 nl) in
  eu = (-2%:Z, -2%:Z, 0%N) \/ [/\ eu.1.1 = 0 \/ eu.1.1 = 1, eu.1.2 = 0 \/ eu.1.2 = 1 & (eu.1.2 = 0 <-> (0 < eu.2)%N)].
Proof.
rewrite /gensys_core; case: ifP => _; [by left|right].
case: N / e c psi pi d => c psi pi d /=; rewrite /eu0 /eu1 /eu2; split.
- by case: ifP => _; [right|left].
- by case: ifP => _; [right|left].
- by case: (_ == 0)%N; case: (_ == 0)%N; case: nl => [|nl] /=; split.
Qed.
(* two of the explanations never apply *)
Theorem C66_explanations_that_never_apply N k kc ne c psi pi (rs : K) d ns nu (e : (ns + nu)%N = N) s s1 nl m :
  let x := interpret (geu (@gensys_core K N k kc ne c psi pi rs d ns nu e s s1 nl)) in x <> Indeterminate m /\ x <> Sunspots.
Proof.
rewrite /=; have := @C66_codes N k kc ne c psi pi rs d ns nu e s s1 nl; rewrite /=; case: (geu _) => [[a b] c'] /=.
by case=> [[-> -> _]|[[->|->] [->|->] _]].
Qed.
(* refuted: every failure is explained.  No stable solution but no loose direction either, codes (0, 1), is "unknown" *)
Theorem C66_failures_explained_refuted m : interpret (0, 1, m) = Unknown_code.
Proof. by []. Qed.
(* the interpreted and the compiled form of the operation agree except for coincident zeros, where the former raises *)
Theorem C66_interpreted_and_compiled n l k kc (r : gensys_result K (n + l) k kc) :
  perform r = if failed_zeros (geu r) then Raised ValueError else Returned (compiled_perform r).
Proof. by rewrite /perform /gensys /compiled_perform; case: (failed_zeros _). Qed.
End C66.

(* C68: which solver runs: a model without leads is solved directly whatever solver is named, even a wrong name; the direct
   solver is refused for any other model; on_failure is checked first *)
Theorem C68_solver_dispatch (R : Type) ok back name (g c b : outcome (option R)) :
  solve_model ok back name g c b =
  match ok, back, name with
  | false, _, _ => Raised ValueError
  | true, true, _ => b
  | true, false, S_gensys => g
  | true, false, S_cycle_reduction => c
  | true, false, S_backward_direct => Raised ValueError
  | true, false, S_other => Raised NotImplemented
  end.
Proof. by rewrite /solve_model; case: ok; case: back; case: name. Qed.
