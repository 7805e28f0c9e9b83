(* The statements: residual norms and the Blanchard-Kahn check. *)
From mathcomp Require Import all_ssreflect all_algebra.
From Verif Require Import LA_Spec LA_Model LA_Main LA_Props LA_Props2 LA_GModel LA_GSpec LA_GProofs LA_GMain LA_GProps LA_BModel LA_BProofs LA_GCase_Props.
Import GRing.Theory Num.Theory Order.TTheory.
Set Implicit Arguments.
Unset Strict Implicit.
Unset Printing Implicit Defensive.
Local Open Scope ring_scope.

Lemma sum_set (F : ringType) n (S : {set 'I_n}) (f : 'I_n -> F) : \sum_(l < n | l \in S) f l = \sum_(l < #|S|) f (enum_val l).
Proof. by rewrite -(big_enum_val (fun i => f i)). Qed.

Section C29.
Variables (F : rcfType) (n k : nat) (A B C T : 'M[F]_n) (D R : 'M[F]_(n, k)) (tol : F).
Hypothesis tol0 : 0 < tol.
Notation PP := (threshold tol T). Notation QQ := (threshold tol R).
Notation st := (@state F n tol T).
Lemma max_ge p (f : 'I_p -> F) i : f i <= \big[Num.max/0]_i f i.
Proof. by apply: (@bigmax_upper F _ _ f); rewrite mem_index_enum. Qed.
Lemma max_lt p (f : 'I_p -> F) c : 0 < c -> (forall i, f i < c) -> \big[Num.max/0]_i f i < c.
Proof. by move=> c0 H; elim/big_ind: _ => // x y hx hy; rewrite lt_maxl hx. Qed.
Lemma state_iff j : (j \in state_vars tol T) = [exists i, tol <= `|T i j|].
Proof.
rewrite inE; apply/idP/existsP => [H|[i H]]; last exact: le_trans H (max_ge (fun i => `|T i j|) i).
apply/existsP; rewrite -[X in is_true X]negbK; apply/negP => /existsPn E.
have : \big[Num.max/0]_i `|T i j| < tol by apply: max_lt => // i; rewrite ltNge E.
by rewrite ltNge H.
Qed.
Lemma PP_zero i j : j \notin state_vars tol T -> PP i j = 0.
Proof. by rewrite state_iff => /existsPn /(_ i); rewrite -ltNge mxE => ->. Qed.
Lemma sum_state p q (X : 'M[F]_(p, n)) (Y : 'M[F]_(n, q)) : (forall i j, j \notin state_vars tol T -> X i j = 0) ->
  colsub st X *m rowsub st Y = X *m Y.
Proof.
move=> Z; apply/matrixP => i j; rewrite !mxE [RHS](bigID (mem (state_vars tol T))) /= [X in _ + X]big1 ?addr0; last first.
  by move=> l /Z ->; rewrite mul0r.
rewrite sum_set.
by apply: eq_bigr => l _; rewrite !mxE.
Qed.
Lemma frobenius0 m p (X : 'M[F]_(m, p)) : frobenius X = 0 <-> X = 0.
Proof.
split=> [/eqP|->]; last by rewrite /frobenius big1 ?sqrtr0 // => i _; rewrite big1 // => j _; rewrite mxE expr0n.
have P i : 0 <= \sum_j X i j ^+ 2 by apply: sumr_ge0 => j _; exact: sqr_ge0.
rewrite sqrtr_eq0 => S; have S0 : \sum_i \sum_j X i j ^+ 2 = 0 by apply/eqP; rewrite eq_le S sumr_ge0.
apply/matrixP => i j; rewrite mxE; move/eqP: S0; rewrite psumr_eq0 // => /allP /(_ i (mem_index_enum i)) /=.
by rewrite psumr_eq0 => [/allP /(_ j (mem_index_enum j)) /=|l _]; [rewrite sqrf_eq0 => /eqP|exact: sqr_ge0].
Qed.

(* C29: the two numbers reported are the norms of the residuals of the thresholded solution: of the policy equation in the
   columns of the state variables, and of the impact equation in all columns *)
Theorem C29_norms :
  residual_norms A B C D T R tol =
  (frobenius (colsub st (A + B *m PP + C *m (PP *m PP))), frobenius (B *m QQ + C *m (PP *m QQ) + D)).
Proof.
rewrite /residual_norms; congr pair; congr frobenius.
  have -> : mxsub st st PP = rowsub st (colsub st PP) by apply/matrixP => i j; rewrite !mxE.
  rewrite -mulmxA sum_state; last exact: PP_zero.
  have cm (X Y : 'M[F]_n) : X *m colsub st Y = colsub st (X *m Y) by apply/matrixP => i j; rewrite !mxE; apply: eq_bigr => l _; rewrite !mxE.
  by rewrite !cm; apply/matrixP => i j; rewrite !mxE.
by rewrite -mulmxA sum_state //; exact: PP_zero.
Qed.
(* ... so, if no entry of T and R is rounded off, both norms are zero exactly when R is the impact matrix and the policy
   equation holds in the columns of the state variables; in the other columns its residual is that column of A *)
Theorem C29_zero_norms :
  (forall i j, T i j <> 0 -> tol <= `|T i j|) -> (forall i j, R i j <> 0 -> tol <= `|R i j|) ->
  (residual_norms A B C D T R tol = (0, 0) <->
   impact_of B C T D R /\ forall i j, (exists i', T i' j <> 0) -> (A + B *m T + C *m (T *m T)) i j = 0) /\
  (forall i j, (forall i', T i' j = 0) -> (A + B *m T + C *m (T *m T)) i j = A i j).
Proof.
move=> HT HR; have th m p (X : 'M[F]_(m, p)) : (forall i j, X i j <> 0 -> tol <= `|X i j|) -> threshold tol X = X.
  move=> H; apply/matrixP => i j; rewrite mxE; case: ifP => // lt; apply/eqP; rewrite eq_sym; apply/negPn/negP => /eqP ne.
  by move: (H i j ne); rewrite leNgt lt.
rewrite C29_norms !th //; split; last first.
  move=> i j Z; rewrite !mxE [\sum_j0 B i j0 * _]big1 ?[\sum_j0 C i j0 * _]big1 ?addr0 // => l _; last by rewrite Z mulr0.
  by rewrite mxE big1 ?mulr0 // => m _; rewrite Z mulr0.
have S j : (exists i', T i' j <> 0) <-> j \in state_vars tol T.
  rewrite state_iff; split=> [[i' /HT H]|/existsP [i' H]]; first by apply/existsP; exists i'.
  by exists i' => z; move: H; rewrite z normr0 leNgt tol0.
split=> [[/frobenius0 a /frobenius0 b]|[b a]].
  split=> // i j /S js; move/matrixP: a => /(_ i (enum_rank_in js j)); by rewrite !mxE /state enum_rankK_in.
congr (_, _); apply/frobenius0 => //; apply/matrixP => i j; rewrite [LHS]mxE [RHS]mxE a //; apply/S; exact: enum_valP.
Qed.
End C29.
(* refuted: zero norms certify the solution.  For every A <> 0 the zero matrix passes, whatever B and C are *)
Theorem C29_zero_norm_certifies_refuted (F : rcfType) n (A B C : 'M[F]_n) (tol : F) : 0 < tol -> A <> 0 ->
  residual_norms A B C (0 : 'M[F]_(n, 1)) 0 0 tol = (0, 0) /\ ~ solves A B C 0.
Proof.
move=> t0 nz; split; last by rewrite /solves !mulmx0 !addr0.
have z m i j : (0 : 'M[F]_(n, m)) i j <> 0 -> tol <= `|(0 : 'M[F]_(n, m)) i j| by rewrite mxE.
have [E _] := @C29_zero_norms F n 1 A B C 0 0 0 tol t0 (z n) (z 1%N); apply/E.
by split=> [|i j [i']]; [rewrite /impact_of !mulmx0 !addr0|rewrite mxE].
Qed.

(* ---------- Blanchard-Kahn ---------- *)
Section C30.
Variable K : numClosedFieldType.
Variables (n k : nat) (A B C : 'M[K]_n) (D : 'M[K]_(n, k)) (tol : K).
Notation N := (n + n_leads C tol)%N.
(* what scipy's ordqz returns for the pencil: unitary U, V and triangular AA, BB *)
Record ordqz_contract (AA BB U V : 'M[K]_N) : Prop := {
  oq_U : ct U *m U = 1%:M; oq_V : ct V *m V = 1%:M;
  oq_A : (bk_pencil A B C tol).1 = U *m AA *m ct V; oq_B : (bk_pencil A B C tol).2 = U *m BB *m ct V;
  oq_upA : upper AA; oq_upB : upper BB }.
(* no eigenvalue is within the tolerance of the unit circle *)
Definition clear (AA BB : 'M[K]_N) : Prop := forall i, AA i i + tol != 0 /\
  (`|BB i i| + tol < `|AA i i| \/ `|AA i i| + tol < `|BB i i|).

(* C30: an unknown return_value is refused; otherwise ValueError is raised exactly when the condition fails and on_failure is
   "raise"; otherwise what was asked for is returned; the condition compares the number of columns of C that are not
   negligible with the number of eigenvalues above one in modulus *)
Theorem C30_outcome (AA BB : 'M[K]_N) raise rv :
  let satisfied := #|[set j | tol < \sum_i `|C i j|]| = count (@modulus_above_one K) (bk_eigenvalues AA BB) in
  match check_bk_condition AA BB raise rv with
  | Raised e => e = ValueError /\ (rv = Other_value \/ raise /\ ~ satisfied)
  | Returned r => rv <> Other_value /\ (raise -> satisfied) /\
      match r with
      | Table t => rv = Dataframe /\ t = bk_eigenvalues AA BB
      | Verdict b => rv = Bool /\ (b <-> satisfied)
      | NoResult => rv = Nothing
      end
  end.
Proof.
move=> satisfied; have S : reflect satisfied (n_forward C tol == n_unstable AA BB) by exact: eqP.
rewrite /check_bk_condition; case: rv => //=; last (by split; [|left]); case: S => s /=; case: raise => //=;
  try (by split; [|right]); split=> //; split=> //; split=> //; by split.
Qed.

Variables (d : qz K N) (ns nu : nat) (e : (ns + nu)%N = N).
Hypothesis tol0 : 0 < tol.
Hypothesis okq : qz_contract tol (set_g0 B C tol) (set_g1 A C tol) d ns.
Hypothesis regular : ~~ [exists i, coincident tol (qalpha d i) (qbeta d i)].

(* ... away from the unit circle the second number is that of the unstable roots gensys finds, by whatever decompositions *)
Theorem C30_counts_agree AA BB U V : ordqz_contract AA BB U V -> clear AA BB -> n_unstable AA BB = nu.
Proof.
move=> O cl; have [z cn] := gensys_count e tol0 okq regular.
have uu (X : 'M[K]_N) : ct X *m X = 1%:M -> X \in unitmx /\ ct X \in unitmx by move=> H; have [a b] := mulmx1_unit H.
have [uQ _] := uu _ (qz_Q okq); have [_ uZ] := uu _ (qz_Z okq); have [uU _] := uu _ (oq_U O); have [_ uV] := uu _ (oq_V O).
have upN : upper (- AA) by move=> i j ij; rewrite mxE (oq_upA O) ?oppr0.
have E1 : qQ d *m qA d *m ct (qZ d) = U *m - AA *m ct V.
  by rewrite -(qz_g0 okq) mulmxN mulNmx -(oq_A O) opprK.
have E2 : qQ d *m qB d *m ct (qZ d) = U *m BB *m ct V by rewrite -(qz_g1 okq) -(oq_B O).
have [_ E3] := equivalent_count (qz_upA okq) (qz_upB okq) upN (oq_upB O) E1 E2 uQ uZ uU uV z.
rewrite -cn E3 cnt_pairs /n_unstable /bk_eigenvalues count_map -size_filter cardE /enum_mem; congr size; rewrite -filter_predI; apply: eq_filter => i.
have tr : tol \is Num.real by rewrite realE (ltW tol0).
have [a0 cl'] := cl i; rewrite /= andbT inE /eigenvalue_at (negbTE a0) /= mxE normrM normfV ltr_pdivl_mulr ?normr_gt0 // mul1r /inside /= normrN.
case: cl' => h.
  have ba : `|BB i i| < `|AA i i| by apply: le_lt_trans h; rewrite ler_addl (ltW tol0).
  rewrite (lt_geF ba) /=; apply/negbTE; apply/negP => h2.
  have := ler_norm_sub (AA i i + tol) tol; rewrite addrK (ger0_norm (ltW tol0)) => h3.
  have := lt_le_trans h h3; rewrite ltr_add2r => h4; by have := lt_trans h2 h4; rewrite ltxx.
have ab : `|AA i i| <= `|BB i i| by apply: le_trans (ltW h); rewrite ler_addl (ltW tol0).
have b0 : BB i i != 0 by rewrite -normr_gt0; apply: le_lt_trans h; rewrite addr_ge0 ?(ltW tol0).
rewrite ab b0; apply: le_lt_trans h; apply: le_trans (ler_norm_add _ _) _; by rewrite (ger0_norm (ltW tol0)).
Qed.

Variables (s : svd K nu (n_leads C tol)) (s1 : svd K ns (n_leads C tol)).
Hypothesis ok2 : svd_contract tol (svd_input (set_pi C tol) d e) s.
Hypothesis ok1 : svd_contract tol (svd_input_1 (set_pi C tol) d e) s1.
(* ... and a model that gensys solves satisfies the condition *)
Theorem C30_solved_models_pass AA BB U V onerr T R raise :
  ordqz_contract AA BB U V -> clear AA BB ->
  solve_with_gensys (gensys_core (set_const C tol) (set_psi C D tol) (set_pi C tol) tol d e s s1 (\rank (loose_for_rank s s1))) onerr
    = Returned (Some T, Some R) ->
  check_bk_condition AA BB raise Bool = Returned (Verdict K true).
Proof.
move=> O cl; rewrite C66_outcome_follows_the_codes.
have [Gc [Ic [_ _ -> _]]] := gensys_facts (set_const C tol) (set_psi C D tol) (\rank (loose_for_rank s s1)) tol0 okq regular ok2 ok1.
rewrite /success /=; case: ifP => [/andP [/eqP x0 /eqP x1] _|]; last by case: onerr.
have rk : \rank (set_pi C tol) = n_leads C tol.
  by rewrite pi_form rank_col_0mx mxrank1.
have En := codes_count tol0 okq ok2 ok1 rk (enough_of x0) (loose_zero x1).
by rewrite /check_bk_condition (C30_counts_agree O cl) /n_forward -/(lead_vars C tol) -/(n_leads C tol) -En eqxx.
Qed.
(* refuted: the table lists the model's roots.  For every solution T of the model and every eigenvalue m of T, one of the
   eigenvalues reported is -m, up to the tolerance added to the denominator *)
Theorem C30_roots_reported_refuted AA BB U V (T : 'M[K]_n) m :
  ordqz_contract AA BB U V -> (forall j, ~~ (tol < \sum_i `|C i j|) -> col j C = 0) -> solves A B C T -> eigenvalue T m ->
  exists i, BB i i = - m * AA i i /\ (AA i i + tol != 0 -> eigenvalue_at AA BB i = Some (- m * (AA i i / (AA i i + tol)))).
Proof.
move=> O dr so /eigenvalueP [w0 ew nw].
suff [i E] : exists i, BB i i = - m * AA i i.
  by exists i; split=> // nz; rewrite /eigenvalue_at (negbTE nz) E mulrA.
have dT : \det (T - m%:M) == 0.
  by apply/det0P; exists w0 => //; rewrite mulmxBr ew mul_mx_scalar subrr.
move: dT; rewrite -det_tr => /det0P [u nu0 eu].
have ev : T *m u^T = m *: u^T.
  apply: trmx_inj; apply/eqP; rewrite -subr_eq0; apply/eqP; rewrite -[RHS]eu trmx_mul trmxK linearZ /= trmxK linearB /= mulmxBr tr_scalar_mx.
  by rewrite mul_mx_scalar.
pose v := stacked C tol T *m u^T.
have v0 : v^T != 0.
  apply: contraNneq nu0 => /(congr1 trmx); rewrite trmxK trmx0 /v /stacked mul_col_mx mul1mx => /(congr1 usubmx).
  by rewrite col_mxKu => E; rewrite -[u]trmxK E (_ : usubmx 0 = 0) ?trmx0 //; apply/matrixP => i j; rewrite !mxE.
have Z : (set_g1 A C tol - m *: set_g0 B C tol) *m v = 0.
  rewrite mulmxBl; have -> : set_g1 A C tol *m v = m *: (set_g0 B C tol *m v) by rewrite [in RHS]/v {1}/v !mulmxA -(stacked_inv dr so) -[_ *m T *m _]mulmxA ev -scalemxAr.
  by rewrite -scalemxAl subrr.
have : \det (BB + m *: AA) == 0.
  have E : set_g1 A C tol - m *: set_g0 B C tol = U *m (BB + m *: AA) *m ct V.
    rewrite mulmxDr mulmxDl -(oq_B O) -scalemxAr -scalemxAl -(oq_A O) /=; move: (set_g0 _ _ _) (set_g1 _ _ _) => x y; by apply/matrixP => i j; rewrite !mxE mulrN.
  have : \det (U *m (BB + m *: AA) *m ct V) == 0.
    by rewrite -E -det_tr; apply/det0P; exists v^T => //; rewrite -trmx_mul Z trmx0.
  rewrite !det_mulmx !mulf_eq0; have dn (X : 'M[K]_N) : ct X *m X = 1%:M -> \det X != 0 /\ \det (ct X) != 0.
    by move=> H; have [a b] := mulmx1_unit H; move: a b; rewrite !unitmxE !unitfE.
  have [a _] := dn _ (oq_U O); have [_ b] := dn _ (oq_V O); by rewrite (negbTE a) (negbTE b) orbF.
rewrite -det_tr det_trig; last first.
  by apply/is_trig_mxP => i j ij; rewrite !mxE (oq_upA O ij) (oq_upB O ij) mulr0 addr0.
move/prodf_eq0 => [i _ /eqP]; rewrite !mxE => E.
by exists i; apply/eqP; rewrite mulNr -addr_eq0 E.
Qed.
End C30.

(* hypotheses met: the model of C65_case *)
Theorem C30_case (K : numClosedFieldType) :
  exists (d : qz K (1 + n_leads (C1 K) (tol K))) (e : (1 + 1)%N = (1 + n_leads (C1 K) (tol K))%N),
    [/\ qz_contract (tol K) (set_g0 (B1 K) (C1 K) (tol K)) (set_g1 (A1 K) (C1 K) (tol K)) d 1,
        ~~ [exists i, coincident (tol K) (qalpha d i) (qbeta d i)],
        ordqz_contract (A1 K) (B1 K) (- qA d) (qB d) (qQ d) (qZ d) & clear (- qA d) (qB d)].
Proof.
have [d [e [s [s1 [q _ _ [z c] _]]]]] := case_facts (leads1 K) (g0_form (B1 K) (C1 K) (tol K)) (g1_form (A1 K) (C1 K) (tol K)) (pi_form (C1 K) (tol K)).
exists d, e; split=> //.
  split; rewrite ?(qz_Q q) ?(qz_Z q) //=.
  - by rewrite mulmxN mulNmx -(qz_g0 q).
  - exact: (qz_g1 q).
  - by move=> i j ij; rewrite mxE (qz_upA q ij) oppr0.
  - exact: (qz_upB q).
by move=> i; have [a b] := c i; rewrite mxE normrN.
Qed.

(* refuted: a satisfied condition means that there is a stable solution.  Two unrelated variables, x = 2 x(-1), which explodes,
   and y(-1) - 10/3 y + 8/3 y(+1) = 0, which is indeterminate: one unstable root, one forward-looking variable *)
Section Refuted.
Variable K : numClosedFieldType.
Notation r := (ratr : rat -> K).
Definition q3 (f : nat -> nat -> rat) : 'M[rat]_3 := \matrix_(i, j) f i j.
Definition f3 (a b c d e f g h i : rat) (x y : nat) : rat :=
  match x, y with 0%N, 0%N => a | 0%N, 1%N => b | 0%N, _ => c | 1%N, 0%N => d | 1%N, 1%N => e | 1%N, _ => f | _, 0%N => g | _, 1%N => h | _, _ => i end.
Definition dd2 (a b : rat) : 'M[K]_2 := map_mx r (m22 a 0 0 b).
Definition Ax := dd2 (- 2%:R) 1. Definition Bx := dd2 1 (- (10%:R / 3%:R)). Definition Cx := dd2 0 (8%:R / 3%:R).
Definition rot := q3 (f3 1 0 0 0 (4%:R / 5%:R) (- (3%:R / 5%:R)) 0 (3%:R / 5%:R) (4%:R / 5%:R)).
Definition AAx := q3 (f3 1 0 0 0 (- (4%:R / 3%:R)) (11%:R / 3%:R) 0 0 (- 2%:R)).
Definition BBx := q3 (f3 (- 2%:R) 0 0 0 1 0 0 0 1).
Definition mg0 := q3 (f3 1 0 0 0 (- (10%:R / 3%:R)) (8%:R / 3%:R) 0 (- 1) 0).
Lemma ord3 (i : 'I_3) : [\/ i = 0, i = 1 | i = 2%:R].
Proof. by case: i => [[|[|[|]]]] // H; [apply: Or31|apply: Or32|apply: Or33]; apply: val_inj. Qed.
Lemma q3M f g : q3 f *m q3 g = q3 (fun i j => f i 0%N * g 0%N j + f i 1%N * g 1%N j + f i 2%N * g 2%N j).
Proof. by apply/matrixP => i j; rewrite !mxE !big_ord_recl big_ord0 !mxE addr0 addrA. Qed.
Lemma q3_eq f g : (forall i j, (i < 3)%N -> (j < 3)%N -> f i j == g i j) -> q3 f = q3 g.
Proof. by move=> H; apply/matrixP => i j; rewrite !mxE; apply/eqP/H. Qed.
Ltac q3t := apply: q3_eq => -[|[|[|]]] // -[|[|[|]]] // _ _; by vm_compute.
Lemma leadsx : lead_vars Cx (tol K) = [set 1].
Proof.
apply/setP => j; rewrite !inE /Cx /dd2 !big_ord_recl big_ord0 !mxE addr0 !norm_r -rmorphD /tol ltr_r.
by case: (ord2 j) => ->; vm_compute.
Qed.
Lemma stablex X : stable_mx X -> ~ solves Ax Bx Cx X.
Proof.
move=> st so; have : `|2%:R : K| < 1.
  apply: st; apply/eigenvalueP; exists (delta_mx 0 0).
    have e j : X 0 j = r 2%:R *+ (j == 0).
      move/matrixP: so => /(_ 0 j); rewrite !mxE !big_ord_recl !big_ord0 !mxE /= !rmorph0 rmorph1 !mul0r !addr0 mul1r.
      case: (ord2 j) => -> /=; rewrite ?rmorph0 ?add0r // rmorphN => /eqP; by rewrite addrC subr_eq0 => /eqP.
    apply/matrixP => i j; rewrite !mxE (bigD1 0) //= big1 ?addr0 => [|l /negbTE ne]; last by rewrite mxE !ord1 ne andbF mul0r.
    by rewrite mxE !ord1 !eqxx mul1r e eq_sym rmorph_nat mulr_natr.
  by apply/eqP => /matrixP /(_ 0 0); rewrite !mxE !eqxx => /eqP; rewrite oner_eq0.
by rewrite normr_nat -[1]/(1%:R) ltr_nat.
Qed.
Theorem C30_satisfied_means_solvable_refuted :
  (exists (AA BB U V : 'M[K]_(2 + n_leads Cx (tol K))),
     [/\ ordqz_contract Ax Bx AA BB U V, clear AA BB & check_bk_condition AA BB true Bool = Returned (Verdict K true)]) /\
  forall X, stable_mx X -> ~ solves Ax Bx Cx X.
Proof.
split; last exact: stablex.
have L : n_leads Cx (tol K) = 1%N by rewrite /n_leads leadsx cards1.
suff H : forall l (E : l = 1%N) (g0 g1 : 'M[K]_(2 + l)), (forall i j, g0 i j = r (mg0 (inord i) (inord j))) -> (forall i j, g1 i j = r (BBx (inord i) (inord j))) ->
  exists AA BB U V : 'M[K]_(2 + l), [/\ ct U *m U = 1%:M, ct V *m V = 1%:M, g0 = U *m AA *m ct V, g1 = U *m BB *m ct V &
   [/\ upper AA, upper BB, (forall i, AA i i + tol K != 0 /\ (`|BB i i| + tol K < `|AA i i| \/ `|AA i i| + tol K < `|BB i i|)) &
     count (fun i : 'I_(2 + l) => 1 < `|BB i i / (AA i i + tol K)|) (enum 'I_(2 + l)) = 1%N]].
  have l1 k : @lead_var_idx K 2 Cx (tol K) k = 1 by apply/eqP; rewrite -in_set1 -leadsx; exact: enum_valP.
  have v2 (k : 'I_(n_leads Cx (tol K))) : k = 0%N :> nat by apply/eqP; rewrite -leqn0 -ltnS; apply: leq_trans (ltn_ord k) (eq_leq L).
  have [||AA [BB [U [V [a b c d [u1 u2 cl ct1]]]]]] := H _ L (- set_g0 Bx Cx (tol K)) (set_g1 Ax Cx (tol K)).
  - have i2 (k : 'I_2) : (k < 3)%N by apply: ltn_trans (ltn_ord k) _.
    move=> i j; rewrite g0_form mxE !mxE; case: splitP => i' Ei; rewrite !mxE; case: splitP => j' Ej; rewrite !mxE ?l1 Ei Ej ?v2 !inordK ?i2 ?opprK //.
    + by case: (ord2 i') => ->; case: (ord2 j') => ->.
    + by case: (ord2 i') => ->.
    + by case: (ord2 j') => -> /=; rewrite ?rmorphN ?rmorph1 ?rmorph0 ?oppr0.
    + by rewrite oppr0 /= rmorph0.
  - have i2 (k : 'I_2) : (k < 3)%N by apply: ltn_trans (ltn_ord k) _.
    move=> i j; rewrite g1_form mxE; case: splitP => i' Ei; rewrite !mxE; case: splitP => j' Ej; rewrite !mxE Ei Ej ?v2 !inordK ?i2 //.
    + by case: (ord2 i') => ->; case: (ord2 j') => ->.
    + by case: (ord2 i') => -> /=; rewrite rmorph0.
    + by case: (ord2 j') => -> /=; rewrite rmorph0.
    + rewrite /= rmorph1 (_ : i' = j') ?eqxx //; apply: val_inj; by rewrite /= !v2.
  exists AA, BB, U, V; split=> //.
  have n1 : n_unstable AA BB = 1%N.
    rewrite -[RHS]ct1 /n_unstable /bk_eigenvalues count_map; apply: eq_count => i /=; rewrite /eigenvalue_at.
    by have [/negbTE -> _] := cl i.
  by rewrite /check_bk_condition n1 /n_forward -/(lead_vars Cx (tol K)) leadsx cards1 eqxx.
move=> l -> g0 g1 E0 E1; exists (map_mx r AAx), (map_mx r BBx), (map_mx r rot), (map_mx r rot).
have G0 : g0 = map_mx r mg0 by apply/matrixP => i j; rewrite E0 [RHS]mxE; congr (r (mg0 _ _)); exact: inord_val.
have G1 : g1 = map_mx r BBx by apply/matrixP => i j; rewrite E1 [RHS]mxE; congr (r (BBx _ _)); exact: inord_val.
have rT : rot^T = q3 (f3 1 0 0 0 (4%:R / 5%:R) (3%:R / 5%:R) 0 (- (3%:R / 5%:R)) (4%:R / 5%:R)).
  by apply/matrixP => i j; rewrite !mxE; case: i => -[|[|[|]]] //; case: j => -[|[|[|]]].
have un : rot^T *m rot = 1%:M.
  rewrite rT q3M; apply/matrixP => i j; rewrite !mxE; apply: ratE.
  by case: (ord3 i) => ->; case: (ord3 j) => ->; vm_compute.
have U1 : ct (map_mx r rot) *m map_mx r rot = 1%:M by rewrite ct_r -map_mxM un map_scalar_mx rmorph1.
split=> //.
- by rewrite G0 ct_r -!map_mxM rT !q3M; congr (map_mx _ _); q3t.
- by rewrite G1 ct_r -!map_mxM rT !q3M; congr (map_mx _ _); q3t.
split.
- by move=> i j; rewrite !mxE; case: i => -[|[|[|]]] //; case: j => -[|[|[|]]] //= *; rewrite rmorph0.
- by move=> i j; rewrite !mxE; case: i => -[|[|[|]]] //; case: j => -[|[|[|]]] //= *; rewrite rmorph0.
- move=> i; rewrite !mxE /tol -rmorphD fmorph_eq0 !norm_r -!rmorphD !ltr_r.
  by case: (ord3 i) => ->; (split; [by vm_compute|]); [right|left|left]; vm_compute.
rewrite enumT -[Finite.enum _]enumT !enum_ordS /= (_ : enum 'I_0 = [::]) ?/=; last by apply: size0nil; rewrite size_enum_ord.
rewrite !mxE /= /tol -!rmorphD -!fmorphV -!rmorphM !norm_r -(rmorph1 (ratr_rmorphism K)) !ltr_r. by vm_compute.
Qed.
End Refuted.
