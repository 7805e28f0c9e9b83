(* The statements: simulation, the shock covariance matrix, second moments, and the matrices the user supplies. *)
From mathcomp Require Import all_ssreflect all_algebra.
From Verif Require Import Sim_Model Sim_Spec Sim_Proofs.
Import GRing.Theory Num.Theory Order.TTheory.
Set Implicit Arguments.
Unset Strict Implicit.
Unset Printing Implicit Defensive.
Local Open Scope ring_scope.
Section S.
Variables (F : rcfType) (Name : eqType) (names : seq Name).
Notation k := (size names).
Hypothesis names_differ : uniq names.
Notation name_of := (tnth (in_tuple names)).
Notation Qdict d := (Q_args (Some d) None None).
Notation Qcov c := (Q_args None (Some c) None).
Notation Qstd s := (Q_args None None (Some s)).
Definition diagonal (v : 'I_k -> F) : 'M[F]_k := \matrix_(i, j) (if i == j then v i ^+ 2 else 0).

(* C71: with a dictionary, the variance of each shock is the square of its own entry, whatever the order of the entries *)
Theorem C71_dict (d : dict F Name) : uniq (keys d) -> keys d =i names ->
  build_Q names (Qdict d) = Returned (diagonal (fun i => odflt 0 (dict_get d (name_of i)))).
Proof.
move=> u e; rewrite /build_Q /validate_shock_options /=.
have -> : has (fun x => x \notin names) (keys d) = false by apply/hasPn => x; rewrite e negbK.
have -> : has (fun x => x \notin keys d) names = false by apply/hasPn => x; rewrite -e negbK.
rewrite /=; congr Returned.
have sub : {subset keys d <= names} by move=> x; rewrite e.
have full : forall i, name_of i \in keys d by move=> i; rewrite e mem_tnth.
have H (Q0 : 'M[F]_k) : foldl (fun Q x => @set_diag F Name names Q (index x.1 names) (x.2 ^+ 2)) Q0 d =
    \matrix_(i, j) (if (i == j) && (name_of i \in keys d) then odflt 0 (dict_get d (name_of i)) ^+ 2 else Q0 i j).
  elim: d u sub {e full} Q0 => [|[y v] d IH] /= u sub Q0; first by apply/matrixP => i j; rewrite !mxE andbF.
  case/andP: u => ny u; rewrite IH //; last by move=> x hx; apply: sub; rewrite inE hx orbT.
  have yn : y \in names by apply: sub; rewrite inE eqxx.
  have idx (i : 'I_k) : (nat_of_ord i == index y names) = (name_of i == y).
    rewrite (tnth_nth y) /=; apply/eqP/eqP => [->|<-]; first by rewrite nth_index.
    by rewrite index_uniq.
  apply/matrixP => i j; rewrite !mxE inE !idx; case: (i =P j) => [<-|nij] /=; last first.
    by case: eqP => //= E1; case: eqP => // E2; case: nij; apply/(tuple_uniqP (in_tuple names)); rewrite ?E1 ?E2.
  rewrite andbb [y == _]eq_sym; case: (name_of i =P y) => [E|_] //=.
  by rewrite E; move/negbTE: (ny) => ->.
by rewrite H; apply/matrixP => i j; rewrite !mxE full andbT.
Qed.
Theorem C71_scalar x : 0 <= x -> build_Q names (Qstd (Std_scalar x)) = Returned (diagonal (fun=> x)).
Proof.
move=> x0; rewrite /build_Q /validate_shock_options /= ltNge x0 /=; congr Returned.
by apply/matrixP => i j; rewrite !mxE; case: eqP => _; rewrite ?mul1r ?mul0r.
Qed.
Theorem C71_array v : size v = k -> (forall x, x \in v -> 0 < x) ->
  build_Q names (Qstd (Std_array v)) = Returned (diagonal (fun i => v`_i)).
Proof.
move=> S P; rewrite /build_Q /validate_shock_options /= S eqxx /=.
have -> : all (fun x => 0 < x) v by apply/allP.
by congr Returned; apply/matrixP => i j; rewrite !mxE; case: eqP => [->|_]; rewrite ?mul1r ?mul0r.
Qed.
Theorem C71_cov (c : ndarray F) : shape c = [:: k; k] -> build_Q names (Qcov c) = Returned (\matrix_(i, j) entry c i j).
Proof. by move=> S; rewrite /build_Q /validate_shock_options /= S /= eqxx. Qed.
(* what is refused *)
Theorem C71_one_option (a : q_args F Name) Q : build_Q names a = Returned Q -> (isSome (std_dict a) + isSome (cov_matrix a) + isSome (std a))%N = 1%N.
Proof. by rewrite /build_Q /validate_shock_options; case: eqP. Qed.
Theorem C71_refusals :
  [/\ (forall d : dict F Name, ~ keys d =i names -> build_Q names (Qdict d) = Raised ValueError),
      (forall x : F, x < 0 -> build_Q names (Qstd (Std_scalar x)) = Raised ValueError),
      (forall v : seq F, size v <> k \/ (exists2 x, x \in v & x <= 0) -> build_Q names (Qstd (Std_array v)) = Raised ValueError) &
      (forall c m p, shape c = [:: m; p] -> (m, p) <> (k, k) -> build_Q names (Q_args None (Some c) (None : option (std_arg F))) = Raised ValueError)].
Proof.
split.
- move=> d ne; rewrite /build_Q /validate_shock_options /=.
  case: hasP => [_|/hasP/hasPn H1] //=; case: hasP => [_|/hasP/hasPn H2] //=.
  by case: ne => x; apply/idP/idP => [/H1|/H2]; rewrite negbK.
- by move=> x x0; rewrite /build_Q /validate_shock_options /= x0.
- move=> v; rewrite /build_Q /validate_shock_options /=; case: eqP => //= S [//|[x xv x0]].
  case: allP => //= /(_ x xv); by rewrite ltNge x0.
- move=> c m p S ne; rewrite /build_Q /validate_shock_options /= S /=.
  case: (m =P k) => [E|_] //=; case: (p =P k) => [E'|_] //=; by case: ne; rewrite E E'.
Qed.
(* the three standard-deviation forms give a symmetric positive semidefinite matrix with no covariances *)
Theorem C71_psd v : psd (diagonal v).
Proof.
split; first by apply/matrixP => i j; rewrite !mxE eq_sym; case: eqP => // ->.
move=> x; rewrite mxE sumr_ge0 // => j _; rewrite mxE (bigD1 j) //= big1 => [|i ij].
  by rewrite !mxE eqxx addr0 mulrAC mulr_ge0 ?sqr_ge0 // -expr2 sqr_ge0.
by rewrite !mxE (negbTE ij) mulr0.
Qed.
(* a list of standard deviations is documented and always refused; a zero is accepted although "must be positive" is the
   message for what is refused; an array with one axis is accepted as a covariance matrix *)
Theorem C71_list_refuted (v : seq F) : size v = k -> build_Q names (Qstd (Std_list v)) = Raised TypeError.
Proof. by move=> S; rewrite /build_Q /validate_shock_options /= S eqxx. Qed.
Theorem C71_zero_refuted : build_Q names (Qstd (Std_scalar (0 : F))) = Returned 0.
Proof.
by rewrite C71_scalar //; congr Returned; apply/matrixP => i j; rewrite !mxE expr0n /= if_same.
Qed.
Theorem C71_flat_cov_refuted e : validate_shock_options names (Qcov (Nd [:: k] e : ndarray F)) = Returned tt.
Proof. by rewrite /validate_shock_options /= eqxx. Qed.

(* C31: simulate returns, for every simulation, the path driven by that simulation's own shocks *)
Lemma einsum_mul n m (M : 'M[F]_(n, m)) x : einsum M x = M *m x.
Proof. by apply/matrixP => i j; rewrite !mxE; apply: eq_bigr => l _; rewrite ord1. Qed.
Lemma simulate_one_sim n (T : 'M[F]_n) (R : 'M[F]_(n, k)) es : simulate_one T R es = simulate_linear_system T R es.
Proof.
case: es => [//|e es] /=; rewrite einsum_mul; congr (Returned (_ :: _)).
by elim: es (R *m e) => //= e' es' IH p; rewrite !einsum_mul IH.
Qed.
Theorem C31_simulate n (T : 'M[F]_n) (R : 'M[F]_(n, k)) a draws Q : build_Q names a = Returned Q ->
  (forall e, e \in draws Q -> e <> [::]) -> simulate T R a draws = Returned [seq moving_average T R e | e <- draws Q].
Proof.
move=> E; have V : validate_shock_options names a = Returned tt.
  by move: E; rewrite /build_Q; case: validate_shock_options => [[]|].
rewrite /simulate V E /=; elim: (draws Q) => //= e l IH ne.
have /sim_iff H : e <> [::] /\ follows T R e (moving_average T R e) by split; [apply: ne; rewrite inE eqxx|exact: follows_ma].
by rewrite simulate_one_sim H /= IH // => e' he; apply: ne; rewrite inE he orbT.
Qed.
Theorem C31_simulate_follows n (T : 'M[F]_n) (R : 'M[F]_(n, k)) a draws Q x : build_Q names a = Returned Q ->
  simulate T R a draws = Returned x -> size x = size (draws Q) /\
  forall s, (s < size x)%N -> follows T R (nth [::] (draws Q) s) (nth [::] x s).
Proof.
move=> E; have V : validate_shock_options names a = Returned tt.
  by move: E; rewrite /build_Q; case: validate_shock_options => [[]|].
rewrite /simulate V E /= => /in_turn_ok H.
have S : size (draws Q) = size x by rewrite -(size_map (simulate_one T R)) H size_map.
split=> // s Hs; have := congr1 (fun l => nth (Returned [::]) l s) H.
rewrite (nth_map [::]) ?S // (nth_map [::]) // simulate_one_sim => /sim_iff [_]; exact.
Qed.

Section Moments.
Variable n : nat.
Variable lyapunov : 'M[F]_n -> 'M[F]_n -> 'M[F]_n.
Variables (T : 'M[F]_n) (R : 'M[F]_(n, k)) (a : q_args F Name).
(* what scipy's solver promises *)
Hypothesis solves : forall W, lyapunov T W = T *m lyapunov T W *m T^T + W.
(* C72: the stationary covariance is a fixed point of the covariance recursion of the model, with the Q the user specified *)
Theorem C72_fixed_point S : stationary_covariance lyapunov T R a = Returned S ->
  exists2 Q, build_Q names a = Returned Q & S = T *m S *m T^T + R *m Q *m R^T.
Proof.
rewrite /stationary_covariance; case: validate_shock_options => [_|//] /=; case: build_Q => [Q0|//] /= [<-].
by exists Q0.
Qed.
(* covariance of the period-t row of a simulation started at rest *)
Fixpoint covariance_at (W : 'M[F]_n) (t : nat) : 'M[F]_n :=
  if t is s.+1 then T *m covariance_at W s *m T^T + W else W.
Lemma mpow_r i : matrix_power T i.+1 = T *m matrix_power T i.
Proof. by elim: i => [|i IH]; [rewrite /= mul1mx mulmx1|rewrite [LHS]/= -[matrix_power T i *m T]/(matrix_power T i.+1) {1}IH mulmxA]. Qed.
(* the distance between it and the stationary covariance is T^(t+1) S T'^(t+1) *)
Theorem C72_simulated_covariance S W t : S = T *m S *m T^T + W ->
  S - covariance_at W t = matrix_power T t.+1 *m S *m (matrix_power T t.+1)^T.
Proof.
move=> E; elim: t => [|t IH]; first by rewrite [matrix_power T 1]/= mul1mx /= {1}E addrK.
rewrite mpow_r; set P := matrix_power T t.+1 in IH *.
have -> : T *m P *m S *m (T *m P)^T = T *m (P *m S *m P^T) *m T^T by rewrite trmx_mul !mulmxA.
by rewrite -IH /= mulmxBr mulmxBl {1}E opprD addrACA subrr addr0.
Qed.
Lemma mpow_iter (S : 'M[F]_n) i : matrix_power T i *m S = iter i (mulmx T) S.
Proof. by elim: i => [|i IH]; rewrite ?mul1mx // mpow_r -mulmxA IH. Qed.
(* C72: lag i of the autocovariance array is Gamma(i) = T Gamma(i-1), starting from the stationary covariance *)
Theorem C72_autocovariance S n_lags i : (i < n_lags)%N ->
  forall x y, nth (fun _ _ => None) (compute_autocovariance T S n_lags false) i x y = Some ((iter i (mulmx T) S) x y).
Proof.
move=> Hi x y; rewrite nth_mkseq //= oner_eq0 divr1; congr (Some (_ x y)).
by rewrite mpow_iter.
Qed.
Theorem C72_correlation (S : 'M[F]_n) n_lags i x y : (i < n_lags)%N -> 0 < S x x -> 0 < S y y ->
  nth (fun _ _ => None) (compute_autocovariance T S n_lags true) i x y =
  Some ((iter i (mulmx T) S) x y / (Num.sqrt (S x x) * Num.sqrt (S y y))).
Proof.
move=> Hi px py; rewrite nth_mkseq //= mulf_eq0 !sqrtr_eq0 !leNgt px py /=; congr (Some (_ x y / _)).
by rewrite mpow_iter.
Qed.
Theorem C72_unit_diagonal (S : 'M[F]_n) n_lags x : (0 < n_lags)%N -> 0 < S x x ->
  nth (fun _ _ => None) (compute_autocovariance T S n_lags true) 0 x x = Some 1.
Proof.
move=> Hi px; rewrite C72_correlation //= -expr2 sqr_sqrtr ?ltW // divff //; exact: lt0r_neq0.
Qed.
(* variables without variance have no autocorrelation *)
Theorem C72_no_variance (S : 'M[F]_n) n_lags i x y : (i < n_lags)%N -> S x x = 0 ->
  nth (fun _ _ => None) (compute_autocovariance T S n_lags true) i x y = None.
Proof. by move=> Hi px; rewrite nth_mkseq //= px sqrtr0 mul0r eqxx. Qed.
End Moments.

(* correlations are between -1 and 1 *)
Section Bounds.
Variable n : nat.
Implicit Types (S W T : 'M[F]_n) (u v : 'cV[F]_n).
Definition form S u v := (u^T *m S *m v) 0 0.
Lemma formDr S u v w : form S u (v + w) = form S u v + form S u w. Proof. by rewrite /form mulmxDr mxE. Qed.
Lemma formDl S u v w : form S (u + v) w = form S u w + form S v w. Proof. by rewrite /form raddfD /= !mulmxDl mxE. Qed.
Lemma formZr S c u v : form S u (c *: v) = c * form S u v. Proof. by rewrite /form -scalemxAr mxE. Qed.
Lemma formZl S c u v : form S (c *: u) v = c * form S u v. Proof. by rewrite /form linearZ /= -!scalemxAl mxE. Qed.
Lemma form_sym S u v : symmetric S -> form S u v = form S v u.
Proof. by move=> E; rewrite /form -[in LHS](trmxK (u^T *m S *m v)) mxE !trmx_mul trmxK E mulmxA. Qed.
Lemma cauchy_schwarz S u v : psd S -> form S u v ^+ 2 <= form S u u * form S v v.
Proof.
move=> [sy P]; have Pu := P u; have Pv := P v; rewrite -/(form S u u) -/(form S v v) in Pu Pv.
have H c : 0 <= form S u u + 2%:R * c * form S u v + c ^+ 2 * form S v v.
  have := P (u + c *: v); rewrite -/(form S _ _) formDl !formDr formZl formZr formZl formZr.
  by rewrite (form_sym v u sy) -[2%:R * c * _]mulrA mulr_natl mulr2n expr2 !mulrA !addrA.
have [z|nz] := eqVneq (form S v v) 0.
  suff -> : form S u v = 0 by rewrite expr0n /= z mulr0.
  apply/eqP/negPn/negP => nu.
  have := H (- (form S u u + 1) / (2%:R * form S u v)); rewrite z mulr0 addr0.
  have -> : 2%:R * (- (form S u u + 1) / (2%:R * form S u v)) * form S u v = - (form S u u + 1).
    by rewrite -mulrA [_ / _ * _]mulrAC 2!mulrA [2%:R * _]mulrC -[_ * 2%:R * _]mulrA mulfK // mulf_neq0 // pnatr_eq0.
  by rewrite opprD addrA subrr add0r oppr_ge0 ler10.
have pv : 0 < form S v v by rewrite lt_neqAle eq_sym nz.
have := H (- form S u v / form S v v).
set q := form S u v; set vv := form S v v.
have -> : form S u u + 2%:R * (- q / vv) * q + (- q / vv) ^+ 2 * vv = form S u u - q ^+ 2 / vv.
  rewrite -addrA; congr (_ + _); rewrite exprMn sqrrN exprVn expr2 -!mulrA.
  have -> : (vv ^- 2 * vv) = vv^-1 by rewrite expr2 invfM -mulrA mulVf ?mulr1.
  have -> : 2%:R * (- q * (vv^-1 * q)) = - (q * (q * vv^-1)) *+ 2 by rewrite mulr_natl mulNr [vv^-1 * q]mulrC.
  by rewrite mulr2n -addrA addNr addr0.
by rewrite subr_ge0 ler_pdivr_mulr.
Qed.
Lemma form_delta S (x y : 'I_n) : form S (delta_mx x 0) (delta_mx y 0) = S x y.
Proof. by rewrite /form trmx_delta -rowE -colE !mxE. Qed.
Lemma iter_mul T S i : iter i (mulmx T) S = iter i (mulmx T) 1%:M *m S.
Proof. by elim: i => [|i IH] /=; rewrite ?mul1mx // IH mulmxA. Qed.
Lemma shrink T S W i u : psd W -> S = T *m S *m T^T + W ->
  form (iter i (mulmx T) 1%:M *m S *m (iter i (mulmx T) 1%:M)^T) u u <= form S u u.
Proof.
move=> [_ pw] E; elim: i u => [|i IH] u; first by rewrite mul1mx trmx1 mulmx1.
rewrite iterS; set M := iter i _ _ in IH *.
have -> : form (T *m M *m S *m (T *m M)^T) u u = form (M *m S *m M^T) (T^T *m u) (T^T *m u).
  by rewrite /form !trmx_mul !trmxK !mulmxA.
apply: le_trans (IH _) _.
have -> : form S u u = form S (T^T *m u) (T^T *m u) + form W u u.
  by rewrite {1}/form {1}E mulmxDr mulmxDl mxE /form !trmx_mul !trmxK !mulmxA.
rewrite ler_addl; exact: pw.
Qed.
(* C72: every autocorrelation is between -1 and 1, at every lag, when the solution of the covariance equation is a covariance
   matrix *)
Theorem C72_bounded T S W n_lags i x y c : psd S -> psd W -> S = T *m S *m T^T + W -> (i < n_lags)%N ->
  nth (fun _ _ => None) (compute_autocovariance T S n_lags true) i x y = Some c -> -1 <= c <= 1.
Proof.
move=> pS pW E Hi; have pos z : 0 <= S z z by rewrite -(form_delta S z z); apply: (pS.2).
have [z|nx] := eqVneq (S x x) 0; first by rewrite (C72_no_variance T y Hi z).
have [z|ny] := eqVneq (S y y) 0; first by rewrite nth_mkseq //= z sqrtr0 mulr0 eqxx.
have px : 0 < S x x by rewrite lt_neqAle eq_sym nx pos.
have py : 0 < S y y by rewrite lt_neqAle eq_sym ny pos.
rewrite C72_correlation // => -[<-]; rewrite iter_mul; set M := iter i _ _.
have B : ((M *m S) x y) ^+ 2 <= S x x * S y y.
  have -> : (M *m S) x y = form S (M^T *m delta_mx x 0) (delta_mx y 0).
    by rewrite -(form_delta (M *m S)) /form trmx_mul trmxK !mulmxA.
  apply: le_trans (cauchy_schwarz _ _ pS) _; rewrite form_delta ler_pmul2r //.
  have -> : form S (M^T *m delta_mx x 0) (M^T *m delta_mx x 0) = form (M *m S *m M^T) (delta_mx x 0) (delta_mx x 0).
    by rewrite /form !trmx_mul !trmxK !mulmxA.
  by apply: le_trans (shrink i _ pW E) _; rewrite form_delta.
set d := Num.sqrt _ * Num.sqrt _; have d0 : 0 < d by rewrite mulr_gt0 ?sqrtr_gt0.
rewrite -ler_norml normrM normfV (gtr0_norm d0) ler_pdivr_mulr // mul1r -(ler_pexpn2r (n := 2)) ?nnegrE ?normr_ge0 ?(ltW d0) //.
by rewrite -normrX ger0_norm ?sqr_ge0 // /d exprMn (sqr_sqrtr (ltW px)) (sqr_sqrtr (ltW py)).
Qed.
End Bounds.
(* but standard deviations given as a dictionary are always refused by the autocovariance function, although the stationary
   covariance accepts them; and given together with another option they are silently ignored *)
Theorem C72_dict_refuted n lyapunov (T : 'M[F]_n) (R : 'M[F]_(n, k)) (d : dict F Name) n_lags correlation :
  autocovariance lyapunov T R (Qdict d) n_lags correlation = Raised ValueError.
Proof. by []. Qed.
Theorem C72_dict_ignored_refuted n lyapunov (T : 'M[F]_n) (R : 'M[F]_(n, k)) (d : dict F Name) s n_lags correlation :
  autocovariance lyapunov T R (Q_args (Some d) None (Some s)) n_lags correlation =
  autocovariance lyapunov T R (Qstd s) n_lags correlation.
Proof. by []. Qed.
End S.

(* C73: what the user supplies is used, and what is incomplete is recomputed *)
Theorem C73_solution X Y (solve : outcome (X * Y)) T R :
  maybe_solve_model solve T R = match T, R with Some t, Some r => Returned (t, r) | _, _ => solve end.
Proof. by case: T; case: R. Qed.
Theorem C73_linear_system X (linearize : outcome (X * X * X * X)) A B C D r :
  maybe_linearize_model linearize true A B C D = Returned r ->
  match A, B, C, D with
  | Some _, Some _, Some _, Some _ => r = (A, B, C, D)
  | _, _, _, _ => exists a b c d, linearize = Returned (a, b, c, d) /\ r = (Some a, Some b, Some c, Some d)
  end.
Proof.
rewrite /maybe_linearize_model; case: A => [a|]; case: B => [b|]; case: C => [c|]; case: D => [d|] //=;
  try (by move=> [<-]); case: linearize => [[[[a' b'] c'] d']|] //= [<-]; by exists a', b', c', d'.
Qed.
(* with warnings switched off an incomplete set is returned as it is, with the holes *)
Theorem C73_quiet_refuted X (linearize : outcome (X * X * X * X)) a :
  maybe_linearize_model linearize false (Some a) None None None = Returned (Some a, None, None, None).
Proof. by []. Qed.
(* a steady state whose residuals are too large is refused *)
Theorem C73_steady_state (F : rcfType) (tol : F) residuals plain : accept_steady_state tol residuals plain = Returned tt ->
  forall x, Some x \in residuals -> `|x| <= tol.
Proof.
rewrite /accept_steady_state; case: hasP => // H _ x hx; rewrite leNgt; apply/negP => lt.
by apply: H; exists (Some x).
Qed.
(* but one whose residuals are not numbers is accepted, and a correct one given as a plain dictionary is refused *)
Theorem C73_nan_refuted (F : rcfType) (tol : F) m : accept_steady_state tol (nseq m None) false = Returned tt.
Proof. by rewrite /accept_steady_state; case: hasP => // -[x /nseqP [->]]. Qed.
Theorem C73_plain_dict_refuted (F : rcfType) (tol : F) m : 0 <= tol -> accept_steady_state tol (nseq m (Some 0)) true = Raised AttributeError.
Proof. by move=> t0; rewrite /accept_steady_state; case: hasP => // -[x /nseqP [->]]; rewrite normr0 ltNge t0. Qed.
