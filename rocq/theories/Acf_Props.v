(* The statements on model-implied autocorrelations. *)
From mathcomp Require Import all_ssreflect all_algebra.
From Verif Require Import Sim_Model Sim_Spec Sim_Proofs Sim_MProps Acf_Model Acf_Spec.
Import GRing.Theory Num.Theory Order.TTheory.
Set Implicit Arguments.
Unset Strict Implicit.
Unset Printing Implicit Defensive.
Local Open Scope ring_scope.
Section S.
Variables (F : rcfType) (n k p : nat).
Notation none := (fun _ _ => None).
(* the number of model periods between two lags *)
Definition spacing (lag_step : int) : nat := if lag_step is Posz m then maxn 1 m else 1%N.
Lemma iter_pow (T : 'M[F]_n) m : iter m (fun M => M *m T) T = iter m.+1 (mulmx T) 1%:M.
Proof.
elim: m => [|m IH] /=; first by rewrite mulmx1.
rewrite {}IH; elim: m => [|m IH]; first by rewrite /= mulmx1.
by rewrite [iter m.+2 _ _]iterS -mulmxA IH -!iterS.
Qed.
Lemma t_step_pow (T : 'M[F]_n) s : t_step T s = iter (spacing s) (mulmx T) 1%:M.
Proof. by rewrite /t_step iter_pow; case: s => [[|m]|m] //=; rewrite /spacing maxnE addnC subnK. Qed.
Lemma scan_nth f (x : 'M[F]_n) m i : (i < m)%N -> nth 0 (scan_steps f x m) i = iter i.+1 f x.
Proof. by elim: m x i => // m IH x [|i] //= Hi; rewrite IH // -iterSr. Qed.
Lemma size_scan f (x : 'M[F]_n) m : size (scan_steps f x m) = m.
Proof. by elim: m x => //= m IH x; rewrite IH. Qed.
Lemma size_powers (T : 'M[F]_n) s L : size (t_powers T s L) = L.+1.
Proof. by rewrite /= size_scan. Qed.
Lemma iter_add (T : 'M[F]_n) a b : iter (a + b) (mulmx T) 1%:M = iter a (mulmx T) 1%:M *m iter b (mulmx T) 1%:M.
Proof. by elim: a => [|a IH]; rewrite ?mul1mx // addSn !iterS IH mulmxA. Qed.
Lemma powers_nth (T : 'M[F]_n) s L i : (i <= L)%N -> nth 0 (t_powers T s L) i = iter (i * spacing s) (mulmx T) 1%:M.
Proof.
case: i => [|i] Hi //=; rewrite scan_nth // t_step_pow; elim: i.+1 => // j IH.
by rewrite iterS IH -iter_add mulSn addnC.
Qed.
Lemma normalise_nth q (C0 : 'M[F]_q) l i x y : (i < size l)%N -> 0 < C0 x x -> 0 < C0 y y ->
  nth none (normalise C0 l) i x y = Some (nth 0 l i x y / (Num.sqrt (C0 x x) * Num.sqrt (C0 y y))).
Proof. by move=> Hi px py; rewrite (nth_map 0) //= mulf_eq0 !sqrtr_eq0 !leNgt px py. Qed.
Lemma normalise_none q (C0 : 'M[F]_q) l i x y : (i < size l)%N -> C0 x x <= 0 \/ C0 y y <= 0 ->
  nth none (normalise C0 l) i x y = None.
Proof.
by move=> Hi H; rewrite (nth_map 0) //= mulf_eq0 !sqrtr_eq0; case: H => ->; rewrite ?orbT.
Qed.

Section Runs.
Variables (E : lmodType F) (cov : E -> E -> F).
Hypothesis C : covariance cov.
Definition covm q r (a : 'I_q -> E) (b : 'I_r -> E) : 'M[F]_(q, r) := \matrix_(i, j) cov (a i) (b j).
Definition plus q (a b : 'I_q -> E) i := a i + b i.
Lemma cov0 c : cov 0 c = 0. Proof. by rewrite -(scale0r 0) (cov_scale C) mul0r. Qed.
Lemma cov_sum (I : finType) (f : I -> E) c : cov (\sum_i f i) c = \sum_i cov (f i) c.
Proof. by apply: (big_morph (fun a => cov a c)) => [a b|]; rewrite ?(cov_add C) ?cov0. Qed.
Lemma covm_tr q r (a : 'I_q -> E) (b : 'I_r -> E) : covm a b = (covm b a)^T.
Proof. by apply/matrixP => i j; rewrite !mxE (cov_sym C). Qed.
Lemma covm_actl q r s (M : 'M[F]_(q, r)) a (b : 'I_s -> E) : covm (act M a) b = M *m covm a b.
Proof.
apply/matrixP => i j; rewrite !mxE cov_sum; apply: eq_bigr => l _; by rewrite mxE (cov_scale C).
Qed.
Lemma covm_actr q r s (M : 'M[F]_(q, r)) a (b : 'I_s -> E) : covm b (act M a) = covm b a *m M^T.
Proof. by rewrite covm_tr covm_actl trmx_mul -covm_tr. Qed.
Lemma covm_plusl q r (a b : 'I_q -> E) (c : 'I_r -> E) : covm (plus a b) c = covm a c + covm b c.
Proof. by apply/matrixP => i j; rewrite !mxE (cov_add C). Qed.
Lemma covm_plusr q r (a b : 'I_q -> E) (c : 'I_r -> E) : covm c (plus a b) = covm c a + covm c b.
Proof. by rewrite covm_tr covm_plusl linearD /= -!covm_tr. Qed.
Lemma covm_ext q r (a a' : 'I_q -> E) (b b' : 'I_r -> E) : a =1 a' -> b =1 b' -> covm a b = covm a' b'.
Proof. by move=> Ha Hb; apply/matrixP => i j; rewrite !mxE Ha Hb. Qed.

Variables (m : statespace F n k p) (S : 'M[F]_n) (h : nat).
Variables (x : nat -> 'I_n -> E) (e : nat -> 'I_k -> E) (u y : nat -> 'I_p -> E).
Hypothesis R : run cov m S h x e u y.
Hypothesis fixed : S = trans m *m S *m (trans m)^T + selection m *m state_cov m *m (selection m)^T.
Notation T := (trans m).
Notation next t := (plus (act T (x t)) (act (selection m) (e t.+1))).
Lemma nextE t : (t < h)%N -> x t.+1 =1 next t. Proof. by move=> Ht i; exact: (run_next R Ht). Qed.
Lemma shock_before s t : (t < s <= h)%N -> covm (e s) (x t) = 0.
Proof.
elim: t s => [|t IH] s H; first by apply/matrixP => i j; rewrite !mxE (run_shock_start R).
have /andP[H1 H2] := H; have ht : (t < h)%N by apply: leq_trans H2; exact: ltnW.
rewrite (covm_ext (frefl (e s)) (nextE ht)) covm_plusr !covm_actr IH ?mul0mx ?add0r; last by rewrite H2 andbT ltnW.
suff -> : covm (e s) (e t.+1) = 0 by rewrite mul0mx.
apply/matrixP => i j; rewrite !mxE (run_shocks R) ?ht ?H2 ?andbT //; last exact: leq_trans H1.
by rewrite gtn_eqF.
Qed.
Lemma error_state s t : (s <= h)%N -> (t <= h)%N -> covm (u s) (x t) = 0.
Proof.
move=> hs; elim: t => [|t IH] ht; first by apply/matrixP => i j; rewrite !mxE (run_error_start R).
rewrite (covm_ext (frefl (u s)) (nextE ht)) covm_plusr !covm_actr IH ?mul0mx ?add0r; last exact: ltnW.
suff -> : covm (u s) (e t.+1) = 0 by rewrite mul0mx.
by apply/matrixP => i j; rewrite !mxE (run_error_shock R).
Qed.
Lemma shock_now t : (0 < t <= h)%N -> covm (e t) (e t) = state_cov m.
Proof. by move=> Ht; apply/matrixP => i j; rewrite !mxE (run_shocks R) // eqxx. Qed.
(* every state of the run has the stationary covariance *)
Lemma stationary t : (t <= h)%N -> covm (x t) (x t) = S.
Proof.
elim: t => [|t IH] ht; first by apply/matrixP => i j; rewrite !mxE (run_start R).
have hx := shock_before (s := t.+1) (t := t); rewrite ltnSn ht /= in hx; have {hx} hx := hx isT.
have hx' : covm (x t) (e t.+1) = 0 by rewrite covm_tr hx trmx0.
rewrite (covm_ext (nextE ht) (nextE ht)) covm_plusl !covm_plusr !covm_actl !covm_actr hx hx' shock_now //.
by rewrite IH ?(ltnW ht) // mul0mx mul0mx !mulmx0 addr0 add0r [RHS]fixed !mulmxA.
Qed.
Lemma lagged t d : (t + d <= h)%N -> covm (x (t + d)%N) (x t) = iter d (mulmx T) 1%:M *m S.
Proof.
elim: d => [|d IH] H; first by rewrite addn0 mul1mx stationary // -[t]addn0.
rewrite addnS in H; rewrite addnS (covm_ext (nextE H) (frefl (x t))) covm_plusl !covm_actl IH; last exact: ltnW.
by rewrite shock_before ?mulmx0 ?addr0 ?iterS ?mulmxA // H andbT ltnS leq_addr.
Qed.
Lemma obs_now t : (t <= h)%N -> covm (y t) (y t) = design m *m S *m (design m)^T + obs_cov m.
Proof.
move=> ht; have Ey : y t =1 plus (act (design m) (x t)) (u t) by move=> i; exact: (run_obs R ht).
have hx := error_state ht ht; have hx' : covm (x t) (u t) = 0 by rewrite covm_tr hx trmx0.
have hu : covm (u t) (u t) = obs_cov m by apply/matrixP => i j; rewrite !mxE (run_errors R) // eqxx.
rewrite (covm_ext Ey Ey) covm_plusl !covm_plusr !covm_actl !covm_actr hx hx' hu stationary //.
by rewrite mul0mx mulmx0 addr0 add0r mulmxA.
Qed.
Lemma obs_lagged t d : (0 < d)%N -> (t + d <= h)%N ->
  covm (y (t + d)%N) (y t) = design m *m (iter d (mulmx T) 1%:M *m S) *m (design m)^T.
Proof.
move=> d0 H; have ht : (t <= h)%N by apply: leq_trans H; exact: leq_addr.
have Ey s : (s <= h)%N -> y s =1 plus (act (design m) (x s)) (u s) by move=> hs i; exact: (run_obs R hs).
have hx := error_state H ht; have hx' : covm (x (t + d)%N) (u t) = 0 by rewrite covm_tr error_state // trmx0.
have hu : covm (u (t + d)%N) (u t) = 0.
  by apply/matrixP => i j; rewrite !mxE (run_errors R) // -{2}[t]addn0 eqn_add2l gtn_eqF.
rewrite (covm_ext (Ey _ H) (Ey _ ht)) covm_plusl !covm_plusr !covm_actl !covm_actr hx hx' hu lagged //.
by rewrite mul0mx mulmx0 !addr0 mulmxA.
Qed.
End Runs.

Section Claims.
Variables (lyapunov : 'M[F]_n -> 'M[F]_n -> 'M[F]_n) (m : statespace F n k p).
Notation W := (selection m *m state_cov m *m (selection m)^T).
Notation S := (lyapunov (trans m) W).
(* what the Lyapunov solver promises *)
Hypothesis solved : S = trans m *m S *m (trans m)^T + W.

(* C128: entry (a, b) of lag i is the correlation of variable a with variable b, i observations of lag_step periods earlier,
   in every run of the model that starts from the stationary covariance, wherever in the run it is taken *)
Theorem C128_latent_is_correlation (E : lmodType F) (cov : E -> E -> F) h x e u y n_lags lag_step i t a b :
  covariance cov -> run cov m S h x e u y -> (i <= n_lags)%N -> (t + i * spacing lag_step <= h)%N ->
  0 < cov (x t a) (x t a) -> 0 < cov (x t b) (x t b) ->
  nth none (latent_autocorrelation lyapunov m n_lags lag_step) i a b =
  Some (correlation cov (x (t + i * spacing lag_step)%N a) (x t b)).
Proof.
move=> C R Hi H; have ht : (t <= h)%N by apply: leq_trans H; exact: leq_addr.
have St s c d : (s <= h)%N -> cov (x s c) (x s d) = S c d by move=> hs; rewrite -(stationary C R solved hs) mxE.
have Lag := lagged C R solved H; rewrite /correlation !(St t) // => pa pb.
rewrite /latent_autocorrelation normalise_nth //; last by rewrite /= size_map size_scan.
rewrite (St (t + _)%N) //; congr (Some (_ / _)).
have -> : cov (x (t + i * spacing lag_step)%N a) (x t b) = (iter (i * spacing lag_step) (mulmx (trans m)) 1%:M *m S) a b by rewrite -Lag mxE.
case: i Hi {H Lag} => [|i] Hi; first by rewrite mul1mx.
by rewrite -(powers_nth (trans m) lag_step Hi) /= (nth_map 0) // size_scan.
Qed.
Theorem C128_observed_is_correlation (E : lmodType F) (cov : E -> E -> F) h x e u y n_lags lag_step i t a b :
  covariance cov -> run cov m S h x e u y -> (i <= n_lags)%N -> (t + i * spacing lag_step <= h)%N ->
  0 < cov (y t a) (y t a) -> 0 < cov (y t b) (y t b) ->
  nth none (observed_autocorrelation lyapunov m n_lags lag_step) i a b =
  Some (correlation cov (y (t + i * spacing lag_step)%N a) (y t b)).
Proof.
move=> C R Hi H; have ht : (t <= h)%N by apply: leq_trans H; exact: leq_addr.
have St s c d : (s <= h)%N -> cov (y s c) (y s d) = (design m *m S *m (design m)^T + obs_cov m) c d.
  by move=> hs; rewrite -(obs_now C R solved hs) mxE.
rewrite /correlation !(St t) // => pa pb.
rewrite /observed_autocorrelation normalise_nth //; last by rewrite /= size_map size_scan.
rewrite (St (t + _)%N) //; congr (Some (_ / _)).
have sp : (0 < spacing lag_step)%N by case: (lag_step) => [j|] //=; rewrite leq_max.
case: i Hi H => [|i] Hi H; first by rewrite /= addn0 St.
have Lag := obs_lagged C R solved _ H; rewrite muln_gt0 sp in Lag; have {Lag} Lag := Lag isT.
have -> : cov (y (t + i.+1 * spacing lag_step)%N a) (y t b) =
    (design m *m (iter (i.+1 * spacing lag_step) (mulmx (trans m)) 1%:M *m S) *m (design m)^T) a b by rewrite -Lag mxE.
by rewrite -(powers_nth (trans m) lag_step Hi) /= (nth_map 0) // size_scan.
Qed.
(* there are n_lags + 1 lags *)
Theorem C128_lags n_lags lag_step : size (latent_autocorrelation lyapunov m n_lags lag_step) = n_lags.+1 /\
  size (observed_autocorrelation lyapunov m n_lags lag_step) = n_lags.+1.
Proof. by rewrite /= !size_map !size_scan. Qed.
(* a step of s periods reads every s-th lag of the native array; a step that is not positive is the same as a step of one *)
Theorem C128_spacing n_lags (s : nat) i : (0 < s)%N -> (i <= n_lags)%N ->
  nth none (latent_autocorrelation lyapunov m n_lags s%:Z) i =
    nth none (latent_autocorrelation lyapunov m (n_lags * s) 1) (i * s) /\
  nth none (observed_autocorrelation lyapunov m n_lags s%:Z) i =
    nth none (observed_autocorrelation lyapunov m (n_lags * s) 1) (i * s).
Proof.
move=> s0 Hi; have Hi' : (i * s <= n_lags * s)%N by rewrite leq_mul2r Hi orbT.
case: i Hi Hi' => [|i] Hi Hi'; first by rewrite mul0n.
have sp : spacing s%:Z = s by rewrite /spacing maxnE addnC subnK.
have P := powers_nth (trans m) s%:Z Hi; have P' := powers_nth (trans m) 1 Hi'; rewrite sp /= in P; rewrite /= muln1 in P'.
case E : (i.+1 * s)%N Hi' P' => [|j] Hj P'; first by move: E => /eqP; rewrite muln_eq0 /= gtn_eqF.
rewrite /= in P'.
by split; rewrite /= !(nth_map 0) ?size_map ?size_scan // P E P'.
Qed.
Theorem C128_not_positive_refuted n_lags (s : int) : s <= 0 ->
  latent_autocorrelation lyapunov m n_lags s = latent_autocorrelation lyapunov m n_lags 1 /\
  observed_autocorrelation lyapunov m n_lags s = observed_autocorrelation lyapunov m n_lags 1.
Proof. by case: s => [[|s]|s]. Qed.
(* the latent autocorrelations are those that the autocovariance function of the model gives for the same matrices *)
Theorem C128_same_as_model n_lags i a b : (i <= n_lags)%N ->
  nth none (latent_autocorrelation lyapunov m n_lags 1) i a b =
  nth none (compute_autocovariance (trans m) S n_lags.+1 true) i a b.
Proof.
move=> Hi; rewrite nth_mkseq ?ltnS //= mpow_iter iter_mul; set c := Num.sqrt _ * Num.sqrt _.
have := powers_nth (trans m) 1 Hi; rewrite muln1 => <-.
case: i Hi => [|i] Hi /=; first by rewrite mul1mx.
by rewrite !(nth_map 0) ?size_map ?size_scan.
Qed.
(* a variable without variance has no autocorrelation at any lag *)
Theorem C128_no_variance n_lags lag_step i a b : (i <= n_lags)%N -> S a a = 0 ->
  nth none (latent_autocorrelation lyapunov m n_lags lag_step) i a b = None /\
  nth none (latent_autocorrelation lyapunov m n_lags lag_step) i b a = None.
Proof.
by move=> Hi Z; split; apply: normalise_none; rewrite /= ?size_map ?size_scan //; [left|right]; rewrite Z.
Qed.
(* an observed series without variance and measurement error neither *)
Theorem C128_no_observed_variance n_lags lag_step i a b : (i <= n_lags)%N -> (design m *m S *m (design m)^T + obs_cov m) a a = 0 ->
  nth none (observed_autocorrelation lyapunov m n_lags lag_step) i a b = None /\
  nth none (observed_autocorrelation lyapunov m n_lags lag_step) i b a = None.
Proof.
by move=> Hi Z; split; apply: normalise_none; rewrite /= ?size_map ?size_scan //; [left|right]; rewrite Z.
Qed.
(* every autocorrelation is between -1 and 1 when the covariances are covariance matrices *)
Theorem C128_bounded n_lags lag_step i a b c : psd S -> psd W -> (i <= n_lags)%N ->
  nth none (latent_autocorrelation lyapunov m n_lags lag_step) i a b = Some c -> -1 <= c <= 1.
Proof.
move=> pS pW Hi.
have [s [s0 ->]] : exists s : nat, (0 < s)%N /\
    latent_autocorrelation lyapunov m n_lags lag_step = latent_autocorrelation lyapunov m n_lags s%:Z.
  by case: lag_step => [[|s]|s]; [exists 1%N|exists s.+1|exists 1%N].
rewrite (C128_spacing s0 Hi).1 C128_same_as_model; last by rewrite leq_mul2r Hi orbT.
by apply: (C72_bounded pS pW solved); rewrite ltnS leq_mul2r Hi orbT.
Qed.
Lemma form_mul q (Z : 'M[F]_(q, n)) (V : 'M[F]_n) (v w : 'cV[F]_q) : form (Z *m V *m Z^T) v w = form V (Z^T *m v) (Z^T *m w).
Proof. by rewrite /form trmx_mul trmxK !mulmxA. Qed.
Theorem C128_observed_bounded n_lags lag_step i a b c : psd S -> psd W -> psd (obs_cov m) -> (i <= n_lags)%N ->
  nth none (observed_autocorrelation lyapunov m n_lags lag_step) i a b = Some c -> -1 <= c <= 1.
Proof.
move=> pS pW pH Hi.
set C0 := design m *m S *m (design m)^T + obs_cov m.
have pC : psd C0.
  split; first by rewrite /symmetric /C0 linearD /= !trmx_mul trmxK (pS.1) (pH.1) mulmxA.
  move=> v; rewrite mulmxDr mulmxDl mxE addr_ge0 ?(pH.2) // -/(form _ v v) form_mul; exact: pS.2.
have pos z : 0 <= C0 z z by rewrite -(form_delta C0 z z); apply: (pC.2).
have sz : (i < size (set_first C0 [seq (design m *m (P *m S)) *m (design m)^T | P <- t_powers (trans m) lag_step n_lags]))%N.
  by rewrite /= size_map size_scan.
have [z|na] := eqVneq (C0 a a) 0; first by rewrite (C128_no_observed_variance _ _ Hi z).1.
have [z|nb] := eqVneq (C0 b b) 0; first by rewrite (C128_no_observed_variance _ _ Hi z).2.
have pa : 0 < C0 a a by rewrite lt_neqAle eq_sym na pos.
have pb : 0 < C0 b b by rewrite lt_neqAle eq_sym nb pos.
rewrite /observed_autocorrelation -/C0 normalise_nth // => -[<-]; set M := nth _ _ _.
have B : (M a b) ^+ 2 <= C0 a a * C0 b b.
  rewrite /M; case: i Hi {sz M} => [|i] Hi.
    by rewrite /= -(form_delta C0 a b) -(form_delta C0 a a) -(form_delta C0 b b); apply: cauchy_schwarz.
  rewrite [nth _ _ _](_ : _ = design m *m (nth 0 (t_powers (trans m) lag_step n_lags) i.+1 *m S) *m (design m)^T); last first.
    by rewrite /= (nth_map 0) // size_scan.
  rewrite powers_nth //; set P := iter _ _ _.
  have grow z : form (design m *m S *m (design m)^T) (delta_mx z 0) (delta_mx z 0) <= C0 z z.
    by rewrite -(form_delta C0) /C0 /form mulmxDr mulmxDl [X in _ <= X]mxE ler_addl; apply: (pH.2).
  rewrite -(form_delta (_ *m (design m)^T)) form_mul.
  have -> : form (P *m S) ((design m)^T *m delta_mx a 0) ((design m)^T *m delta_mx b 0) =
            form S (P^T *m ((design m)^T *m delta_mx a 0)) ((design m)^T *m delta_mx b 0).
    by rewrite /form !trmx_mul !trmxK !mulmxA.
  apply: le_trans (cauchy_schwarz _ _ pS) _; apply: ler_pmul; [exact: pS.2|exact: pS.2| |].
    apply: le_trans (grow a); rewrite form_mul.
    have -> : form S (P^T *m ((design m)^T *m delta_mx a 0)) (P^T *m ((design m)^T *m delta_mx a 0)) =
              form (P *m S *m P^T) ((design m)^T *m delta_mx a 0) ((design m)^T *m delta_mx a 0).
      by rewrite /form !trmx_mul !trmxK !mulmxA.
    exact: (shrink _ _ pW solved).
  by apply: le_trans (grow b); rewrite form_mul.
set d := Num.sqrt _ * Num.sqrt _; have d0 : 0 < d by rewrite mulr_gt0 ?sqrtr_gt0.
rewrite -ler_norml normrM normfV (gtr0_norm d0) ler_pdivr_mulr // mul1r -(ler_pexpn2r (n := 2)) ?nnegrE ?normr_ge0 ?(ltW d0) //.
by rewrite -normrX ger0_norm ?sqr_ge0 // /d exprMn (sqr_sqrtr (ltW pa)) (sqr_sqrtr (ltW pb)).
Qed.
End Claims.
End S.

(* a concrete run: an autoregression with coefficient 1/2 observed with error, two periods; the random variables are rows of
   four numbers, the loadings on four uncorrelated sources *)
Section Case.
Variable F : rcfType.
Definition half : 'M[F]_1 := (2%:R^-1)%:M.
Definition var : 'M[F]_1 := (4%:R / 3%:R)%:M.
Definition case_model : statespace F 1 1 1 := SSM half 1%:M 1%:M 1%:M 1%:M.
Definition case_cov (a b : 'rV[F]_4) : F := (a *m b^T) 0 0.
Definition source (i : 'I_4) : 'rV[F]_4 := delta_mx 0 i.
Definition case_x (t : nat) (_ : 'I_1) : 'rV[F]_4 :=
  let x0 := Num.sqrt (4%:R / 3%:R) *: source 0 in if t is 0%N then x0 else 2%:R^-1 *: x0 + source 1.
Definition case_e (t : nat) (_ : 'I_1) : 'rV[F]_4 := source 1.
Definition case_u (t : nat) (_ : 'I_1) : 'rV[F]_4 := if t is 0%N then source 2%:R else source 3%:R.
Definition case_y (t : nat) (i : 'I_1) : 'rV[F]_4 := case_x t i + case_u t i.
Lemma case_covariance : covariance case_cov.
Proof.
split=> [a b c|l a c|a b|a]; rewrite /case_cov.
- by rewrite mulmxDl mxE.
- by rewrite -scalemxAl mxE.
- by rewrite !mxE; apply: eq_bigr => j _; rewrite !mxE mulrC.
- by rewrite mxE sumr_ge0 // => j _; rewrite mxE -expr2 sqr_ge0.
Qed.
Lemma case_source i j : case_cov (source i) (source j) = (i == j)%:R.
Proof.
rewrite /case_cov /source trmx_delta mul_delta_mx_cond.
by case: (i == j); rewrite ?mulr1n ?mulr0n mxE ?eqxx.
Qed.
Lemma one_act q (M : 'M[F]_1) (x : 'I_1 -> 'rV[F]_q) i : act M x i = M 0 0 *: x 0.
Proof. by rewrite /act big_ord1 !ord1. Qed.
Theorem C128_case_run : run case_cov case_model var 1 case_x case_e case_u case_y.
Proof.
have C := case_covariance.
have q0 : 0 <= 4%:R / 3%:R :> F by rewrite divr_ge0 ?ler0n.
have Zr l a b : case_cov a (l *: b) = l * case_cov a b by rewrite (cov_sym C) (cov_scale C) (cov_sym C).
have q00 : case_cov (source 0) (source 0) = 1 by rewrite case_source eqxx.
have I1 i j : (1%:M : 'M[F]_1) i j = 1 by rewrite !ord1 mxE eqxx.
split.
- by move=> i j; rewrite /= (cov_scale C) Zr q00 mulr1 -expr2 sqr_sqrtr // !ord1 mxE eqxx mulr1n.
- by case=> // _ i; rewrite !one_act /= !mxE eqxx mulr1n scale1r.
- by move=> t i j _; rewrite /= Zr case_source mulr0.
- case=> [|[|s]] // [|[|t]] // i j _ _; by rewrite /= I1 /case_e case_source.
- by move=> t _ i; rewrite one_act /= mxE eqxx mulr1n scale1r !ord1.
- by case=> [|[|s]] // [|[|t]] // i j _ _; rewrite /case_u case_source /= ?I1.
- by case=> [|[|s]] // i j _; rewrite /= Zr case_source mulr0.
- by case=> [|[|s]] // [|[|t]] // i j _ _; rewrite /= case_source.
Qed.
Theorem C128_case : nth (fun _ _ => None) (observed_autocorrelation (fun _ _ => var) case_model 1 1) 1 0 0 = Some (2%:R / 7%:R).
Proof.
have n3 : 3%:R != 0 :> F by rewrite pnatr_eq0.
have n2 : 2%:R != 0 :> F by rewrite pnatr_eq0.
have n7 : 7%:R != 0 :> F by rewrite pnatr_eq0.
have V : (1%:M *m var *m (1%:M : 'M[F]_1)^T + 1%:M) 0 0 = 7%:R / 3%:R.
  rewrite mul1mx trmx1 mulmx1 /var -raddfD mxE eqxx mulr1n /=.
  by apply: (mulIf n3); rewrite mulrDl !divfK // mul1r -natrD.
have p : 0 < (1%:M *m var *m (1%:M : 'M[F]_1)^T + 1%:M) 0 0 by rewrite V divr_gt0 ?ltr0n.
rewrite /observed_autocorrelation normalise_nth //= -expr2 sqr_sqrtr ?ltW // V.
rewrite !mul1mx trmx1 mulmx1 /half /var /t_step /= -scalar_mxM mxE eqxx mulr1n; congr Some.
rewrite invf_div -mulrA [4%:R / 3%:R * _]mulrA divfK // mulrA.
by have -> : 4%:R = 2%:R * 2%:R :> F; [rewrite -natrM|rewrite mulKf].
Qed.
End Case.
