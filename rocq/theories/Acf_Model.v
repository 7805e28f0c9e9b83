(* The model-implied autocorrelations of a statespace model, one posterior draw.
   gEconpy/model/statespace.py l.1217-1303 (DSGEStateSpace.sample_autocorrelation_matrices) *)
From mathcomp Require Import all_ssreflect all_algebra.
Import GRing.Theory Num.Theory.
Set Implicit Arguments.
Unset Strict Implicit.
Unset Printing Implicit Defensive.
Local Open Scope ring_scope.
Section Acf.
Variables (F : rcfType) (n k p : nat).
(* the matrices that unpack_statespace gives, l.1268: transition, design, selection, measurement and shock covariance *)
Record statespace := SSM { trans : 'M[F]_n; design : 'M[F]_(p, n); selection : 'M[F]_(n, k); obs_cov : 'M[F]_p; state_cov : 'M[F]_k }.
(* pt.linalg.solve_discrete_lyapunov, l.1270, is a parameter *)
Variable lyapunov : 'M[F]_n -> 'M[F]_n -> 'M[F]_n.
(* range(lag_step - 1), l.1277: nothing for a step that is not positive *)
Definition range_minus_one (lag_step : int) : nat := match lag_step with Posz m => m.-1 | Negz _ => 0%N end.
(* T_step, l.1276-1278 *)
Definition t_step (T : 'M[F]_n) (lag_step : int) : 'M[F]_n := iter (range_minus_one lag_step) (fun M => M *m T) T.
(* pytensor.scan, l.1280-1286: the outputs of n_steps steps, without the initial value *)
Fixpoint scan_steps (f : 'M[F]_n -> 'M[F]_n) (prev : 'M[F]_n) (n_steps : nat) : seq 'M[F]_n :=
  match n_steps with 0%N => [::] | m.+1 => let x := f prev in x :: scan_steps f x m end.
(* l.1279, 1287 *)
Definition t_powers (T : 'M[F]_n) (lag_step : int) (n_lags : nat) : seq 'M[F]_n :=
  1%:M :: scan_steps (fun prev => prev *m t_step T lag_step) 1%:M n_lags.
(* pt.set_subtensor(autocov[0], autocov_0), l.1295 *)
Definition set_first q (x : 'M[F]_q) (l : seq 'M[F]_q) : seq 'M[F]_q := match l with [::] => [::] | _ :: r => x :: r end.
(* l.1297-1298: [None] is the NaN or infinity of a division by zero, or by the root of a negative number *)
Definition normalise q (autocov_0 : 'M[F]_q) (l : seq 'M[F]_q) : seq ('I_q -> 'I_q -> option F) :=
  map (fun (M : 'M[F]_q) i j => let c := Num.sqrt (autocov_0 i i) * Num.sqrt (autocov_0 j j) in
                                if c == 0 then None else Some (M i j / c)) l.
(* observed=False, l.1293-1294 *)
Definition latent_autocorrelation (m : statespace) (n_lags : nat) (lag_step : int) :=
  let Sigma := lyapunov (trans m) (selection m *m state_cov m *m (selection m)^T) in
  normalise Sigma (set_first Sigma [seq P *m Sigma | P <- t_powers (trans m) lag_step n_lags]).
(* observed=True, l.1289-1291 *)
Definition observed_autocorrelation (m : statespace) (n_lags : nat) (lag_step : int) :=
  let Sigma := lyapunov (trans m) (selection m *m state_cov m *m (selection m)^T) in
  let autocov_0 := design m *m Sigma *m (design m)^T + obs_cov m in
  normalise autocov_0
    (set_first autocov_0 [seq (design m *m (P *m Sigma)) *m (design m)^T | P <- t_powers (trans m) lag_step n_lags]).
End Acf.
