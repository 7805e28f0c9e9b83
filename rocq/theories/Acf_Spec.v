(* What an autocorrelation is, said without the formulas of the code: random variables are vectors with an inner product (their
   covariance), and a process is a run of the model driven by shocks that are uncorrelated over time. *)
From mathcomp Require Import all_ssreflect all_algebra.
From Verif Require Import Acf_Model.
Import GRing.Theory Num.Theory.
Set Implicit Arguments.
Unset Strict Implicit.
Unset Printing Implicit Defensive.
Local Open Scope ring_scope.
Section Process.
Variables (F : rcfType) (n k p : nat) (E : lmodType F).
(* a covariance of zero-mean random variables *)
Record covariance (cov : E -> E -> F) : Prop := {
  cov_add : forall a b c, cov (a + b) c = cov a c + cov b c;
  cov_scale : forall l a c, cov (l *: a) c = l * cov a c;
  cov_sym : forall a b, cov a b = cov b a;
  cov_pos : forall a, 0 <= cov a a }.
(* a vector of random variables, and a matrix applied to it *)
Definition act q r (M : 'M[F]_(q, r)) (x : 'I_r -> E) : 'I_q -> E := fun i => \sum_j M i j *: x j.
(* a run of the model over the periods 0..h: the first state has the stationary covariance and is uncorrelated with every
   later shock; shocks of different periods are uncorrelated; measurement errors are uncorrelated with everything else *)
Record run (cov : E -> E -> F) (m : statespace F n k p) (Sigma : 'M[F]_n) (h : nat)
    (x : nat -> 'I_n -> E) (e : nat -> 'I_k -> E) (u y : nat -> 'I_p -> E) : Prop := {
  run_start : forall i j, cov (x 0%N i) (x 0%N j) = Sigma i j;
  run_next : forall t, (t < h)%N -> forall i, x t.+1 i = act (trans m) (x t) i + act (selection m) (e t.+1) i;
  run_shock_start : forall t i j, (0 < t <= h)%N -> cov (e t i) (x 0%N j) = 0;
  run_shocks : forall s t i j, (0 < s <= h)%N -> (0 < t <= h)%N -> cov (e s i) (e t j) = if s == t then state_cov m i j else 0;
  run_obs : forall t, (t <= h)%N -> forall i, y t i = act (design m) (x t) i + u t i;
  run_errors : forall s t i j, (s <= h)%N -> (t <= h)%N -> cov (u s i) (u t j) = if s == t then obs_cov m i j else 0;
  run_error_start : forall t i j, (t <= h)%N -> cov (u t i) (x 0%N j) = 0;
  run_error_shock : forall s t i j, (s <= h)%N -> (0 < t <= h)%N -> cov (u s i) (e t j) = 0 }.
(* the correlation of two random variables that are not constant *)
Definition correlation (cov : E -> E -> F) (a b : E) : F := cov a b / (Num.sqrt (cov a a) * Num.sqrt (cov b b)).
End Process.
