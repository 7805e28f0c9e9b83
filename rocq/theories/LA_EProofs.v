(* Lemmas: the solver inside an estimation graph. *)
From mathcomp Require Import all_ssreflect all_algebra.
From Verif Require Import LA_Spec LA_Model LA_Proofs LA_Main LA_GModel LA_BModel LA_EModel.
Import GRing.Theory Num.Theory Order.TTheory.
Set Implicit Arguments.
Unset Strict Implicit.
Unset Printing Implicit Defensive.
Local Open Scope ring_scope.

(* cyclic reduction in which [j] is added to the diagonal of every matrix that is inverted *)
Fixpoint jreduced (F : fieldType) n (j : F) (A0 A1 A2 : 'M[F]_n) (k : nat) : 'M[F]_n * 'M[F]_n * 'M[F]_n * 'M[F]_n :=
  match k with
  | 0 => (A0, A1, A2, A1)
  | k'.+1 => let: (a0, a1, a2, h) := jreduced j A0 A1 A2 k' in
             let i := invmx (a1 + j%:M) in
             (- (a0 *m i *m a0), a1 - a0 *m i *m a2 - a2 *m i *m a0, - (a2 *m i *m a2), h - a2 *m i *m a0)
  end.
Lemma jreduced0 (F : fieldType) n (A0 A1 A2 : 'M[F]_n) k : jreduced 0 A0 A1 A2 k = reduced A0 A1 A2 k.
Proof. by elim: k => //= k ->; case: (reduced _ _ _ k) => [[[a0 a1] a2] h]; rewrite (raddf0 (scalar_mx_additive _ _)) addr0. Qed.

Section Scan.
Variables (F : realFieldType) (n : nat) (j : F).
Notation M := 'M[F]_n.+1.
Definition jred0 (A0 A1 A2 : M) k := (jreduced j A0 A1 A2 k).1.1.1.
Definition jred1 (A0 A1 A2 : M) k := (jreduced j A0 A1 A2 k).1.1.2.
Definition jred2 (A0 A1 A2 : M) k := (jreduced j A0 A1 A2 k).1.2.
Definition jhat (A0 A1 A2 : M) k := (jreduced j A0 A1 A2 k).2.
Definition jstate A0 A1 A2 k : cr_state F n := CR (jred0 A0 A1 A2 k) (jred1 A0 A1 A2 k) (jred2 A0 A1 A2 k) (jhat A0 A1 A2 k).
Lemma scan_passE A0 A1 A2 k : scan_pass j (jstate A0 A1 A2 k) =
  if jred1 A0 A1 A2 k + j%:M \in unitmx then Returned (jstate A0 A1 A2 k.+1) else Raised LinAlgError.
Proof.
rewrite /scan_pass /np_solve /= /stabilize; case: ifP => // U /=; congr Returned.
rewrite /jstate /jred0 /jred1 /jred2 /jhat /=; case: (jreduced _ _ _ _ k) => [[[a0 a1] a2] h] /=.
rewrite mul_mx_row mul_col_row block_mxKul block_mxKur block_mxKdl block_mxKdr !mulmxA.
done.
Qed.
Definition carried A0 A1 A2 k : F := if k is 0 then 10%:R ^+ 9 else norm1 (jred0 A0 A1 A2 k).
Lemma scan_from tol A0 A1 A2 N : forall k s m,
  scan_loop j tol N (jstate A0 A1 A2 k) (carried A0 A1 A2 k) k = Returned (s, m) ->
  [/\ (k <= m <= k + N)%N, s = jstate A0 A1 A2 m, forall i, (k <= i < m)%N -> jred1 A0 A1 A2 i + j%:M \in unitmx,
      forall i, (k <= i < m)%N -> tol <= carried A0 A1 A2 i & (m < k + N)%N -> carried A0 A1 A2 m < tol].
Proof.
have none k i : (k <= i < k)%N = false by rewrite andbC; apply/negbTE; rewrite negb_and -leqNgt; case: (leqP k i).
elim: N => [|N IH] k s m /=.
  move=> [<- <-]; rewrite addn0 leqnn; split=> // [i|i|]; by rewrite ?none ?ltnn.
case: ifP => [small|big].
  have stay : scan_loop j tol N (jstate A0 A1 A2 k) (carried A0 A1 A2 k) k = Returned (jstate A0 A1 A2 k, k).
    by clear IH; elim: N => //= N ->; rewrite small.
  rewrite stay => -[<- <-]; rewrite leqnn leq_addr; split=> // i; by rewrite none.
rewrite scan_passE; case: ifP => // U /= /IH [/andP [l1 l2] -> inv bg last]; split=> //.
- by rewrite (ltnW l1) /= addnS.
- move=> i /andP [ki im]; case: (ltngtP k i) ki => // [lt|<-] _ //; by apply: inv; rewrite lt.
- move=> i /andP [ki im]; case: (ltngtP k i) ki => // [lt|<-] _ //; by [apply: bg; rewrite lt|rewrite leNgt big].
- by rewrite addnS => H; apply: last.
Qed.
(* conversely the loop runs through while the pivots are invertible and the norms large *)
Lemma scan_runs tol A0 A1 A2 N : forall k,
  (forall i, (k <= i < k + N)%N -> jred1 A0 A1 A2 i + j%:M \in unitmx) -> (forall i, (k <= i < k + N)%N -> tol <= carried A0 A1 A2 i) ->
  scan_loop j tol N (jstate A0 A1 A2 k) (carried A0 A1 A2 k) k = Returned (jstate A0 A1 A2 (k + N), (k + N)%N).
Proof.
elim: N => [|N IH] k U big /=; first by rewrite addn0.
rewrite ltNge big ?leqnn ?addnS ?ltnS ?leq_addr //= scan_passE U ?leqnn ?addnS ?ltnS ?leq_addr //= -addSn.
apply: (IH k.+1) => i; rewrite addSnnS => /andP [a b]; [apply: U|apply: big]; by rewrite (ltnW a).
Qed.
End Scan.

(* when the lag matrix has vanished, the candidate is a solution *)
Section Lag.
Variables (F : realFieldType) (n : nat).
Notation M := 'M[F]_n.+1.
Lemma level_back_zero (A0 A1 A2 : M) k p x0 : forall N (y : nat -> 'M[F]_(n.+1, p)),
  invertible_below A0 A1 A2 k -> level A0 A1 A2 k x0 y -> (forall m, (N <= m)%N -> y m = 0) ->
  exists z, [/\ level A0 A1 A2 0 x0 z, z 0%N = y 0%N & forall m, (2 ^ k * N <= m)%N -> z m = 0].
Proof.
elim: k => [|k IH] N y Hk L zero; first by exists y; split=> // m; rewrite expn0 mul1n; apply: zero.
have U := Hk k (ltnSn k); have [z Lz ez] := level_up U L.
have zz m : (N.*2 <= m)%N -> z m = 0.
  move=> le; rewrite -(odd_double_half m); have h : (N <= m./2)%N by rewrite -(doubleK N) half_leq.
  case: (odd m) => /=; last by rewrite add0n ez zero.
  have := Lz.2 m./2.*2; rewrite -doubleS !ez !zero ?mulmx0 ?addr0 ?add0r //; last by apply: leq_trans h _.
  by move/(congr1 (mulmx (invmx (red1 A0 A1 A2 k)))); rewrite mulKmx // mulmx0.
have [w [Lw ew zw]] := IH _ z (fun j jk => Hk j (ltnW jk)) Lz zz.
exists w; split=> //; first by rewrite ew -(ez 0%N).
by move=> m; rewrite expnS -mulnA mulnCA mul2n; apply: zw.
Qed.
Lemma exact_solution_lag (A0 A1 A2 : M) k :
  invertible_below A0 A1 A2 k -> hat A0 A1 A2 k \in unitmx -> red0 A0 A1 A2 k = 0 ->
  solves A0 A1 A2 (- (invmx (hat A0 A1 A2 k) *m A0)).
Proof.
move=> inv U Z; set T := - _; pose y m : M := if m is 0 then T else 0.
have Ly : level A0 A1 A2 k (1%:M : M) y.
  by split=> [|m]; rewrite /y /= ?Z ?mul0mx ?mulmx0 ?addr0 // mulmx1 /T mulmxN mulKVmx // subrr.
have [z [[L0 L1] z0 zz]] := level_back_zero (N := 1) inv Ly (fun m => match m with 0 => fun h => False_ind _ (notF h) | _.+1 => fun _ => erefl end).
have Ls : level A0 A1 A2 0 (z 0%N) (fun m => z m.+1) by split=> [|m]; [exact: (L1 0%N)|exact: L1].
have [E _] := level_iter inv Ls; move: E; rewrite muln0 muln1 (zz (2 ^ k).+1) ?muln1 // mulmx0 addr0 z0 /y => E.
have z1 : z 1%N = T *m T.
  move/(congr1 (mulmx (invmx (hat A0 A1 A2 k)))): E; rewrite mulmx0 mulmxDr mulKmx // mulmxA => /eqP; rewrite addrC addr_eq0 => /eqP ->.
  by rewrite [in RHS]/T mulNmx.
by move: L0; rewrite z0 /y z1 mulmx1.
Qed.
End Lag.
