(* Proofs about the solvers: cyclic reduction. *)
From mathcomp Require Import all_ssreflect all_algebra.
From Verif Require Import LA_Spec LA_Model.
Import GRing.Theory Num.Theory Order.TTheory.
Set Implicit Arguments.
Unset Strict Implicit.
Unset Printing Implicit Defensive.
Local Open Scope ring_scope.

Section CRP.
Variable F : realFieldType.
Variable n : nat.
Notation M := 'M[F]_n.+1.

Definition state_at (A0 A1 A2 : M) k := CR (red0 A0 A1 A2 k) (red1 A0 A1 A2 k) (red2 A0 A1 A2 k) (hat A0 A1 A2 k).

Lemma redS (A0 A1 A2 : M) k :
  [/\ red0 A0 A1 A2 k.+1 = - (red0 A0 A1 A2 k *m invmx (red1 A0 A1 A2 k) *m red0 A0 A1 A2 k),
      red1 A0 A1 A2 k.+1 = red1 A0 A1 A2 k - red0 A0 A1 A2 k *m invmx (red1 A0 A1 A2 k) *m red2 A0 A1 A2 k
                           - red2 A0 A1 A2 k *m invmx (red1 A0 A1 A2 k) *m red0 A0 A1 A2 k,
      red2 A0 A1 A2 k.+1 = - (red2 A0 A1 A2 k *m invmx (red1 A0 A1 A2 k) *m red2 A0 A1 A2 k) &
      hat A0 A1 A2 k.+1 = hat A0 A1 A2 k - red2 A0 A1 A2 k *m invmx (red1 A0 A1 A2 k) *m red0 A0 A1 A2 k].
Proof.
rewrite /red0 /red1 /red2 /hat /=; by case: (reduced A0 A1 A2 k) => [[[a0 a1] a2] h] /=.
Qed.

Lemma cr_passE (A0 A1 A2 : M) k :
  cr_pass (state_at A0 A1 A2 k) =
  if red1 A0 A1 A2 k \in unitmx then Returned (state_at A0 A1 A2 k.+1) else Raised LinAlgError.
Proof.
rewrite /cr_pass /np_solve /=; case: ifP => // _ /=.
rewrite mul_mx_row mul_col_row block_mxKul block_mxKur block_mxKdl block_mxKdr.
rewrite /state_at; have [-> -> -> ->] := redS A0 A1 A2 k.
by rewrite !mulmxA.
Qed.

Definition invertible_below (A0 A1 A2 : M) k := forall j, (j < k)%N -> red1 A0 A1 A2 j \in unitmx.

(* where the loop is left *)
Definition quiet (A0 A1 A2 : M) (tol : F) k j := forall i, (k < i < j)%N -> ~ both_small A0 A1 A2 tol i.
Definition end_of (A0 A1 A2 : M) (tol : F) k N (r : outcome (loop_end F n)) : Prop :=
  match r with
  | Raised e => e = LinAlgError /\ exists2 j, (k <= j < k + N)%N & red1 A0 A1 A2 j \notin unitmx
  | Returned (Left_loop s) => exists j, [/\ (k <= j <= k + N)%N, s = state_at A0 A1 A2 j, invertible_below A0 A1 A2 j,
        quiet A0 A1 A2 tol k j &
        ((k < j)%N /\ both_small A0 A1 A2 tol j) \/
        (j = k + N)%N /\ (N = 0%N \/ norm1 (red0 A0 A1 A2 j) < tol)]
  | Returned (Gave_up s) => [/\ (0 < N)%N, s = state_at A0 A1 A2 (k + N), invertible_below A0 A1 A2 (k + N),
        quiet A0 A1 A2 tol k (k + N) &
        ~~ (norm1 (red0 A0 A1 A2 (k + N)) < tol)]
  end.
Lemma loop_from (A0 A1 A2 : M) tol (k N : nat) :
  invertible_below A0 A1 A2 k -> end_of A0 A1 A2 tol k N (cr_loop tol N (state_at A0 A1 A2 k)).
Proof.
elim: N k => [|N IH] k Hk.
  exists k; rewrite addn0 leqnn; split=> //; last by right; split=> //; left.
  by move=> i /andP [a b]; move: (ltn_trans a b); rewrite ltnn.
rewrite /=; rewrite cr_passE; case: ifP => U /=; last first.
  by split=> //; exists k; rewrite ?leqnn ?addnS ?ltnS ?leq_addr //= U.
have Hk1 : invertible_below A0 A1 A2 k.+1.
  move=> j; rewrite ltnS leq_eqVlt => /orP [/eqP -> //|]; exact: Hk.
have step : ~ both_small A0 A1 A2 tol k.+1 -> (N = 0%N -> norm1 (red0 A0 A1 A2 k.+1) < tol) ->
     end_of A0 A1 A2 tol k N.+1 (cr_loop tol N (state_at A0 A1 A2 k.+1)).
  move=> nb at0; move: (IH _ Hk1); rewrite /end_of addSnnS.
  have q j : quiet A0 A1 A2 tol k.+1 j -> quiet A0 A1 A2 tol k j.
    move=> Q i /andP [i1 i2]; move: i1; rewrite leq_eqVlt => /orP [/eqP <- //|i1]; apply: Q; by rewrite i1.
  case: (cr_loop _ _ _) => [[s|s]|e] //.
  - case=> j [/andP [j1 j2] es inv Q cond]; exists j; split=> //; first by rewrite (ltnW j1).
      exact: q.
    case: cond => [[c1 c2]|[c [N0|c0]]]; [left|right|right]; split=> //.
    + right; move: j1 j2 (at0 N0); rewrite N0 addn1 => j1 j2; have -> // : j = k.+1.
      by apply/eqP; rewrite eqn_leq j1 j2.
    + by right.
  - by case=> a b c Q d; split=> //; exact: q.
  - by case=> -> [j /andP [j1 j2] nu]; split=> //; exists j => //; rewrite (ltnW j1).
case: ifP => C0.
  case: ifP => C2.
    exists k.+1; split=> //.
    - by rewrite leqnSn addnS ltnS leq_addr.
    - by move=> i /andP [a b]; move: (leq_ltn_trans a b); rewrite ltnn.
    - by left; split=> //; split.
  apply: step; first by case; rewrite C2.
  by [].
case: N step {IH} => [_|N step].
  rewrite /end_of addn1; split=> //; last by rewrite C0.
  by move=> i /andP [a b]; move: (leq_ltn_trans a b); rewrite ltnn.
by apply: step => //; case; rewrite C0.
Qed.

Lemma state0 (A0 A1 A2 : M) : CR A0 A1 A2 A1 = state_at A0 A1 A2 0. Proof. by []. Qed.

(* ---------- the reduced recurrences ---------- *)
Definition level (A0 A1 A2 : M) j p (x0 : 'M[F]_(n.+1, p)) (y : nat -> 'M[F]_(n.+1, p)) : Prop :=
  A0 *m x0 + hat A0 A1 A2 j *m y 0%N + red2 A0 A1 A2 j *m y 1%N = 0 /\
  forall m, red0 A0 A1 A2 j *m y m + red1 A0 A1 A2 j *m y m.+1 + red2 A0 A1 A2 j *m y m.+2 = 0.

Lemma solve_mid p (a0 a1 a2 : M) (u v w : 'M[F]_(n.+1, p)) : a1 \in unitmx ->
  (a0 *m u + a1 *m v + a2 *m w = 0 <-> v = - (invmx a1 *m (a0 *m u + a2 *m w))).
Proof.
move=> U; split=> [H|->].
  have -> : a0 *m u + a2 *m w = - (a1 *m v).
    by apply/eqP; rewrite -subr_eq0 opprK addrAC; apply/eqP.
  by rewrite mulmxN opprK mulKmx.
by rewrite mulmxN mulKVmx // addrAC subrr.
Qed.

Lemma level_down (A0 A1 A2 : M) j p x0 (y : nat -> 'M[F]_(n.+1, p)) :
  red1 A0 A1 A2 j \in unitmx -> level A0 A1 A2 j x0 y -> level A0 A1 A2 j.+1 x0 (fun m => y m.*2).
Proof.
move=> U [H0 H]; rewrite /level; have [-> -> -> ->] := redS A0 A1 A2 j.
set a0 := red0 _ _ _ _ in H *; set a1 := red1 _ _ _ _ in U H *; set a2 := red2 _ _ _ _ in H0 H *; set h := hat _ _ _ _ in H0 *.
have mid m : y m.+1 = - (invmx a1 *m (a0 *m y m + a2 *m y m.+2)) by apply/solve_mid.
split.
  move: H0; rewrite (mid 0%N) /= => <-.
  rewrite /double /= mulmxBl mulNmx mulmxN !mulmxDr !mulmxA opprD !addrA. done.
move=> m; rewrite !doubleS; move: (H m.*2.+1); rewrite (mid m.*2) (mid m.*2.+2) => <-.
rewrite !mulmxBl !mulNmx !mulmxN !mulmxDr !mulmxA !opprD !addrA.
set p1 := a0 *m _ *m a0 *m _; set p2 := a1 *m _; set p3 := _ *m y m.*2.+2; set p4 := _ *m y m.*2.+2.
rewrite -!addrA; congr (_ + _); rewrite addrCA; done.
Qed.

Lemma level_up (A0 A1 A2 : M) j p x0 (y : nat -> 'M[F]_(n.+1, p)) :
  red1 A0 A1 A2 j \in unitmx -> level A0 A1 A2 j.+1 x0 y ->
  exists2 z, level A0 A1 A2 j x0 z & forall m, z m.*2 = y m.
Proof.
move=> U [H0 H]; move: H0 H; rewrite /level; have [-> -> -> ->] := redS A0 A1 A2 j.
set a0 := red0 _ _ _ _; set a1 := red1 _ _ _ _ in U *; set a2 := red2 _ _ _ _; set h := hat _ _ _ _ => H0 H.
exists (fun m => if odd m then - (invmx a1 *m (a0 *m y m./2 + a2 *m y m./2.+1)) else y m./2); last first.
  by move=> m; rewrite odd_double doubleK.
split.
  rewrite /= -[RHS]H0.
  rewrite mulmxBl mulNmx mulmxN !mulmxDr !mulmxA opprD !addrA. done.
move=> m; rewrite /= ; case O: (odd m) => /=.
  rewrite uphalf_half O add1n.
  rewrite -[RHS](H m./2) /=.
  rewrite !mulmxBl !mulNmx !mulmxN !mulmxDr !mulmxA !opprD !addrA.
  rewrite -!addrA; congr (_ + _); rewrite addrCA; done.
rewrite uphalf_half O add0n; exact/solve_mid.
Qed.

Lemma level_iter (A0 A1 A2 : M) k p x0 (y : nat -> 'M[F]_(n.+1, p)) :
  invertible_below A0 A1 A2 k -> level A0 A1 A2 0 x0 y -> level A0 A1 A2 k x0 (fun m => y (2 ^ k * m)%N).
Proof.
elim: k => [|k IH] Hk L.
  case: L => L0 L1; split=> [|m]; rewrite ?expn0 ?mul1n; [exact: L0|exact: L1].
have Lk : level A0 A1 A2 k x0 (fun m => y (2 ^ k * m)%N) by apply: IH => // j jk; apply: Hk; apply: ltnW.
have [L0 L1] := level_down (Hk k (ltnSn k)) Lk.
have e m : (2 ^ k.+1 * m = 2 ^ k * m.*2)%N by rewrite expnS -muln2 [(m * 2)%N]mulnC mulnA [(2 ^ k * 2)%N]mulnC.
by split=> [|m]; rewrite !e.
Qed.

Lemma level_back (A0 A1 A2 : M) k p x0 (y : nat -> 'M[F]_(n.+1, p)) :
  invertible_below A0 A1 A2 k -> level A0 A1 A2 k x0 y ->
  exists2 z, level A0 A1 A2 0 x0 z & z 0%N = y 0%N.
Proof.
elim: k y => [|k IH] y Hk L; first by exists y.
have [z Lz ez] := level_up (Hk k (ltnSn k)) L.
have [w Lw ew] := IH z (fun j jk => Hk j (ltnW jk)) Lz.
by exists w => //; rewrite ew -(ez 0%N).
Qed.
End CRP.
