(* Lemmas about completion orders and the power-of-two test. *)
From Coq Require Import List Bool Arith ZArith QArith String Permutation Lia.
From Verif Require Import Diag_Model.
Import ListNotations.
Local Open Scope nat_scope.
Open Scope list_scope.

Lemma finishes_perm {R} c (l r : list (attempt R)) : finishes c l r -> Permutation l r.
Proof.
  induction 1 as [|before x after done _ _ IH]; [constructor|].
  apply Permutation_sym, Permutation_cons_app, Permutation_sym, IH.
Qed.
Lemma finishes_in_order {R} c (l : list (attempt R)) : 0 < c -> finishes c l l.
Proof. intros Hc; induction l as [|x l IH]; [constructor|]. apply (one_done _ c [] x l l); auto. Qed.
Lemma finishes_one {R} (l r : list (attempt R)) : finishes 1 l r -> r = l.
Proof.
  induction 1 as [|before x after done Hb _ IH]; [reflexivity|].
  destruct before; cbn in *; [now rewrite IH|lia].
Qed.
Lemma finishes_swap {R} c (pre : list (attempt R)) x y post : 2 <= c -> finishes c (pre ++ x :: y :: post) (pre ++ y :: x :: post).
Proof.
  intros Hc; induction pre as [|p pre IH]; cbn.
  - apply (one_done _ c [x] y post (x :: post)); [cbn; lia|]. apply finishes_in_order; lia.
  - apply (one_done _ c [] p (pre ++ x :: y :: post)); [cbn; lia|exact IH].
Qed.
(* position j of the results comes from one of the first j + c tasks *)
Lemma finishes_window {R} c (l r : list (attempt R)) : finishes c l r ->
  forall j a, nth_error r j = Some a -> exists i, i < j + c /\ nth_error l i = Some a.
Proof.
  induction 1 as [|before x after done Hb Hf IH]; intros j a H; [destruct j; discriminate|].
  destruct j as [|j]; cbn in H.
  - injection H as <-. exists (List.length before). split; [lia|].
    rewrite nth_error_app2, Nat.sub_diag; [reflexivity|lia].
  - destruct (IH j a H) as (i & Hi & Hn).
    destruct (Nat.lt_ge_cases i (List.length before)) as [Hlt|Hge].
    + exists i; split; [lia|]. rewrite nth_error_app1 in Hn |- * by lia. exact Hn.
    + exists (S i); split; [lia|]. rewrite nth_error_app2 in Hn by lia. rewrite nth_error_app2 by lia.
      replace (S i - List.length before) with (S (i - List.length before)) by lia. exact Hn.
Qed.
Lemma finishes_length {R} c (l r : list (attempt R)) : finishes c l r -> List.length r = List.length l.
Proof. intros H; apply finishes_perm in H; symmetry; now apply Permutation_length. Qed.
Lemma collect_done {R} (l : list (attempt R)) rs : collect l = Done rs <-> l = map Done rs.
Proof.
  revert rs; induction l as [|[a|e] l IH]; intros rs; cbn.
  - split; [now intros [= <-]|]. destruct rs; [reflexivity|discriminate].
  - destruct (collect l) as [rs'|e].
    + split; [intros [= <-]; cbn; f_equal; now apply IH|].
      destruct rs as [|r rs]; [discriminate|]; cbn; intros [= <- E]. apply IH in E. now injection E as <-.
    + split; [discriminate|]. destruct rs as [|r rs]; [discriminate|]; cbn; intros [= <- E].
      apply IH in E; discriminate.
  - split; [discriminate|]. destruct rs; discriminate.
Qed.
Lemma collect_map {R A} (f : A -> R) (l : list A) : collect (map (fun x => Done (f x)) l) = Done (map f l).
Proof. apply collect_done. now rewrite map_map. Qed.

(* n & (n - 1) clears the lowest bit *)
Lemma land_pow2 (n : Z) : (Z.land n (n - 1) = 0 <-> n = 0 \/ exists k, 0 <= k /\ n = 2 ^ k)%Z.
Proof.
  split.
  - intros H. destruct (Z.eq_dec n 0) as [->|Hn]; [now left|right].
    assert (Hpos : (0 < n)%Z).
    { assert (~ (n < 0)%Z); [|lia]. intros Hneg.
      assert (Z.land n (n - 1) < 0)%Z by (apply Z.land_neg; lia). lia. }
    exists (Z.log2 n); split; [apply Z.log2_nonneg|].
    destruct (Z.log2_spec n Hpos) as [Hlo Hhi].
    destruct (Z.eq_dec n (2 ^ Z.log2 n)) as [E|Hne]; [exact E|exfalso].
    assert (Hb1 : Z.testbit n (Z.log2 n) = true) by (apply Z.bit_log2; lia).
    assert (Hl : Z.log2 (n - 1) = Z.log2 n) by (apply Z.log2_unique; [apply Z.log2_nonneg|lia]).
    assert (Hb2 : Z.testbit (n - 1) (Z.log2 n) = true).
    { rewrite <- Hl. apply Z.bit_log2. pose proof (Z.pow_pos_nonneg 2 (Z.log2 n) ltac:(lia) (Z.log2_nonneg n)). lia. }
    assert (Z.testbit (Z.land n (n - 1)) (Z.log2 n) = true) by (rewrite Z.land_spec, Hb1, Hb2; reflexivity).
    rewrite H, Z.bits_0 in *. discriminate.
  - intros [->|(k & Hk & ->)]; [reflexivity|].
    apply Z.bits_inj_0. intros i. rewrite Z.land_spec.
    destruct (Z.lt_ge_cases i 0) as [Hi|Hi]; [now rewrite !Z.testbit_neg_r by lia|].
    destruct (Z.eq_dec i k) as [->|Hik].
    + rewrite Z.pow2_bits_true by lia.
      replace (2 ^ k - 1)%Z with (Z.ones k) by (rewrite Z.ones_equiv; lia).
      rewrite Z.ones_spec_high by lia. reflexivity.
    + rewrite Z.pow2_bits_false by lia. reflexivity.
Qed.
