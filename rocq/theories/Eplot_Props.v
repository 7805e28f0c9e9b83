(* C139.  The points of an eigenvalue plot. *)
From Verif Require Import Common Sens_Model Eplot_Model.
From Coq Require Import Reals Lra Lia.
Local Open Scope list_scope.
Local Open Scope R_scope.

Lemma Rltb_iff a b : Rltb a b = true <-> a < b.
Proof. unfold Rltb. destruct (Rlt_dec a b); split; easy. Qed.
Lemma maximum_ub l : forall x y, y = x \/ In y l -> y <= maximum x l.
Proof.
  induction l as [|a l IH]; intros x y H; cbn. { destruct H as [-> | []]. lra. }
  destruct H as [-> | H]; [apply Rmax_l|]. eapply Rle_trans; [|apply Rmax_r]. apply IH. cbn in H. intuition.
Qed.
Lemma minimum_lb l : forall x y, y = x \/ In y l -> minimum x l <= y.
Proof.
  induction l as [|a l IH]; intros x y H; cbn. { destruct H as [-> | []]. lra. }
  destruct H as [-> | H]; [apply Rmin_l|]. eapply Rle_trans; [apply Rmin_r|]. apply IH. cbn in H. intuition.
Qed.
Lemma maximum_in l : forall x, maximum x l = x \/ In (maximum x l) l.
Proof.
  induction l as [|a l IH]; intros x; cbn; [auto|]. unfold Rmax. destruct (Rle_dec x (maximum a l)); [|auto]. right. destruct (IH a) as [E|E]; rewrite ?E; auto.
Qed.

(* All points are strictly inside the axes, the axes are square, and half_range is half their width. *)
Theorem C139_axes re im : let '(xlim, ylim, half) := axis_limits re im in
  snd xlim - fst xlim = 2 * half /\ snd ylim - fst ylim = 2 * half /\ 0 < half /\
  (length re = length im ->
   (forall x, In x re -> fst xlim < x < snd xlim) /\ (forall y, In y im -> fst ylim < y < snd ylim)).
Proof.
  unfold axis_limits. destruct re as [|r rs]; [|destruct im as [|i is]].
  - cbn. refine (conj _ (conj _ (conj _ _))); try lra. intros H. destruct im; [easy|discriminate].
  - cbn. refine (conj _ (conj _ (conj _ _))); try lra. intros H. discriminate.
  - cbn [fst snd]. set (a := minimum r rs). set (b := maximum r rs). set (c := minimum i is). set (d := maximum i is).
    assert (a <= b) as Hab by (eapply Rle_trans; [apply (minimum_lb rs r r); auto|apply maximum_ub; auto]).
    assert (c <= d) as Hcd by (eapply Rle_trans; [apply (minimum_lb is i i); auto|apply maximum_ub; auto]).
    set (rr := Rmax (b - a) (/ 10)). set (ir := Rmax (d - c) (/ 10)).
    assert (/ 10 <= rr) by apply Rmax_r. assert (/ 10 <= ir) by apply Rmax_r.
    assert (0 < / 10) by lra.
    set (h2 := Rmax (b + rr * (3 / 10) - (a - rr * (3 / 10))) (d + ir * (3 / 10) - (c - ir * (3 / 10)))).
    assert (b + rr * (3 / 10) - (a - rr * (3 / 10)) <= h2) by apply Rmax_l.
    assert (d + ir * (3 / 10) - (c - ir * (3 / 10)) <= h2) by apply Rmax_r.
    refine (conj _ (conj _ (conj _ _))); try lra. intros _. split.
    + intros x Hx. assert (a <= x) by (apply minimum_lb; cbn in Hx; intuition). assert (x <= b) by (apply maximum_ub; cbn in Hx; intuition). lra.
    + intros x Hx. assert (c <= x) by (apply minimum_lb; cbn in Hx; intuition). assert (x <= d) by (apply maximum_ub; cbn in Hx; intuition). lra.
Qed.

(* ---- filtering ---- *)
(* which eigenvalues are meant to be shown *)
Definition shown (zeros infinite : bool) (zero_tol inf_tol : R) (r : erow) : Prop :=
  (zeros = true -> zero_tol < e_mod r) /\ (infinite = true -> e_mod r < inf_tol).
Lemma keep_iff z i zt it r : keep z i zt it r = true <-> shown z i zt it r.
Proof.
  unfold keep, shown. rewrite andb_true_iff, !orb_true_iff, !negb_true_iff, !Rltb_iff. destruct z, i; intuition congruence.
Qed.
Lemma sel_map {A B} (f : A -> B) (p : A -> bool) l : map fst (filter snd (combine (map f l) (map p l))) = map f (filter p l).
Proof. induction l as [|x l IH]; [easy|]. cbn. destruct (p x); cbn; now rewrite IH. Qed.

Theorem C139_filter rows zeros infinite zero_tol tol : NoDup (map e_label rows) ->
  let '(re, im, md, sub, dropped) := filter_eigenvalues rows zeros infinite zero_tol (Some tol) in
  (* one list of eigenvalues, kept in order, from which all the arrays and the gradients are read *)
  exists kept, sub = kept /\ re = map e_re kept /\ im = map e_im kept /\ md = map e_mod kept /\
    (forall r, In r kept <-> In r rows /\ shown zeros infinite zero_tol tol r) /\
    (exists p, kept = filter p rows) /\
    (length kept + dropped)%nat = length rows.
Proof.
  intros Hn. unfold filter_eigenvalues. set (p := keep zeros infinite zero_tol tol). exists (filter p rows).
  rewrite !sel_map. refine (conj _ (conj eq_refl (conj eq_refl (conj eq_refl (conj _ (conj (ex_intro _ p eq_refl) _)))))).
  - assert (forall l, (forall r, In r l -> In r rows) ->
       flat_map (fun i => match find (fun r => Nat.eqb (e_label r) i) rows with Some r => [r] | None => [] end) (map e_label l) = l) as Q.
    { induction l as [|x l IH]; intros H; [easy|]. cbn. rewrite IH by (intros; apply H; now right).
      assert (find (fun r => Nat.eqb (e_label r) (e_label x)) rows = Some x) as ->; [|easy].
      assert (In x rows) as Hx by (apply H; now left). clear -Hn Hx. induction rows as [|y rows IH]; [easy|]. cbn in *. inversion Hn; subst.
      destruct (Nat.eqb (e_label y) (e_label x)) eqn:E.
      - apply Nat.eqb_eq in E. destruct Hx as [-> | Hx]; [easy|]. exfalso. apply H1. rewrite E. now apply in_map.
      - destruct Hx as [-> | Hx]; [now rewrite Nat.eqb_refl in E|auto]. }
    apply Q. intros r Hr. now apply filter_In in Hr.
  - intros r. rewrite filter_In. unfold p. now rewrite (keep_iff zeros infinite zero_tol tol r).
  - assert (length (filter (fun b : bool => b) (map p rows)) = length (filter p rows)) as ->.
    { clear. induction rows as [|x rows IH]; [easy|]. cbn. destruct (p x); cbn; lia. }
    assert (length (filter p rows) <= length rows)%nat by (clear; induction rows as [|x rows IH]; [easy|]; cbn; destruct (p x); cbn; lia). lia.
Qed.

(* Without a tolerance, nothing of modulus below a million is dropped as infinite, and everything from a million on is
   if the others are at most a hundred thousand. *)
Theorem C139_default_tolerance mods x : In x mods ->
  (x < 10 ^ 6 -> 0 < x -> x < default_inf_tol mods) /\
  (10 ^ 6 <= x -> (forall y, In y mods -> y < 10 ^ 6 -> y <= 10 ^ 5) -> ~ x < default_inf_tol mods).
Proof.
  intros Hx. unfold default_inf_tol. destruct (filter _ mods) as [|a l] eqn:E.
  - split; [|lra]. intros Hl _. exfalso. assert (In x (filter (fun x => Rltb x (10 ^ 6)) mods)) as Hin by (apply filter_In; split; [auto|now apply Rltb_iff]).
    rewrite E in Hin. easy.
  - split.
    + intros Hl Hp. assert (In x (a :: l)) as Hin by (rewrite <- E; apply filter_In; split; [auto|now apply Rltb_iff]).
      assert (x <= maximum a l) by (apply maximum_ub; cbn in Hin; intuition). assert (10 * maximum a l <= Rmax (10 * maximum a l) 10) by apply Rmax_l. lra.
    + intros Hl Hall Hlt. assert (In (maximum a l) (a :: l)) as Hin by (destruct (maximum_in l a) as [-> | ?]; cbn; auto).
      rewrite <- E in Hin. apply filter_In in Hin. destruct Hin as [H1 H2]. apply Rltb_iff in H2. pose proof (Hall _ H1 H2) as H3.
      unfold Rmax in Hlt. destruct (Rle_dec (10 * maximum a l) 10); simpl in *; lra.
Qed.
(* Otherwise an eigenvalue past a million can stay. *)
Theorem C139_infinite_dropped_refuted :
  let rows := [ER 0 500000 0 500000 ([], []); ER 1 2000000 0 2000000 ([], [])] in
  let '(re, im, md, sub, dropped) := filter_eigenvalues rows true true (/ 10 ^ 6) None in dropped = 0%nat /\ In 2000000 md.
Proof.
  unfold filter_eigenvalues. cbn [map e_mod e_label e_re e_im].
  assert (default_inf_tol [500000; 2000000] = 5000000) as ->.
  { unfold default_inf_tol. cbn [filter]. rewrite (proj2 (Rltb_iff 500000 (10 ^ 6))) by (simpl; lra).
    replace (Rltb 2000000 (10 ^ 6)) with false by (symmetry; unfold Rltb; destruct (Rlt_dec 2000000 (10 ^ 6)); [simpl in *; lra|easy]).
    cbn [maximum]. unfold Rmax. destruct (Rle_dec (10 * 500000) 10); lra. }
  unfold keep. cbn [negb orb e_mod]. rewrite !(proj2 (Rltb_iff _ _)) by (simpl; lra). cbn. split; [easy|auto].
Qed.

(* the labels eigenvalue_sensitivity makes are distinct, so C139_filter applies to its result *)
Theorem C139_labels ds : NoDup (map e_label (rows_of ds)).
Proof.
  unfold rows_of. rewrite map_map. cbn [e_label].
  assert (forall (B : Type) (a : list nat) (b : list B), NoDup a -> NoDup (map fst (combine a b))) as Q.
  { intros B a. induction a as [|x a IH]; intros [|y b] H; cbn; try constructor; inversion H; subst; auto.
    intros Hin. apply in_map_iff in Hin. destruct Hin as ([u w] & <- & Hin). apply in_combine_l in Hin. auto. }
  apply Q, seq_NoDup.
Qed.
Theorem C139_case : let '(re, _, _, sub, dropped) := filter_eigenvalues [ER 0 0 0 0 ([], []); ER 1 (/ 2) 0 (/ 2) ([1], [0]); ER 2 (10 ^ 8) 0 (10 ^ 8) ([], [])] true true (/ 10 ^ 6) (Some 10) in
  re = [/ 2] /\ dropped = 2%nat.
Proof.
  unfold filter_eigenvalues, keep. cbn [map e_mod e_label e_re e_im negb orb].
  assert (Rltb (/ 10 ^ 6) 0 = false) as -> by (unfold Rltb; destruct (Rlt_dec (/ 10 ^ 6) 0) as [H|]; [|easy]; assert (0 < / 10 ^ 6) by (apply Rinv_0_lt_compat; simpl; lra); lra).
  assert (Rltb (10 ^ 8) 10 = false) as -> by (unfold Rltb; destruct (Rlt_dec (10 ^ 8) 10); [simpl in *; lra|easy]).
  assert (/ 10 ^ 6 < / 2) as H1 by (apply Rinv_lt_contravar; simpl; lra).
  rewrite (proj2 (Rltb_iff _ _) H1), (proj2 (Rltb_iff (/ 2) 10)) by lra. rewrite !andb_false_r. cbn. auto.
Qed.
