(* Python's sorted(l, key=...): a stable sort.  [isort leb] is insertion sort; because a stable sort's result is
   determined by its input and order, it stands for Python's algorithm. *)
From Coq Require Import List Bool Permutation Sorted Lia.
Import ListNotations.

Section S.
Context {A : Type} (leb : A -> A -> bool).
Fixpoint insert (x : A) (l : list A) : list A :=
  match l with [] => [x] | y :: l' => if leb x y then x :: l else y :: insert x l' end.
Definition isort (l : list A) : list A := fold_right insert [] l.

Lemma insert_perm x l : Permutation (x :: l) (insert x l).
Proof. induction l as [|y l IH]; cbn; [auto|]. destruct (leb x y); [auto|]. etransitivity; [apply perm_swap|]. now constructor. Qed.
Lemma isort_perm l : Permutation l (isort l).
Proof. induction l as [|x l IH]; cbn; [auto|]. etransitivity; [apply perm_skip, IH|apply insert_perm]. Qed.
Lemma isort_in l x : In x (isort l) <-> In x l.
Proof. split; apply Permutation_in; [symmetry|]; apply isort_perm. Qed.
Lemma isort_length l : length (isort l) = length l.
Proof. symmetry. apply Permutation_length, isort_perm. Qed.

Definition le (x y : A) : Prop := leb x y = true.
Hypothesis Htot : forall x y, leb x y = true \/ leb y x = true.
Hypothesis Htr : forall x y z, leb x y = true -> leb y z = true -> leb x z = true.
Lemma insert_sorted x l : StronglySorted le l -> StronglySorted le (insert x l).
Proof.
  induction 1 as [|y l Hs IH Hy]; cbn; [repeat constructor|]. destruct (leb x y) eqn:E.
  - constructor; [constructor; assumption|]. constructor; [exact E|]. eapply Forall_impl; [|exact Hy]. intros z Hz. eapply Htr; eassumption.
  - constructor; [exact IH|]. eapply Permutation_Forall; [apply insert_perm|]. constructor; [|exact Hy].
    destruct (Htot x y); [congruence|assumption].
Qed.
Lemma isort_sorted l : StronglySorted le (isort l).
Proof. induction l; cbn; [constructor|]. now apply insert_sorted. Qed.

(* Two sorted permutations of each other are equal when the order separates the elements. *)
Lemma sorted_unique l1 : forall l2, Permutation l1 l2 -> StronglySorted le l1 -> StronglySorted le l2 ->
  (forall x y, In x l1 -> In y l1 -> leb x y = true -> leb y x = true -> x = y) -> l1 = l2.
Proof.
  induction l1 as [|x l1 IH]; intros l2 Hp H1 H2 Ha.
  - apply Permutation_nil in Hp. congruence.
  - destruct l2 as [|y l2]; [symmetry in Hp; apply Permutation_nil in Hp; discriminate|].
    apply StronglySorted_inv in H1 as [S1 F1]. apply StronglySorted_inv in H2 as [S2 F2]. rewrite Forall_forall in F1, F2.
    assert (x = y).
    { assert (Iy : In y (x :: l1)) by (eapply Permutation_in; [symmetry; exact Hp|now left]).
      assert (Ix : In x (y :: l2)) by (eapply Permutation_in; [exact Hp|now left]).
      destruct Iy as [|Iy]; [assumption|]. destruct Ix as [|Ix]; [congruence|].
      apply Ha; [now left|now right|apply F1, Iy|apply F2, Ix]. }
    subst y. f_equal. apply IH; [eapply Permutation_cons_inv; exact Hp|assumption|assumption|].
    intros; apply Ha; auto; now right.
Qed.
Lemma isort_canonical l1 l2 : Permutation l1 l2 -> (forall x y, In x l1 -> In y l1 -> leb x y = true -> leb y x = true -> x = y) ->
  isort l1 = isort l2.
Proof.
  intros Hp Ha. apply sorted_unique; [|apply isort_sorted|apply isort_sorted|].
  - rewrite <- !isort_perm. exact Hp.
  - intros x y Hx Hy. apply Ha; now apply isort_in.
Qed.
(* Stability: elements with the same key keep their order. *)
Lemma insert_filter (p : A -> bool) x l : (forall y, p y = true -> p x = true -> leb x y = true) ->
  filter p (insert x l) = filter p (x :: l).
Proof.
  intro H. induction l as [|y l IH]; [reflexivity|]. cbn [insert]. destruct (leb x y) eqn:E; [reflexivity|].
  change (filter p (y :: insert x l)) with (if p y then y :: filter p (insert x l) else filter p (insert x l)). rewrite IH. cbn [filter].
  destruct (p y) eqn:Ey; [|reflexivity]. destruct (p x) eqn:Ex; [|reflexivity]. rewrite (H y Ey eq_refl) in E. discriminate.
Qed.
Lemma isort_stable (p : A -> bool) l : (forall x y, p x = true -> p y = true -> leb x y = true) ->
  filter p (isort l) = filter p l.
Proof.
  intro H. induction l as [|x l IH]; [reflexivity|]. cbn [isort fold_right]. fold (isort l). rewrite insert_filter by (intros; apply H; assumption).
  cbn [filter]. rewrite IH. reflexivity.
Qed.
End S.
