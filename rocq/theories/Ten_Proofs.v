(* Lemmas about arrays. *)
From Verif Require Import Common Ten_Model Ten_Spec.

(* ---------- lists ---------- *)
Lemma set_nth_length k v l : length (set_nth k v l) = length l.
Proof. revert k; induction l; intros [|k]; cbn; auto. Qed.
Lemma nth_set_same k v l d : k < length l -> nth k (set_nth k v l) d = v.
Proof. revert k; induction l; intros [|k]; cbn; intros; try lia; auto. apply IHl; lia. Qed.
Lemma nth_set_other k k' v l d : k <> k' -> nth k' (set_nth k v l) d = nth k' l d.
Proof. revert k k'; induction l; intros [|k] [|k']; cbn; intros; auto; try lia. Qed.
Lemma set_set k v w l : set_nth k v (set_nth k w l) = set_nth k v l.
Proof. revert k; induction l; intros [|k]; cbn; f_equal; auto. Qed.
Lemma set_nth_id k l : set_nth k (nth k l 0) l = l.
Proof. revert k; induction l; intros [|k]; cbn; f_equal; auto. Qed.
Lemma set_comm k k' v w l : k <> k' -> set_nth k v (set_nth k' w l) = set_nth k' w (set_nth k v l).
Proof. revert k k'; induction l; intros [|k] [|k']; cbn; intros; auto; try lia. f_equal; auto. Qed.
Lemma valid_nth s ix : valid s ix <-> length ix = length s /\ forall k, k < length s -> nth k ix 0 < nth k s 0.
Proof.
  split.
  - induction 1; cbn; split; auto; try lia. destruct IHForall2 as [e f]. intros [|k] h; auto. apply f; lia.
  - revert ix; induction s as [|n s IH]; intros [|i ix]; cbn; intros [e f]; try discriminate; constructor.
    + apply (f 0); lia.
    + apply IH; split; [lia|]. intros k h. apply (f (S k)); lia.
Qed.
Lemma valid_set s ix k v n : k < length s -> v < n -> valid s ix -> valid (set_nth k n s) (set_nth k v ix).
Proof.
  rewrite !valid_nth, !set_nth_length; intros hk hv [e f]; split; auto.
  intros k' h'. destruct (Nat.eq_dec k k') as [<-|ne].
  - rewrite !nth_set_same; congruence.
  - rewrite !nth_set_other; auto.
Qed.
Lemma sum_app a b : sum (a ++ b) = sum a + sum b.
Proof. induction a; cbn; auto. fold (sum (a0 ++ b)) (sum a0). lia. Qed.
Lemma fits_iff k s t : fits k s t = true <-> set_nth k 0 s = set_nth k 0 t.
Proof. unfold fits; destruct (list_eq_dec _ _ _); split; congruence. Qed.
Lemma fits_set k s t v : fits k s t = true -> set_nth k v s = set_nth k v t.
Proof. intro h; apply fits_iff in h. rewrite <- (set_set k v 0 s), h, set_set; reflexivity. Qed.
Lemma fits_len k s t : fits k s t = true -> length s = length t.
Proof. intro h; apply fits_iff in h. rewrite <- (set_nth_length k 0 s), h, set_nth_length; reflexivity. Qed.
Lemma fits_nth k s t j d : fits k s t = true -> j <> k -> nth j s d = nth j t d.
Proof. intros h n; apply fits_iff in h. rewrite <- (nth_set_other k j 0 s), h, nth_set_other; auto. Qed.
Lemma fits_self k s t : fits k s t = true -> nth k s 0 = nth k t 0 -> s = t.
Proof. intros h e. pose proof (fits_set k s t (nth k s 0) h) as H. rewrite set_nth_id, e, set_nth_id in H. exact H. Qed.

Section Concat.
Variable V : Type.
Variable dflt : V.
Notation arr := (arr V).
Notation sizes k xs := (map (fun y : arr => size y k) xs).
Definition joinable (k : nat) (xs : list arr) (s : list nat) : Prop :=
  k < length s /\ forall x, In x xs -> fits k s (shape x) = true.
Lemma concat_ok k xs r : concatenate dflt k xs = Ok r ->
  exists s, xs <> [] /\ joinable k xs s /\ (exists x xs', xs = x :: xs' /\ s = shape x) /\ r = Arr (set_nth k (sum (sizes k xs)) s) (pick dflt k xs).
Proof.
  destruct xs as [|x xs]; [discriminate|]. unfold concatenate.
  destruct (_ && _) eqn:E; [|discriminate]. intros [= <-]. apply andb_true_iff in E as [a b].
  apply Nat.ltb_lt in a. rewrite forallb_forall in b.
  exists (shape x). repeat split; auto; try discriminate. eauto.
Qed.
Lemma concat_iff k x xs r : concatenate dflt k (x :: xs) = Ok r <->
  joinable k (x :: xs) (shape x) /\ r = Arr (set_nth k (sum (sizes k (x :: xs))) (shape x)) (pick dflt k (x :: xs)).
Proof.
  unfold concatenate. split.
  - destruct (_ && _) eqn:E; [|discriminate]. intros [= <-]. apply andb_true_iff in E as [a b].
    apply Nat.ltb_lt in a. rewrite forallb_forall in b. repeat split; auto.
  - intros [[a b] ->]. replace (_ && _) with true; auto. symmetry. apply andb_true_iff. split.
    + apply Nat.ltb_lt, a.
    + apply forallb_forall, b.
Qed.
Lemma pick_place k s : forall xs i x, joinable k xs s -> nth_error xs i = Some x -> forall ix, valid (shape x) ix ->
  pick dflt k xs (bump k (sum (sizes k (firstn i xs))) ix) = entry x ix.
Proof.
  induction xs as [|y xs IH]; intros [|i] x [hk hs] hi ix hv; cbn in hi; try discriminate.
  - injection hi as ->. cbn [pick firstn map]. unfold bump. change (sum []) with 0. rewrite Nat.add_0_r, set_nth_id.
    assert (nth k ix 0 < size x k) as h.
    { apply valid_nth in hv as [e f]. apply f. rewrite <- (fits_len k s); auto. apply hs; now left. }
    apply Nat.ltb_lt in h. rewrite h. reflexivity.
  - cbn [firstn map sum fold_right]. fold (sum (sizes k (firstn i xs))).
    assert (In x xs) as hin by (eapply nth_error_In; eauto).
    assert (length ix = length s) as el.
    { apply valid_nth in hv as [e f]. rewrite e. symmetry; apply (fits_len k). apply hs; now right. }
    cbn [pick]. unfold bump. rewrite nth_set_same by lia.
    replace (_ <? _) with false by (symmetry; apply Nat.ltb_ge; lia).
    rewrite set_set.
    replace (nth k ix 0 + (size y k + sum (sizes k (firstn i xs))) - size y k) with (nth k ix 0 + sum (sizes k (firstn i xs))) by lia.
    apply (IH i x); auto. split; auto. intros; apply hs; now right.
Qed.
Lemma sum_split k (xs : list arr) i x : nth_error xs i = Some x -> sum (sizes k (firstn i xs)) + size x k <= sum (sizes k xs).
Proof.
  revert i; induction xs as [|y xs IH]; intros [|i] h; cbn in *; try discriminate.
  - injection h as ->. lia.
  - apply IH in h. fold (sum (sizes k (firstn i xs))). fold (sum (sizes k xs)). lia.
Qed.
Lemma valid_place k s xs i x ix : joinable k xs s -> nth_error xs i = Some x -> valid (shape x) ix ->
  valid (set_nth k (sum (sizes k xs)) s) (bump k (sum (sizes k (firstn i xs))) ix).
Proof.
  intros [hk hs] hi hv. assert (In x xs) as hin by (eapply nth_error_In; eauto).
  rewrite (fits_set k s (shape x)) by auto. pose proof (fits_len k s (shape x) (hs x hin)) as el.
  apply valid_set; auto; try lia. apply valid_nth in hv as [e f].
  pose proof (f k ltac:(lia)). pose proof (sum_split k xs i x hi). unfold size in *. lia.
Qed.
Lemma locate (ns : list nat) j : j < sum ns -> exists i n, nth_error ns i = Some n /\ sum (firstn i ns) <= j < sum (firstn i ns) + n.
Proof.
  revert j; induction ns as [|n ns IH]; cbn; intros j h; [lia|]. fold (sum ns) in h.
  destruct (Nat.ltb_spec j n).
  - exists 0, n. cbn. split; auto. lia.
  - destruct (IH (j - n) ltac:(lia)) as (i & m & e & b). exists (S i), m. split; auto. cbn. fold (sum (firstn i ns)). lia.
Qed.
Lemma cover k s xs jx : joinable k xs s -> valid (set_nth k (sum (sizes k xs)) s) jx ->
  exists i x ix, nth_error xs i = Some x /\ valid (shape x) ix /\ jx = bump k (sum (sizes k (firstn i xs))) ix.
Proof.
  intros [hk hs] hv. pose proof hv as hv'. apply valid_nth in hv as [e f]. rewrite set_nth_length in *.
  pose proof (f k hk) as h. rewrite nth_set_same in h by auto.
  destruct (locate _ _ h) as (i & n & en & b). rewrite nth_error_map in en.
  destruct (nth_error xs i) as [x|] eqn:ex; [|discriminate]. injection en as <-.
  rewrite firstn_map in b. exists i, x, (set_nth k (nth k jx 0 - sum (sizes k (firstn i xs))) jx). split; [exact ex|split].
  - pose proof (hs x (nth_error_In _ _ ex)) as hf.
    apply valid_nth. rewrite set_nth_length. split; [rewrite e; apply (fits_len k); auto|].
    intros k' h'. rewrite <- (fits_len k s) in h' by auto. destruct (Nat.eq_dec k k') as [<-|ne].
    + rewrite nth_set_same by lia. fold (size x k). lia.
    + rewrite nth_set_other by auto. rewrite <- (fits_nth k s (shape x)) by auto. pose proof (f k' h') as q. rewrite nth_set_other in q; auto.
  - unfold bump. rewrite set_set, nth_set_same by lia.
    replace (_ + _) with (nth k jx 0) by lia. symmetry; apply set_nth_id.
Qed.
Lemma bump_inj k xs s i i' x x' ix ix' : joinable k xs s -> nth_error xs i = Some x -> nth_error xs i' = Some x' ->
  valid (shape x) ix -> valid (shape x') ix' ->
  bump k (sum (sizes k (firstn i xs))) ix = bump k (sum (sizes k (firstn i' xs))) ix' -> i = i' /\ ix = ix'.
Proof.
  intros [hk hs] hi hi' hv hv' e.
  assert (forall i x, nth_error xs i = Some x -> length s = length (shape x)) as len
    by (intros; apply (fits_len k); apply hs; eapply nth_error_In; eauto).
  apply valid_nth in hv as [l f]. apply valid_nth in hv' as [l' f'].
  pose proof (len _ _ hi). pose proof (len _ _ hi').
  pose proof (f k ltac:(lia)) as b. pose proof (f' k ltac:(lia)) as b'.
  assert (nth k ix 0 + sum (sizes k (firstn i xs)) = nth k ix' 0 + sum (sizes k (firstn i' xs))) as q.
  { unfold bump in e. apply (f_equal (fun l => nth k l 0)) in e. rewrite !nth_set_same in e by lia. exact e. }
  assert (forall i i' x, i < i' -> nth_error xs i = Some x -> sum (sizes k (firstn i xs)) + size x k <= sum (sizes k (firstn i' xs))) as mono.
  { clear. induction xs as [|y xs IH]; intros [|i] [|i'] x h hi; cbn in *; try discriminate; try lia.
    - injection hi as ->. lia.
    - pose proof (IH i i' x ltac:(lia) hi). unfold sum in *. lia. }
  assert (i = i') as ->.
  { destruct (Nat.lt_trichotomy i i') as [lt|[|lt]]; auto; exfalso.
    - pose proof (mono _ _ _ lt hi). unfold size in *. lia.
    - pose proof (mono _ _ _ lt hi'). unfold size in *. lia. }
  split; auto. unfold bump in e.
  apply (f_equal (set_nth k (nth k ix 0))) in e. rewrite !set_set in e.
  rewrite set_nth_id in e. replace (nth k ix 0) with (nth k ix' 0) in e by lia. rewrite set_nth_id in e. auto.
Qed.
End Concat.
