(* The rewrites about joins: proofs. *)
From Verif Require Import Common Ten_Model Ten_Spec Ten_Proofs Ten_Block.
Section Rewrites.
Context {V : Type}.
Variable dflt : V.
Notation arr := (arr V).
Notation sizes k xs := (map (fun y : arr => size y k) xs).

(* ---------- transpose of a join ---------- *)
Lemma swap2_set k v l : 2 <= length l -> swap2 (set_nth k v l) = set_nth (other_axis k) v (swap2 l).
Proof. destruct l as [|a [|b l]]; cbn; intros; try lia. destruct k as [|[|k]]; reflexivity. Qed.
Lemma swap2_nth k l : 2 <= length l -> nth (other_axis k) (swap2 l) 0 = nth k l 0.
Proof. destruct l as [|a [|b l]]; cbn; intros; try lia. destruct k as [|[|k]]; reflexivity. Qed.
Lemma swap2_len l : length (swap2 l) = length l.
Proof. destruct l as [|a [|b l]]; reflexivity. Qed.
Lemma swap2_swap2 l : swap2 (swap2 l) = l.
Proof. destruct l as [|a [|b l]]; reflexivity. Qed.
Lemma other_lt k n : 2 <= n -> other_axis k < n <-> k < n.
Proof. destruct k as [|[|k]]; cbn; lia. Qed.
Lemma fits_swap k s t : 2 <= length s -> 2 <= length t -> fits (other_axis k) (swap2 s) (swap2 t) = fits k s t.
Proof.
  intros hs ht. apply eq_true_iff_eq. rewrite !fits_iff, <- !swap2_set by auto. split; [|congruence].
  intro e. apply (f_equal swap2) in e. now rewrite !swap2_swap2 in e.
Qed.
Lemma size_mT k (x : arr) : 2 <= ndim x -> size (mT x) (other_axis k) = size x k.
Proof. intro h. unfold size, mT; cbn [shape]. now apply swap2_nth. Qed.
Lemma pick_mT k : forall (xs : list arr) ix, (forall x, In x xs -> 2 <= ndim x) -> 2 <= length ix ->
  pick dflt (other_axis k) (map mT xs) ix = pick dflt k xs (swap2 ix).
Proof.
  induction xs as [|x xs IH]; intros ix hx hi; cbn [pick map]; auto.
  rewrite size_mT by (apply hx; now left).
  assert (nth (other_axis k) ix 0 = nth k (swap2 ix) 0) as e.
  { rewrite <- (swap2_swap2 ix) at 1. apply swap2_nth. now rewrite swap2_len. }
  rewrite e. destruct (_ <? _); auto. rewrite IH.
  - f_equal. rewrite swap2_set by auto. destruct k as [|[|k]]; reflexivity.
  - intros; apply hx; now right.
  - now rewrite set_nth_length.
Qed.
Lemma sizes_mT k xs : (forall x, In x xs -> 2 <= ndim x) -> sizes (other_axis k) (map mT xs) = sizes k xs.
Proof. intro h. rewrite map_map. apply map_ext_in. intros; apply size_mT; auto. Qed.
Lemma transpose_join k xs r : (forall x, In x xs -> 2 <= ndim x) -> concatenate dflt k xs = Ok r ->
  exists r', transpose_of_join dflt k xs = Ok r' /\ same r' (mT r).
Proof.
  intros hx H. destruct xs as [|x xs]; [discriminate|]. apply concat_iff in H as [[hk hs] ->].
  assert (2 <= ndim x) as h2 by (apply hx; now left).
  eexists. split.
  - unfold transpose_of_join. cbn [map]. apply concat_iff. split; [|reflexivity]. split.
    + unfold mT; cbn [shape]. rewrite swap2_len. apply other_lt; auto.
    + change (mT x :: map mT xs) with (map mT (x :: xs)). intros y hy. apply in_map_iff in hy as (z & <- & hz).
      unfold mT; cbn [shape]. rewrite fits_swap; auto. apply (hx z hz).
  - change (mT x :: map mT xs) with (map mT (x :: xs)). rewrite sizes_mT by auto.
    split; cbn [shape entry].
    + unfold mT; cbn [shape]. rewrite swap2_set by auto. reflexivity.
    + intros ix v. rewrite pick_mT; auto. apply valid_nth in v as [e _].
      rewrite set_nth_length in e. unfold mT in e; cbn [shape] in e. rewrite swap2_len in e. unfold ndim in h2. lia.
Qed.
Lemma mT_mT_in (xs : list arr) : forall k r, (forall x, In x xs -> 2 <= ndim x) -> transpose_of_join dflt k xs = Ok r ->
  exists r', concatenate dflt k xs = Ok r'.
Proof.
  intros k r hx H. unfold transpose_of_join in H. destruct xs as [|x xs]; [discriminate|]. cbn [map] in H.
  apply concat_iff in H as [[hk hs] _]. assert (2 <= ndim x) as h2 by (apply hx; now left).
  eexists. apply concat_iff. split; [|reflexivity]. split.
  - unfold mT in hk; cbn [shape] in hk. rewrite swap2_len in hk. exact (proj1 (other_lt k _ h2) hk).
  - intros y hy. rewrite <- fits_swap by (first [exact h2 | exact (hx y hy)]). apply (hs (mT y)). change (mT x :: map mT xs) with (map mT (x :: xs)). now apply in_map.
Qed.

(* ---------- split of a join ---------- *)
Definition piece (k : nat) (a : arr) (off s : nat) : arr :=
  Arr (set_nth k s (shape a)) (fun ix => entry a (set_nth k (nth k ix 0 + off) ix)).
Lemma pieces_cons k a off s rest : pieces k a off (s :: rest) = piece k a off s :: pieces k a (off + s) rest.
Proof. reflexivity. Qed.
Lemma pieces_of_join k s (xs : list arr) r : joinable _ k xs s ->
  r = Arr (set_nth k (sum (sizes k xs)) s) (pick dflt k xs) -> Forall2 same (pieces k r 0 (sizes k xs)) xs.
Proof.
  intros J ->. set (r := Arr _ _).
  assert (forall rest pre, xs = pre ++ rest -> Forall2 same (pieces k r (sum (sizes k pre)) (sizes k rest)) rest) as H.
  { induction rest as [|x rest IH]; intros pre e; cbn [map]; [constructor|]. rewrite pieces_cons. constructor.
    - assert (nth_error xs (length pre) = Some x) as ex. { rewrite e, nth_error_app2, Nat.sub_diag; auto. }
      assert (fits k s (shape x) = true) as fx. { apply J. eapply nth_error_In; eauto. }
      split; cbn [shape entry piece].
      + unfold r; cbn [shape]. rewrite set_set, (fits_set k s (shape x)) by auto. apply set_nth_id.
      + unfold r at 2; cbn [entry]. intros ix v. unfold r in v; cbn [shape] in v.
        rewrite set_set, (fits_set k s (shape x)) in v by auto. unfold size in v. rewrite set_nth_id in v.
        pose proof (pick_place _ dflt k s xs (length pre) x J ex ix v) as q. unfold bump in q.
        rewrite e, firstn_app, firstn_all, Nat.sub_diag, firstn_O, app_nil_r in q. rewrite <- e in q. exact q.
    - specialize (IH (pre ++ [x])). rewrite map_app, sum_app in IH. cbn in IH. rewrite Nat.add_0_r in IH. apply IH.
      rewrite <- app_assoc; exact e. }
  apply (H xs []); reflexivity.
Qed.
Lemma split_iff k ss (a : arr) ys : split k ss a = Ok ys <-> k < ndim a /\ sum ss = size a k /\ ys = pieces k a 0 ss.
Proof.
  unfold split. destruct (Nat.ltb_spec k (ndim a)), (Nat.eqb_spec (sum ss) (size a k)); cbn; split; try discriminate;
    try (intros (? & ? & ?); lia).
  - intros [= <-]; auto.
  - intros (_ & _ & ->); auto.
Qed.
Lemma pick_piece k k' off s : k <> k' -> forall (xs : list arr) ix,
  pick dflt k (map (fun x => piece k' x off s) xs) ix = pick dflt k xs (set_nth k' (nth k' ix 0 + off) ix).
Proof.
  intro ne. induction xs as [|x xs IH]; intros ix; cbn [pick map]; auto.
  rewrite nth_set_other by auto.
  replace (size (piece k' x off s) k) with (size x k) by (unfold size, piece; cbn [shape]; now rewrite nth_set_other by auto).
  destruct (_ <? _); auto. rewrite IH, nth_set_other by auto. rewrite set_comm by auto. reflexivity.
Qed.
Lemma sizes_piece k k' off s xs : k <> k' -> sizes k (map (fun x => piece k' x off s) xs) = sizes k xs.
Proof. intro ne. rewrite map_map. apply map_ext. intro x. unfold size, piece; cbn [shape]. now rewrite nth_set_other by auto. Qed.
Lemma fits_piece k k' v s t : k <> k' -> fits k s t = true -> fits k (set_nth k' v s) (set_nth k' v t) = true.
Proof. intros ne h. apply fits_iff in h. apply fits_iff. rewrite set_comm, h, set_comm; auto. Qed.
Lemma join_of_pieces k k' x xs off s r : k <> k' -> joinable _ k (x :: xs) (shape x) ->
  r = Arr (set_nth k (sum (sizes k (x :: xs))) (shape x)) (pick dflt k (x :: xs)) ->
  exists z, concatenate dflt k (map (fun x => piece k' x off s) (x :: xs)) = Ok z /\ same (piece k' r off s) z.
Proof.
  intros ne [hk hs] ->. eexists. split.
  - cbn [map]. apply concat_iff. split; [|reflexivity]. split.
    + cbn [piece shape]. now rewrite set_nth_length.
    + change (piece k' x off s :: map (fun x => piece k' x off s) xs) with (map (fun x => piece k' x off s) (x :: xs)).
      intros y hy. apply in_map_iff in hy as (z & <- & hz). cbn [piece shape]. apply fits_piece; auto.
  - change (piece k' x off s :: map (fun x => piece k' x off s) xs) with (map (fun x => piece k' x off s) (x :: xs)).
    rewrite sizes_piece by auto. split; cbn [piece shape entry].
    + apply set_comm; auto.
    + intros ix _. rewrite pick_piece by auto. reflexivity.
Qed.
Lemma columns_join k k' x xs r : k <> k' -> joinable _ k (x :: xs) (shape x) ->
  r = Arr (set_nth k (sum (sizes k (x :: xs))) (shape x)) (pick dflt k (x :: xs)) ->
  forall rest f j off, (forall y, In y (x :: xs) -> exists pre, length pre = j /\ f y = pre ++ pieces k' y off rest) ->
  exists zs, map_result (concatenate dflt k) (columns dflt (length rest) (map f (x :: xs)) j) = Ok zs /\
             Forall2 same (pieces k' r off rest) zs.
Proof.
  intros ne J hr. induction rest as [|s rest IH]; intros f j off hf; cbn [length columns].
  - exists []. split; [reflexivity|constructor].
  - destruct (join_of_pieces k k' x xs off s r ne J hr) as (z & ez & sz).
    destruct (IH f (S j) (off + s)) as (zs & ezs & szs).
    { intros y hy. destruct (hf y hy) as (pre & <- & e). rewrite pieces_cons in e.
      exists (pre ++ [piece k' y off s]). rewrite app_length, <- app_assoc, e. split; [cbn; lia|reflexivity]. }
    exists (z :: zs). split; [|rewrite pieces_cons; constructor; auto].
    cbn [map_result]. rewrite map_map.
    replace (map (fun y => nth j (f y) _) (x :: xs)) with (map (fun y => piece k' y off s) (x :: xs)).
    + rewrite ez. cbn [bind]. rewrite ezs. reflexivity.
    + apply map_ext_in. intros y hy. destruct (hf y hy) as (pre & <- & e). rewrite pieces_cons in e.
      rewrite e, app_nth2, Nat.sub_diag by lia. reflexivity.
Qed.
Lemma split_join_other k k' ss xs r ys : k <> k' -> concatenate dflt k xs = Ok r -> split k' ss r = Ok ys ->
  exists zs, split_of_join dflt k k' ss xs = Some (Ok zs) /\ Forall2 same ys zs.
Proof.
  intros ne H S. destruct xs as [|x xs]; [discriminate|]. apply concat_iff in H as [J hr].
  apply split_iff in S as (hk & hs & ->).
  unfold split_of_join. destruct (Nat.eqb_spec k k'); [contradiction|].
  assert (map_result (split k' ss) (x :: xs) = Ok (map (fun y => pieces k' y 0 ss) (x :: xs))) as E.
  { apply map_result_iff. assert (forall y, In y (x :: xs) -> split k' ss y = Ok (pieces k' y 0 ss)) as q.
    { intros y hy. apply split_iff. pose proof (proj2 J y hy) as fy. subst r. unfold ndim, size in *; cbn [shape] in *.
      rewrite set_nth_length in hk. rewrite nth_set_other in hs by auto.
      rewrite <- (fits_len k (shape x)) by auto. rewrite <- (fits_nth k (shape x) (shape y)) by auto. auto. }
    revert q. generalize (x :: xs). induction l; intro q; cbn; constructor; auto. apply q; now left. apply IHl. intros; apply q; now right. }
  rewrite E. cbn [bind].
  destruct (columns_join k k' x xs r ne J hr ss (fun y => pieces k' y 0 ss) 0 0) as (zs & ez & sz).
  { intros y _. exists []. auto. }
  rewrite ez. eauto.
Qed.
Lemma split_join_same k ss xs r zs : concatenate dflt k xs = Ok r -> split_of_join dflt k k ss xs = Some zs ->
  exists ys, split k ss r = Ok ys /\ zs = Ok xs /\ Forall2 same ys xs.
Proof.
  intros H S. unfold split_of_join in S. rewrite Nat.eqb_refl in S.
  destruct (_ && _) eqn:E; [|discriminate]. injection S as <-. apply andb_true_iff in E as [_ E].
  destruct (list_eq_dec _ _ _) as [<-|]; [|discriminate].
  destruct xs as [|x xs]; [discriminate|]. apply concat_iff in H as [J hr].
  exists (pieces k r 0 (sizes k (x :: xs))). split; [|split; auto].
  - apply split_iff. subst r. destruct J as [hk _]. split; [unfold ndim; cbn [shape]; now rewrite set_nth_length|split; auto]. symmetry. unfold size at 1; cbn [shape]. now apply nth_set_same.
  - eapply pieces_of_join; eauto.
Qed.
End Rewrites.
