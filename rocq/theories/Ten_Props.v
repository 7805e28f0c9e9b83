(* C119-C122: tensors assembled from blocks, and the rewrites about joins. *)
From Verif Require Import Common Ten_Model Ten_Spec Ten_Proofs Ten_Block Ten_Rewrites Ten_Diag.

(* ---------- C119: block ---------- *)
Theorem C119_accepted_iff : forall (V : Type) (dflt : V) t,
  (exists r, block dflt t = Ok r) <-> exists d n s, uniform d t /\ result_axes t d n /\ shaped n d t s.
Proof.
  intros V dflt t. split.
  - intros [r H]. apply block_is in H as (d & u & H). exists d, (axes t d), (shape r).
    repeat split; auto; try apply axes_spec; auto. eapply shaped_of; eauto.
  - intros (d & n & s & u & ra & sh). assert (n = axes t d) as -> by (eapply axes_unique; eauto; now apply axes_spec).
    destruct (shaped_ok dflt (axes t d) d t s) as (r & er & _); auto; try apply ra. { exact (proj1 (proj2 (proj2 ra))). }
    exists r. apply block_is. eauto.
Qed.
Theorem C119_every_entry_in_its_place : forall (V : Type) (dflt : V) t r, block dflt t = Ok r ->
  exists d n, uniform d t /\ result_axes t d n /\ ndim r = n /\ shaped n d t (shape r) /\
    (forall p a ix, leaf_at t p a -> valid (padded n a) ix ->
       exists jx, lands t p ix jx /\ valid (shape r) jx /\ entry r jx = entry a (firstn (ndim a) ix)) /\
    (forall jx, valid (shape r) jx -> exists p a ix, leaf_at t p a /\ valid (padded n a) ix /\ lands t p ix jx) /\
    (forall p a ix p' a' ix' jx, leaf_at t p a -> leaf_at t p' a' -> valid (padded n a) ix -> valid (padded n a') ix' ->
       lands t p ix jx -> lands t p' ix' jx -> p = p' /\ ix = ix').
Proof.
  intros V dflt t r H. apply block_is in H as (d & u & H). exists d, (axes t d).
  pose proof (axes_spec t d u) as ra. pose proof ra as (h1 & h2 & h3 & _).
  destruct (assemble_good dflt (axes t d) d t r h2 u h3 H) as [g1 g2 g3 g4 g5].
  refine (conj u (conj ra (conj g1 (conj _ (conj g3 (conj g4 g5)))))). eapply shaped_of; eauto.
Qed.
(* lists of different depths, empty lists and tuples are refused *)
Theorem C119_refused : forall (V : Type) (dflt : V) t, (forall d, ~ uniform d t) -> exists e, block dflt t = Err e.
Proof.
  intros V dflt t h. destruct (block dflt t) as [r|e] eqn:E; [|eauto].
  apply block_is in E as (d & u & _). destruct (h d u).
Qed.
Definition mat (r c : nat) (l : list nat) : arr nat := Arr [c; r] (fun ix => match ix with [j; i] => nth (i * c + j) l 0 | _ => 0 end).
Definition listing (r c : nat) (a : arr nat) : list (list nat) := map (fun i => map (fun j => entry a [j; i]) (seq 0 c)) (seq 0 r).
Theorem C119_case :
  (* the example of the documentation *)
  (exists r, block 99 (Node [Node [Leaf (mat 2 2 [1; 2; 3; 4]); Leaf (mat 2 1 [5; 6])]; Node [Leaf (mat 1 2 [7; 8]); Leaf (mat 1 1 [9])]]) = Ok r /\
     shape r = [3; 3] /\ listing 3 3 r = [[1; 2; 5]; [3; 4; 6]; [7; 8; 9]]) /\
  block 99 (Node [Leaf (mat 1 1 [1]); Node [Leaf (mat 1 1 [1])]]) = Err ValueError /\
  block 99 (Node [Node []]) = Err ValueError /\
  block 99 (Node [Tup [Leaf (mat 1 1 [1])]]) = Err TypeError /\
  block 99 (Node [Node [Leaf (mat 2 2 [1; 2; 3; 4]); Leaf (mat 1 1 [5])]]) = Err ValueError.
Proof. split; [eexists; split; [reflexivity|split; reflexivity]|]. repeat split; reflexivity. Qed.

(* ---------- C120: transpose of a join ---------- *)
Theorem C120_transpose_of_join : forall (V : Type) (dflt : V) k xs, (forall x, In x xs -> 2 <= ndim x) ->
  (forall r, concatenate dflt k xs = Ok r -> exists r', transpose_of_join dflt k xs = Ok r' /\ same r' (mT r)) /\
  (forall r', transpose_of_join dflt k xs = Ok r' -> exists r, concatenate dflt k xs = Ok r).
Proof.
  intros V dflt k xs hx. split.
  - intros r H. now apply transpose_join.
  - intros r' H. eapply mT_mT_in; eauto.
Qed.
Theorem C120_case :
  exists r r', concatenate 99 0 [mat 2 2 [1; 2; 3; 4]; mat 2 1 [5; 6]] = Ok r /\ transpose_of_join 99 0 [mat 2 2 [1; 2; 3; 4]; mat 2 1 [5; 6]] = Ok r' /\
    listing 2 3 r = [[1; 2; 5]; [3; 4; 6]] /\ listing 3 2 r' = [[1; 3]; [2; 4]; [5; 6]].
Proof. eexists; eexists. repeat split; reflexivity. Qed.

(* ---------- C121: split of a join ---------- *)
Theorem C121_split_of_join : forall (V : Type) (dflt : V) k k' ss xs r ys zs,
  concatenate dflt k xs = Ok r -> split k' ss r = Ok ys -> split_of_join dflt k k' ss xs = Some zs ->
  exists zs', zs = Ok zs' /\ Forall2 same ys zs'.
Proof.
  intros V dflt k k' ss xs r ys zs H S R. destruct (Nat.eq_dec k k') as [<-|ne].
  - destruct (split_join_same dflt k ss xs r zs H R) as (ys' & S' & -> & f). rewrite S in S'. injection S' as <-. eauto.
  - destruct (split_join_other dflt k k' ss xs r ys ne H S) as (zs' & R' & f). rewrite R in R'. injection R' as ->. eauto.
Qed.
(* along another axis it always applies, along the join's own axis exactly when the cuts are the inputs' lengths *)
Theorem C121_applies_iff : forall (V : Type) (dflt : V) k k' ss xs,
  (exists zs, split_of_join dflt k k' ss xs = Some zs) <-> (k = k' -> map (fun x => nth k (shape x) 0) xs = ss).
Proof.
  intros V dflt k k' ss xs. unfold split_of_join. destruct (Nat.eqb_spec k k') as [<-|ne].
  - destruct (list_eq_dec Nat.eq_dec (map (fun x => size x k) xs) ss) as [e|ne].
    + replace (length xs =? length ss) with true; [split; [intros _ _; exact e|cbn; eauto]|]. symmetry. apply Nat.eqb_eq. rewrite <- e, map_length; auto.
    + rewrite andb_false_r. split; [intros [? ?]; discriminate|]. intro h; exfalso; apply ne; apply h; auto.
  - split; [intros _ e; contradiction|eauto].
Qed.
Theorem C121_case :
  (exists r ys zs, concatenate 99 0 [mat 2 2 [1; 2; 3; 4]; mat 2 1 [5; 6]] = Ok r /\ split 1 [1; 1] r = Ok ys /\
     split_of_join 99 0 1 [1; 1] [mat 2 2 [1; 2; 3; 4]; mat 2 1 [5; 6]] = Some (Ok zs) /\
     map (listing 1 3) ys = [[[1; 2; 5]]; [[3; 4; 6]]] /\ map (listing 1 3) zs = [[[1; 2; 5]]; [[3; 4; 6]]]) /\
  split_of_join 99 0 0 [1; 2] [mat 2 2 [1; 2; 3; 4]; mat 2 1 [5; 6]] = None.
Proof. split; [do 3 eexists|]; repeat split; reflexivity. Qed.

(* ---------- C122: nested join to block diagonal ---------- *)
Theorem C122_block_diagonal : forall (V : Type) (dflt zero : V) is_zero hs ws grid r r',
  (forall x, is_zero x = true -> forall ix, valid (shape x) ix -> entry x ix = zero) ->
  aligned hs ws grid -> nested_join dflt grid = Ok r ->
  nested_join_to_block_diagonal dflt zero is_zero grid = Some r' -> same r r'.
Proof. intros V dflt zero is_zero hs ws grid r r' hz al H R. exact (nested_diag dflt zero is_zero hs ws grid r r' hz al H R). Qed.
(* blocks that do not line up in columns still join, and the rewrite changes the result, even its shape *)
Definition all_zero (a : arr nat) : bool := forallb (fun i => forallb (fun j => entry a [j; i] =? 0) (seq 0 (size a 0))) (seq 0 (size a 1)).
Theorem C122_unaligned_refuted : ~ (forall grid r r', nested_join 99 grid = Ok r ->
  nested_join_to_block_diagonal 99 0 all_zero grid = Some r' -> same r r').
Proof.
  intro h. destruct (h [[mat 1 1 [7]; mat 1 2 [0; 0]]; [mat 1 2 [0; 0]; mat 1 1 [8]]] _ _ eq_refl eq_refl) as [e _].
  discriminate e.
Qed.
Lemma all_zero_sound x : ndim x = 2 -> all_zero x = true -> forall ix, valid (shape x) ix -> entry x ix = 0.
Proof.
  intros n2 h ix v. unfold all_zero in h. rewrite forallb_forall in h.
  unfold ndim in n2. destruct (shape x) as [|w [|t [|? ?]]] eqn:s; try discriminate.
  inversion v as [|c ? ? ? hc v2]; subst. inversion v2 as [|q ? ? ? hq v3]; subst. inversion v3; subst.
  assert (In q (seq 0 (size x 1))) as hi. { apply in_seq. unfold size; rewrite s; cbn; lia. }
  apply h in hi. rewrite forallb_forall in hi. apply Nat.eqb_eq, hi. apply in_seq. unfold size; rewrite s; cbn; lia.
Qed.
Theorem C122_case :
  let is_zero x := (ndim x =? 2) && all_zero x in
  let grid := [[mat 1 2 [7; 8]; mat 1 1 [0]]; [mat 2 2 [0; 0; 0; 0]; mat 2 1 [5; 6]]] in
  (forall x, is_zero x = true -> forall ix, valid (shape x) ix -> entry x ix = 0) /\
  aligned (fun i => S i) (fun j => 2 - j) grid /\
  exists r r', nested_join 99 grid = Ok r /\ nested_join_to_block_diagonal 99 0 is_zero grid = Some r' /\
    listing 3 3 r = [[7; 8; 0]; [0; 0; 5]; [0; 0; 6]] /\ listing 3 3 r' = [[7; 8; 0]; [0; 0; 5]; [0; 0; 6]].
Proof.
  cbv zeta. split; [|split].
  - intros x h. apply andb_true_iff in h as [a b]. apply Nat.eqb_eq in a. now apply all_zero_sound.
  - intros i j row x. destruct i as [|[|[|i]]]; cbn; try discriminate; intros [= <-]; destruct j as [|[|[|j]]]; cbn; try discriminate; intros [= <-]; reflexivity.
  - do 2 eexists. repeat split; reflexivity.
Qed.
