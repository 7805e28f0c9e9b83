(* Nested join to block diagonal: proofs. *)
From Verif Require Import Common Ten_Model Ten_Spec Ten_Proofs Ten_Block.
Section Diag.
Context {V : Type}.
Variable dflt zero : V.
Variable is_zero : arr V -> bool.
Notation arr := (arr V).
Notation sizes k xs := (map (fun y : arr => size y k) xs).
Lemma Forall2_len {A B} (R : A -> B -> Prop) l l' : Forall2 R l l' -> length l = length l'.
Proof. induction 1; cbn; auto. Qed.
Lemma diag_at c : forall (xs : list arr) r i x, nth_error xs i = Some x ->
  sum (sizes 1 (firstn i xs)) <= r < sum (sizes 1 (firstn i xs)) + size x 1 ->
  diag_entry zero xs r c =
    if (sum (sizes 0 (firstn i xs)) <=? c) && (c <? sum (sizes 0 (firstn i xs)) + size x 0)
    then entry x [c - sum (sizes 0 (firstn i xs)); r - sum (sizes 1 (firstn i xs))] else zero.
Proof.
  intro xs; revert c; induction xs as [|y xs IH]; intros c r [|i] x e b; cbn in e; try discriminate.
  - injection e as ->. cbn [firstn map] in *. change (sum []) with 0 in *. cbn [diag_entry].
    replace (r <? size x 1) with true by (symmetry; apply Nat.ltb_lt; lia).
    rewrite !Nat.sub_0_r, !Nat.add_0_l. destruct (c <? size x 0); reflexivity.
  - cbn [firstn map] in *. change (sum (size y 1 :: ?l)) with (size y 1 + sum l) in *.
    change (sum (size y 0 :: ?l)) with (size y 0 + sum l) in *.
    set (A := sum (sizes 0 (firstn i xs))). set (B := sum (sizes 1 (firstn i xs))) in *. cbn [diag_entry].
    replace (r <? size y 1) with false by (symmetry; apply Nat.ltb_ge; lia).
    destruct (Nat.ltb_spec c (size y 0)).
    + replace (size y 0 + A <=? c) with false by (symmetry; apply Nat.leb_gt; lia). reflexivity.
    + rewrite (IH (c - size y 0) (r - size y 1) i x e) by (fold B; lia). fold A B.
      replace (A <=? c - size y 0) with (size y 0 + A <=? c)
        by (apply eq_true_iff_eq; rewrite !Nat.leb_le; lia).
      replace (c - size y 0 <? A + size x 0) with (c <? size y 0 + A + size x 0)
        by (apply eq_true_iff_eq; rewrite !Nat.ltb_lt; lia).
      replace (c - size y 0 - A) with (c - (size y 0 + A)) by lia.
      replace (r - size y 1 - B) with (r - (size y 1 + B)) by lia. reflexivity.
Qed.
Lemma combine_seq_nth {A} (l : list A) : forall a i, nth_error (combine (seq a (length l)) l) i = option_map (fun x => (a + i, x)) (nth_error l i).
Proof.
  induction l as [|x l IH]; intros a [|i]; cbn; auto; try (now rewrite Nat.add_0_r).
  rewrite IH. destruct (nth_error l i); cbn; auto. do 2 f_equal. lia.
Qed.
Lemma diagonal_nth (grid : list (list arr)) i row x : nth_error grid i = Some row -> nth_error row i = Some x ->
  nth_error (diagonal_of dflt grid) i = Some x.
Proof.
  intros e e'. unfold diagonal_of. rewrite nth_error_map, combine_seq_nth, e. cbn. f_equal. now apply nth_error_nth.
Qed.
Lemma diagonal_len (grid : list (list arr)) : length (diagonal_of dflt grid) = length grid.
Proof. unfold diagonal_of. rewrite map_length, combine_length, seq_length. lia. Qed.
Lemma off_diag grid i j row x : off_diagonal_zero is_zero grid = true -> nth_error grid i = Some row -> nth_error row j = Some x ->
  i <> j -> is_zero x = true.
Proof.
  unfold off_diagonal_zero. rewrite forallb_forall. intros h e e' ne.
  assert (In (i, row) (combine (seq 0 (length grid)) grid)) as hi.
  { apply nth_error_In with i. rewrite combine_seq_nth, e. reflexivity. }
  apply h in hi. cbn [fst snd] in hi. rewrite forallb_forall in hi.
  assert (In (j, x) (combine (seq 0 (length row)) row)) as hj.
  { apply nth_error_In with j. rewrite combine_seq_nth, e'. reflexivity. }
  apply hi in hj. cbn [fst snd] in hj. apply orb_true_iff in hj as [hj|hj]; auto. apply Nat.eqb_eq in hj. congruence.
Qed.
Lemma sum_ext_nth k (xs : list arr) f n : (forall i x, nth_error xs i = Some x -> size x k = f i) -> n <= length xs ->
  sum (sizes k (firstn n xs)) = sum (map f (seq 0 n)).
Proof.
  intro h. revert f h n. induction xs as [|x xs IH]; intros f h [|n] hn; auto; cbn in hn; try lia.
  cbn [firstn map seq]. change (sum (?a :: ?l)) with (a + sum l). rewrite (h 0 x) by auto. f_equal.
  rewrite <- seq_shift, map_map. apply (IH (fun i => f (S i))); [|lia]. intros i y e. apply (h (S i)); auto.
Qed.
Lemma sum_mono f i j : i < j -> sum (map f (seq 0 i)) + f i <= sum (map f (seq 0 j)).
Proof.
  intro h. induction h as [|j h IH].
  - rewrite seq_S, map_app, sum_app. cbn. lia.
  - rewrite (seq_S j), map_app, sum_app. cbn. lia.
Qed.
Lemma nested_diag hs ws grid r r' : (forall x, is_zero x = true -> forall ix, valid (shape x) ix -> entry x ix = zero) ->
  aligned hs ws grid -> nested_join dflt grid = Ok r -> nested_join_to_block_diagonal dflt zero is_zero grid = Some r' -> same r r'.
Proof.
  intros hz al H R. unfold nested_join_to_block_diagonal in R.
  destruct (_ && _) eqn:E; [|discriminate]. injection R as <-.
  apply andb_true_iff in E as [E oz]. apply andb_true_iff in E as [n2 sq]. rewrite forallb_forall in sq.
  assert (forall i row, nth_error grid i = Some row -> length row = length grid) as SQ.
  { intros i row e. apply Nat.eqb_eq, sq. eapply nth_error_In; eauto. }
  unfold nested_join in H. destruct (map_result _ grid) as [rows|] eqn:E; cbn [bind] in H; [|discriminate].
  apply map_result_iff in E. set (n := length grid) in *. apply Nat.leb_le in n2.
  assert (length rows = n) as ln by (symmetry; eapply Forall2_len; eauto).
  set (D := diagonal_of dflt grid). assert (length D = n) as lD by apply diagonal_len.
  assert (forall i, i < n -> exists row d, nth_error grid i = Some row /\ nth_error row i = Some d /\ nth_error D i = Some d /\ shape d = [ws i; hs i]) as DD.
  { intros i hi. destruct (nth_error grid i) as [row|] eqn:e; [|apply nth_error_None in e; unfold n in hi; lia].
    destruct (nth_error row i) as [d|] eqn:e'; [|apply nth_error_None in e'; rewrite (SQ i row e) in e'; lia].
    exists row, d. repeat split; auto. { eapply diagonal_nth; eauto. } eapply al; eauto. }
  assert (forall i d, nth_error D i = Some d -> size d 0 = ws i /\ size d 1 = hs i) as DS.
  { intros i d e. assert (i < n) as hi by (rewrite <- lD; apply nth_error_Some; congruence).
    destruct (DD i hi) as (row & d' & _ & _ & e' & s). rewrite e in e'. injection e' as <-. unfold size. rewrite s. auto. }
  assert (forall i m, nth_error rows i = Some m -> exists row, nth_error grid i = Some row /\
            shape m = [sum (map ws (seq 0 n)); hs i] /\ joinable _ 0 row (shape m) /\ (forall ix, entry m ix = pick dflt 0 row ix) /\
            (forall j, j <= n -> sum (sizes 0 (firstn j row)) = sum (map ws (seq 0 j)))) as RW.
  { intros i m em. destruct (Forall2_nth_r _ _ _ _ _ E em) as (row & er & c). exists row. split; auto.
    apply concat_ok in c as (s & ne & J & (x0 & row' & e0 & es) & ->). cbn [shape entry].
    assert (forall j, j <= n -> sum (sizes 0 (firstn j row)) = sum (map ws (seq 0 j))) as SS.
    { intros j hj. apply sum_ext_nth; [|rewrite (SQ i); auto]. intros k x ek. unfold size. erewrite al by eauto. reflexivity. }
    assert (s = [ws 0; hs i]) as s0. { subst s. apply (al i 0 row); auto. now rewrite e0. }
    split; [|split; [|split; auto]].
    - rewrite s0; cbn [set_nth]. f_equal. rewrite <- (SS n) by auto. rewrite <- (SQ i row er), firstn_all. reflexivity.
    - destruct J as [hk hf]. split; [now rewrite set_nth_length|]. intros x hx. specialize (hf x hx).
      apply fits_iff in hf. apply fits_iff. now rewrite set_set. }
  apply concat_ok in H as (s & nr & J & (m0 & rows' & e0 & es) & ->).
  destruct (RW 0 m0) as (row0 & _ & s0 & _). { now rewrite e0. }
  assert (forall j, j <= n -> sum (sizes 1 (firstn j rows)) = sum (map hs (seq 0 j))) as SR.
  { intros j hj. apply sum_ext_nth; [|lia]. intros i m em. destruct (RW i m em) as (row & _ & sm & _). unfold size. now rewrite sm. }
  assert (forall j, j <= n -> sum (sizes 0 (firstn j D)) = sum (map ws (seq 0 j))) as SD0.
  { intros j hj. apply sum_ext_nth; [|lia]. intros; now apply DS. }
  assert (forall j, j <= n -> sum (sizes 1 (firstn j D)) = sum (map hs (seq 0 j))) as SD1.
  { intros j hj. apply sum_ext_nth; [|lia]. intros; now apply DS. }
  split.
  - cbn [shape block_diag]. subst s. rewrite s0. cbn [set_nth]. f_equal; [|f_equal].
    + rewrite <- (SD0 n) by auto. rewrite <- lD, firstn_all. reflexivity.
    + rewrite <- (firstn_all rows), ln, SR, <- (SD1 n) by auto. rewrite <- lD, firstn_all. reflexivity.
  - cbn [shape entry block_diag]. intros jx v.
    destruct (cover _ 1 s rows jx J v) as (i & m & kx & em & vm & ->).
    destruct (RW i m em) as (row & er & sm & Jr & pm & SS).
    rewrite (pick_place _ dflt 1 s rows i m J em kx vm), pm.
    assert (i < n) as hi by (rewrite <- ln; apply nth_error_Some; congruence).
    assert (shape m = set_nth 0 (sum (sizes 0 row)) (shape m)) as sm'.
    { rewrite sm; cbn [set_nth]. f_equal. rewrite <- (SS n) by auto. rewrite <- (SQ i row er), firstn_all. reflexivity. }
    rewrite sm' in vm. destruct (cover _ 0 (shape m) row kx Jr vm) as (j & x & ix & ex & vx & ->).
    rewrite (pick_place _ dflt 0 (shape m) row j x Jr ex ix vx).
    assert (j < n) as hj by (rewrite <- (SQ i row er); apply nth_error_Some; congruence).
    pose proof (al i j row x er ex) as sx. pose proof vx as vx'. rewrite sx in vx.
    destruct ix as [|c [|q ix]]; inversion vx as [|? ? ? ? hc vx2]; subst; inversion vx2 as [|? ? ? ? hq vx3]; subst; inversion vx3; subst.
    unfold bump. cbn [set_nth nth]. rewrite SR, SS by lia.
    destruct (DD i hi) as (row' & d & e1 & e2 & e3 & e4). rewrite er in e1; injection e1 as <-.
    rewrite (diag_at (c + sum (map ws (seq 0 j))) D _ i d e3) by (rewrite SD1 by lia; unfold size; rewrite e4; cbn [nth]; lia).
    rewrite SD0, SD1 by lia. unfold size; rewrite e4; cbn [nth].
    destruct (Nat.eq_dec i j) as [<-|ne].
    + replace (_ && _) with true.
      * rewrite e2 in ex; injection ex as <-. do 2 f_equal; [lia|]. f_equal; lia.
      * symmetry; apply andb_true_iff; split; [apply Nat.leb_le|apply Nat.ltb_lt]; lia.
    + replace (_ && _) with false.
      * apply hz; auto. eapply off_diag; eauto.
      * symmetry; apply andb_false_iff. destruct (Nat.lt_trichotomy i j) as [lt|[|lt]]; [right|contradiction|left].
        -- apply Nat.ltb_ge. pose proof (sum_mono ws i j lt). lia.
        -- apply Nat.leb_gt. pose proof (sum_mono ws j i lt). lia.
Qed.
End Diag.
