From Coq Require Import ZArith List Bool Lia Arith.
From Verif Require Import Common Mix_Model Mix_Spec.
Import ListNotations.
Local Open Scope Z_scope.

Section P.
Variable V : Type.
Variables (tick : Z -> Z) (roll : Z -> Z).
Hypothesis Cal : calendar tick roll.
Notation cellrow := (list (cell V)).

Lemma tick_inj a b : tick a = tick b -> a = b.
Proof. destruct Cal as [M _]. intro H. destruct (Z.lt_trichotomy a b) as [L|[E|L]]; auto; apply M in L; lia. Qed.
Lemma tick_le a b : a <= b -> tick a <= tick b.
Proof. destruct Cal as [M _]. intro H. destruct (Z.eq_dec a b) as [->|N]; [lia|]. assert (a < b) by lia. apply M in H0; lia. Qed.
Lemma number_roll d k : number tick d k <-> roll d = k.
Proof.
  destruct Cal as [M R]. destruct (R d) as [R1 R2]. split.
  - intros [H1 H2]. destruct (Z.lt_trichotomy (roll d) k) as [L|[E|L]]; auto.
    + assert (tick (roll d) <= tick (k - 1)) by (apply tick_le; lia). lia.
    + assert (tick k <= tick (roll d - 1)) by (apply tick_le; lia). lia.
  - intros <-. split; auto.
Qed.
Lemma le_tick d k : d <= tick k <-> roll d <= k.
Proof.
  destruct Cal as [M R]. destruct (R d) as [R1 R2]. split; intro H.
  - destruct (Z.le_gt_cases (roll d) k) as [L|L]; auto. assert (tick k <= tick (roll d - 1)) by (apply tick_le; lia). lia.
  - assert (tick (roll d) <= tick k) by (apply tick_le; lia). lia.
Qed.
Lemma roll_mono a b : a <= b -> roll a <= roll b.
Proof. intro H. apply le_tick. assert (b <= tick (roll b)) by (apply le_tick; lia). lia. Qed.

Definition ticks (r0 : Z) (a n : nat) : list Z := map (fun i => tick (r0 + Z.of_nat i)) (seq a n).
Lemma filter_none {A} (f : A -> bool) l : (forall x, In x l -> f x = false) -> filter f l = [].
Proof. induction l as [|x l IH]; cbn; intro H; [reflexivity|]. rewrite (H x) by auto. apply IH; auto. Qed.
Lemma filter_all {A} (f : A -> bool) l : (forall x, In x l -> f x = true) -> filter f l = l.
Proof. induction l as [|x l IH]; cbn; intro H; [reflexivity|]. rewrite (H x) by auto. f_equal; apply IH; auto. Qed.
Lemma filter_ticks r0 d N : r0 <= roll d ->
  filter (not_before (Some d)) (ticks r0 0 N) = ticks r0 (Z.to_nat (roll d - r0)) (N - Z.to_nat (roll d - r0)).
Proof.
  intro H. set (a := Z.to_nat (roll d - r0)).
  assert (B : forall i, not_before (Some d) (tick (r0 + Z.of_nat i)) = true <-> (a <= i)%nat).
  { intro i. cbn. rewrite Z.leb_le, le_tick. unfold a. lia. }
  unfold ticks. destruct (Nat.le_gt_cases a N) as [L|L].
  - replace N with (a + (N - a))%nat at 1 by lia. rewrite seq_app, map_app, filter_app.
    rewrite filter_none, filter_all; [reflexivity| |]; intros x Hx; apply in_map_iff in Hx; destruct Hx as [i [<- Hi]];
      apply in_seq in Hi.
    + apply B; lia.
    + destruct (not_before (Some d) (tick (r0 + Z.of_nat i))) eqn:E; auto. apply B in E; lia.
  - replace (N - a)%nat with 0%nat by lia. cbn [seq map]. apply filter_none. intros x Hx. apply in_map_iff in Hx.
    destruct Hx as [i [<- Hi]]. apply in_seq in Hi. destruct (not_before (Some d) (tick (r0 + Z.of_nat i))) eqn:E; auto.
    apply B in E; lia.
Qed.
Lemma firstn_ticks r0 p a n : firstn p (ticks r0 a n) = ticks r0 a (Nat.min p n).
Proof.
  unfold ticks. rewrite firstn_map. f_equal. revert a n. induction p as [|p IH]; intros a n; [reflexivity|].
  destruct n as [|n]; [reflexivity|]. cbn [firstn seq Nat.min]. f_equal. apply IH.
Qed.

(* where a row lands *)
Definition here (pos k : Z) (r : row V) : bool := match fst r with Some d => roll d + pos =? k | None => false end.
Definition cells (w : nat) (pos : Z) (rs : list (row V)) (k : Z) : cellrow :=
  fold_left (fun acc r => if here pos k r then snd r else acc) rs (repeat None w).
Definition table (w : nat) (pos : Z) (r0 : Z) (N : nat) (rs : list (row V)) : list (Z * cellrow) :=
  map (fun i => (tick (r0 + Z.of_nat i), cells w pos rs (r0 + Z.of_nat i))) (seq 0 N).

Lemma cells_snoc w pos rs r k : cells w pos (rs ++ [r]) k = if here pos k r then snd r else cells w pos rs k.
Proof. unfold cells. now rewrite fold_left_app. Qed.
Lemma place_one w p pos r0 N rs r : 0 <= pos < Z.of_nat p -> (forall d, fst r = Some d -> r0 <= roll d) ->
  place_row V (ticks r0 0 N) p pos (table w pos r0 N rs) r = Ok (table w pos r0 N (rs ++ [r])).
Proof.
  intros Hp Hr. unfold place_row. destruct r as [[d|] v]; cbn [fst snd] in *.
  - specialize (Hr d eq_refl). rewrite filter_ticks, firstn_ticks by exact Hr.
    set (a := Z.to_nat (roll d - r0)). set (m := Nat.min p (N - a)).
    assert (Lm : length (ticks r0 a m) = m) by (unfold ticks; now rewrite map_length, seq_length). rewrite Lm.
    destruct (Z.leb_spec (Z.of_nat m) pos) as [L|L].
    + f_equal. unfold table. apply map_ext_in. intros i Hi. apply in_seq in Hi. f_equal. rewrite cells_snoc. unfold here. cbn [fst]. destruct (Z.eqb_spec (roll d + pos) (r0 + Z.of_nat i)) as [E|E]; auto.
      exfalso. unfold m, a in L. lia.
    + unfold py_index. destruct (Z.ltb_spec pos 0) as [L0|L0]; [lia|]. destruct (Z.ltb_spec pos 0) as [L1|_]; [lia|].
      assert (NE : nth_error (ticks r0 a m) (Z.to_nat pos) = Some (tick (roll d + pos))).
      { unfold ticks. rewrite nth_error_map.
        assert (Hs : nth_error (seq a m) (Z.to_nat pos) = Some (a + Z.to_nat pos)%nat).
        { rewrite nth_error_nth' with (d := 0%nat) by (rewrite seq_length; lia). f_equal. apply seq_nth. lia. }
        rewrite Hs. cbn. do 2 f_equal. unfold a. lia. }
      rewrite NE. cbn [bind]. f_equal. unfold set_row, table. rewrite map_map. apply map_ext_in. intros i Hi. apply in_seq in Hi.
      cbn [fst]. rewrite cells_snoc. unfold here. cbn [fst snd].
      destruct (Z.eqb_spec (tick (r0 + Z.of_nat i)) (tick (roll d + pos))) as [E|E].
      * apply tick_inj in E. rewrite <- E, Z.eqb_refl. reflexivity.
      * destruct (Z.eqb_spec (roll d + pos) (r0 + Z.of_nat i)) as [E'|_]; [exfalso; apply E; now rewrite E'|]. reflexivity.
  - rewrite filter_none, firstn_nil by reflexivity. cbn [length]. destruct (Z.leb_spec (Z.of_nat 0) pos) as [L|L]; [|lia].
    f_equal. unfold table. apply map_ext. intro i. f_equal. now rewrite cells_snoc.
Qed.
Lemma place_all w p pos r0 N todo done : 0 <= pos < Z.of_nat p -> (forall r d, In r todo -> fst r = Some d -> r0 <= roll d) ->
  place_rows V (ticks r0 0 N) p pos todo (table w pos r0 N done) = Ok (table w pos r0 N (done ++ todo)).
Proof.
  intros Hp. revert done. induction todo as [|r todo IH]; intros done H; cbn [place_rows].
  - now rewrite app_nil_r.
  - rewrite place_one by (first [exact Hp | intros d Hd; apply (H r d); [left; reflexivity|exact Hd]]). cbn [bind]. rewrite IH.
    + now rewrite <- app_assoc.
    + intros r' d' H1 H2. eapply H; [right; eassumption|assumption].
Qed.
Lemma blank_table w pos r0 N : map (fun d => (d, repeat None w)) (ticks r0 0 N) = table w pos r0 N [].
Proof. unfold ticks, table. now rewrite map_map. Qed.

(* the smallest date *)
Definition minstep (acc : option Z) (r : row V) : option Z :=
  match acc, fst r with None, d => d | Some a, None => Some a | Some a, Some d => Some (Z.min a d) end.
Lemma index_min_fold rs : index_min V rs = fold_left minstep rs None. Proof. reflexivity. Qed.
Lemma min_some rs a : exists b, fold_left minstep rs (Some a) = Some b /\ b <= a /\
  (forall r d, In r rs -> fst r = Some d -> b <= d) /\ (b = a \/ exists v, In (Some b, v) rs).
Proof.
  revert a. induction rs as [|[[d|] v] rs IH]; intro a; cbn [fold_left].
  - exists a. repeat split; try lia; auto. intros r d [].
  - unfold minstep at 2. cbn [fst]. destruct (IH (Z.min a d)) as [b [E [L [A O]]]]. exists b. rewrite E. split; auto. split; [lia|]. split.
    + intros r d' [<-|Hin] Hd; [cbn in Hd; injection Hd as <-; lia|eauto].
    + destruct O as [->|[v' Hv]]; [|right; exists v'; now right].
      destruct (Z.min_spec a d) as [[_ ->]|[_ ->]]; [now left|right; exists v; now left].
  - unfold minstep at 2. cbn [fst]. destruct (IH a) as [b [E [L [A O]]]]. exists b. rewrite E. split; auto. split; [lia|]. split.
    + intros r d' [<-|Hin] Hd; [discriminate|eauto].
    + destruct O as [->|[v' Hv]]; auto. right; exists v'; now right.
Qed.
Lemma min_iff rs : match index_min V rs with
  | Some b => (exists v, In (Some b, v) rs) /\ forall r d, In r rs -> fst r = Some d -> b <= d
  | None => forall r, In r rs -> fst r = None
  end.
Proof.
  rewrite index_min_fold. induction rs as [|[[d|] v] rs IH]; cbn [fold_left].
  - intros r [].
  - cbn [minstep fst]. destruct (min_some rs d) as [b [E [L [A O]]]]. rewrite E. split.
    + destruct O as [->|[v' Hv]]; [exists v; now left|exists v'; now right].
    + intros r d' [<-|Hin] Hd; [cbn in Hd; injection Hd as <-; lia|eauto].
  - cbn [minstep fst]. destruct (fold_left minstep rs None) as [b|].
    + destruct IH as [[v' Hv] A]. split; [exists v'; now right|]. intros r d [<-|Hin] Hd; [discriminate|eauto].
    + intros r [<-|Hin]; [reflexivity|auto].
Qed.

(* trimming *)
Section Trim.
Variables (r0 : Z) (g : nat -> cellrow).
Definition grow (i : nat) : Z * cellrow := (tick (r0 + Z.of_nat i), g i).
Definition valued (i : nat) : bool := has_value V (grow i).
Lemma last_valid N :
  (last_valid_index V (map grow (seq 0 N)) = None /\ forall i, (i < N)%nat -> valued i = false) \/
  exists j, (j < N)%nat /\ valued j = true /\ (forall i, (j < i < N)%nat -> valued i = false) /\
    last_valid_index V (map grow (seq 0 N)) = Some (tick (r0 + Z.of_nat j)).
Proof.
  induction N as [|N IH]; [left; split; [reflexivity|lia]|].
  rewrite seq_S, map_app. unfold last_valid_index in *. rewrite filter_app, rev_app_distr. cbn [map filter plus].
  destruct (has_value V (grow N)) eqn:E; cbn [rev app].
  - right. exists N. repeat split; auto; lia.
  - destruct IH as [[E0 A]|[j [L [Vj [A E0]]]]].
    + left. split; auto. intros i Hi. destruct (Nat.eq_dec i N) as [->|]; auto. apply A; lia.
    + right. exists j. refine (conj _ (conj Vj (conj _ E0))); [lia|]. intros i Hi. destruct (Nat.eq_dec i N) as [->|]; auto. apply A; lia.
Qed.
Lemma loc_upto_ticks N j : (j < N)%nat -> loc_upto V (map grow (seq 0 N)) (tick (r0 + Z.of_nat j)) = map grow (seq 0 (S j)).
Proof.
  intro H. unfold loc_upto. replace N with (S j + (N - S j))%nat by lia. rewrite seq_app, map_app, filter_app.
  rewrite filter_all, filter_none; [now rewrite app_nil_r| |]; intros x Hx; apply in_map_iff in Hx; destruct Hx as [i [<- Hi]];
    apply in_seq in Hi; unfold grow; cbn [fst].
  - apply Z.leb_gt. destruct Cal as [M _]. apply M. lia.
  - apply Z.leb_le. apply tick_le. lia.
Qed.
End Trim.

Lemma cells_found w pos rs k : found tick pos k rs (if existsb (here pos k) rs then Some (cells w pos rs k) else None) /\
  (existsb (here pos k) rs = false -> cells w pos rs k = repeat None w).
Proof.
  assert (HN : forall d, number tick d (k - pos) <-> (roll d + pos =? k) = true).
  { intro d. rewrite number_roll, Z.eqb_eq. lia. }
  induction rs as [|r rs IH] using rev_ind; [split; [constructor; intros d v []|reflexivity]|].
  rewrite existsb_app. cbn [existsb]. rewrite cells_snoc. destruct IH as [IH1 IH2]. destruct (here pos k r) eqn:E.
  - rewrite orb_true_r. split; [|discriminate]. destruct r as [[d|] v]; [|discriminate E]. cbn [snd].
    apply found_row; [now apply HN|]. intros d' v' [].
  - rewrite !orb_false_r. split; [|exact IH2].
    assert (Last : forall d v, In (Some d, v) [r] -> ~ number tick d (k - pos)).
    { intros d v [->|[]] HH. apply HN in HH. cbn in E. congruence. }
    remember (if existsb (here pos k) rs then Some (cells w pos rs k) else None) as o eqn:Eo.
    destruct IH1 as [pre d v post H1 H2|rs0 H].
    + match goal with |- found _ _ _ _ ?x => replace x with (Some v) by exact Eo end. rewrite <- app_assoc. cbn [app]. apply found_row; auto. intros d' v' Hin. apply in_app_or in Hin. destruct Hin; eauto.
    + match goal with |- found _ _ _ _ ?x => replace x with (@None cellrow) by exact Eo end. apply found_none. intros d' v' Hin. apply in_app_or in Hin. destruct Hin; eauto.
Qed.
End P.
