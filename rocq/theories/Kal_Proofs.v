(* Lemmas about the state-space form. *)
From Verif Require Import Common Sym_Model Sym_Spec SR_Model SR_Proofs Kal_Model Kal_Spec.
From Coq Require Import Reals Lra.
Local Open Scope R_scope.
Local Open Scope list_scope.

Lemma mem_In x l : mem x l = true <-> In x l.
Proof. unfold mem. rewrite existsb_exists. split; [intros (y & H & E); apply chars_eqb_eq in E; now subst|intro H; exists x; split; [exact H|apply chars_eqb_refl]]. Qed.
Lemma mem_false x l : mem x l = false <-> ~ In x l.
Proof. rewrite <- mem_In. destruct (mem x l); split; congruence. Qed.
Lemma index_ok x l i : index x l = Ok i -> nth_error l i = Some x.
Proof.
  revert i. induction l as [|y l IH]; intros i H; [discriminate|]. cbn in H. destruct (chars_eqb x y) eqn:E.
  - apply chars_eqb_eq in E. injection H as <-. now subst.
  - destruct (index x l) as [k|] eqn:Ek; [|discriminate]. injection H as <-. cbn. now apply IH.
Qed.
Lemma index_lt x l i : index x l = Ok i -> (i < length l)%nat.
Proof. intro H. apply index_ok in H. apply nth_error_Some. congruence. Qed.
Lemma index_In x l : In x l -> exists i, index x l = Ok i.
Proof.
  induction l as [|y l IH]; intros H; [destruct H|]. cbn. destruct (chars_eqb x y) eqn:E; [exists 0%nat; reflexivity|]. destruct H as [->|H]; [rewrite chars_eqb_refl in E; discriminate|].
  destruct (IH H) as [i ->]. exists (S i). reflexivity.
Qed.
Lemma index_err x l e : index x l = Err e -> ~ In x l /\ e = ValueError.
Proof.
  induction l as [|y l IH]; cbn; intros H; [split; [tauto|congruence]|]. destruct (chars_eqb x y) eqn:E; [discriminate|]. apply chars_eqb_neq in E.
  destruct (index x l) as [k|e'] eqn:Ek; [discriminate|]. cbn in H. destruct (IH H) as [H1 H2]. split; [intros [->|C]; tauto|exact H2].
Qed.
Lemma index_nth x l : NoDup l -> forall i, nth_error l i = Some x -> index x l = Ok i.
Proof.
  intros Hn i Hi. destruct (index_In x l (nth_error_In _ _ Hi)) as [k Hk]. pose proof (index_ok _ _ _ Hk) as Hk'.
  rewrite NoDup_nth_error in Hn. rewrite <- (Hn k i); [exact Hk| |congruence]. apply nth_error_Some. congruence.
Qed.
Lemma get_In {A} k (d : list (chars * A)) x : get k d = Some x -> In (k, x) d.
Proof. induction d as [|[k' v] d IH]; [discriminate|]. cbn. destruct (chars_eqb k k') eqn:E; intro H; [left; apply chars_eqb_eq in E; congruence|right; now apply IH]. Qed.
Lemma get_None {A} k (d : list (chars * A)) : get k d = None <-> ~ In k (map fst d).
Proof.
  induction d as [|[k' v] d IH]; [cbn; tauto|]. cbn. destruct (chars_eqb k k') eqn:E.
  - apply chars_eqb_eq in E. split; [discriminate|]. intro H. exfalso. apply H. now left.
  - apply chars_eqb_neq in E. rewrite IH. split; intros H; [intros [C|C]; [congruence|tauto]|tauto].
Qed.
Lemma get_nodup {A} k x (d : list (chars * A)) : NoDup (map fst d) -> In (k, x) d -> get k d = Some x.
Proof.
  induction d as [|[k' v] d IH]; [contradiction|]. cbn. intros Hn [H|H].
  - injection H as -> ->. now rewrite chars_eqb_refl.
  - inversion Hn as [|? ? N1 N2]; subst. destruct (chars_eqb k k') eqn:E; [apply chars_eqb_eq in E; subst; exfalso; apply N1; now apply (in_map fst) in H|]. now apply IH.
Qed.
Lemma put_get {A} k (v : A) d k' : get k' (put k v d) = if chars_eqb k' k then Some v else get k' d.
Proof.
  induction d as [|[q w] d IH]; [reflexivity|]. cbn. destruct (chars_eqb k q) eqn:E; cbn.
  - apply chars_eqb_eq in E. subst q. destruct (chars_eqb k' k); reflexivity.
  - rewrite IH. destruct (chars_eqb k' q) eqn:E1; [|reflexivity]. destruct (chars_eqb k' k) eqn:E2; [|reflexivity]. apply chars_eqb_eq in E1, E2. subst. rewrite chars_eqb_refl in E. discriminate.
Qed.
Lemma put_keys {A} k (v : A) d x : In x (map fst (put k v d)) <-> x = k \/ In x (map fst d).
Proof.
  induction d as [|[q w] d IH]; [cbn; intuition|]. cbn. destruct (chars_eqb k q) eqn:E; cbn.
  - apply chars_eqb_eq in E. subst q. intuition.
  - rewrite IH. intuition.
Qed.
Lemma put_nodup {A} k (v : A) d : NoDup (map fst d) -> NoDup (map fst (put k v d)).
Proof.
  induction d as [|[q w] d IH]; intro H; [cbn; constructor; [tauto|constructor]|]. cbn in *. inversion H as [|? ? N1 N2]; subst. destruct (chars_eqb k q) eqn:E; cbn.
  - constructor; assumption.
  - constructor; [|now apply IH]. rewrite put_keys. intros [C|C]; [subst; rewrite chars_eqb_refl in E; discriminate|tauto].
Qed.
Lemma all_ok_nth {A B} (f : A -> result B) l r : all_ok f l = Ok r -> length r = length l /\ forall i a, nth_error l i = Some a -> exists b, f a = Ok b /\ nth_error r i = Some b.
Proof.
  revert r. induction l as [|a l IH]; intros r H; cbn in H.
  - injection H as <-. split; [reflexivity|]. intros [|]; discriminate.
  - destruct (f a) as [b|] eqn:Eb; [|discriminate]. cbn in H. destruct (all_ok f l) as [bs|] eqn:El; [|discriminate]. cbn in H. injection H as <-.
    destruct (IH _ eq_refl) as [I1 I2]. split; [cbn; congruence|]. intros [|i] a' Ha; [injection Ha as <-; exists b; auto|]. now apply I2.
Qed.
Lemma all_ok_all {A B} (f : A -> result B) l : (forall a, In a l -> exists b, f a = Ok b) -> exists r, all_ok f l = Ok r.
Proof. induction l as [|a l IH]; intro H; [eexists; reflexivity|]. cbn. destruct (H a (or_introl eq_refl)) as [b ->]. destruct IH as [r ->]; [intros; apply H; now right|]. eexists. reflexivity. Qed.

(* sums *)
Lemma rsum_unit n p (s : vec) : (p < n)%nat -> rsum n (fun j => (if Nat.eqb j p then 1 else 0) * s j) = s p.
Proof.
  assert (Hk : forall n, rsum n (fun j => (if Nat.eqb j p then 1 else 0) * s j) = if Nat.ltb p n then s p else 0).
  { induction n0 as [|k IH]; [reflexivity|]. cbn [rsum]. rewrite IH. destruct (Nat.eqb_spec k p) as [E|N]; destruct (Nat.ltb_spec p k); destruct (Nat.ltb_spec p (S k)); try lia; try rewrite <- E; ring. }
  intro H. rewrite Hk. destruct (Nat.ltb_spec p n); [reflexivity|lia].
Qed.
Lemma rsum_0 n f : (forall i, (i < n)%nat -> f i = 0) -> rsum n f = 0.
Proof. induction n as [|n IH]; intro H; [reflexivity|]. cbn [rsum]. rewrite IH by (intros; apply H; lia). rewrite H by lia. ring. Qed.
Lemma rsum_S_first n f : rsum (S n) f = f 0%nat + rsum n (fun i => f (S i)).
Proof. induction n as [|n IH]; [cbn; ring|]. cbn [rsum] in *. rewrite IH. ring. Qed.
Lemma rsum_split n k f : rsum (n + k) f = rsum n f + rsum k (fun i => f (n + i)%nat).
Proof. induction k as [|k IH]; [rewrite Nat.add_0_r; cbn; ring|]. rewrite Nat.add_succ_r. cbn [rsum]. rewrite IH. ring. Qed.
Lemma lsum_ext {A} (f g : A -> R) l : (forall a, In a l -> f a = g a) -> lsum f l = lsum g l.
Proof. induction l as [|a l IH]; intro H; [reflexivity|]. cbn. rewrite H by (now left). rewrite IH; [reflexivity|]. intros; apply H; now right. Qed.
Lemma rsum_lsum {A} n (g : A -> nat -> R) l : rsum n (fun d => lsum (fun a => g a d) l) = lsum (fun a => rsum n (g a)) l.
Proof.
  induction l as [|a l IH]; [apply rsum_0; reflexivity|]. cbn. rewrite rsum_add, IH. reflexivity.
Qed.
Lemma lsum_scale {A} k (f : A -> R) l : lsum (fun a => k * f a) l = k * lsum f l.
Proof. induction l as [|a l IH]; cbn; [ring|rewrite IH; ring]. Qed.

(* chains of lags *)
Definition lay (chains : list (chars * nat)) : list (chars * nat) := flat_map lags_of chains.
Fixpoint off (chains : list (chars * nat)) (a : nat) : nat :=
  match a, chains with S a', (_, d) :: rest => (d + off rest a')%nat | _, _ => 0%nat end.
Definition total (chains : list (chars * nat)) : nat := fold_right Nat.add 0%nat (map snd chains).
Lemma lay_length chains : length (lay chains) = total chains.
Proof. unfold lay, total. induction chains as [|[v d] ch IH]; [reflexivity|]. cbn. rewrite app_length, IH. unfold lags_of. cbn. now rewrite map_length, seq_length. Qed.
Lemma lags_nth v d r : nth_error (lags_of (v, d)) r = if Nat.ltb r d then Some (v, S r) else None.
Proof.
  unfold lags_of. cbn [fst snd]. destruct (Nat.ltb_spec r d) as [H|H].
  - rewrite nth_error_map. rewrite (nth_error_nth' _ 0%nat) by (rewrite seq_length; exact H). rewrite seq_nth by exact H. reflexivity.
  - apply nth_error_None. now rewrite map_length, seq_length.
Qed.
Lemma lay_nth chains r v j : nth_error (lay chains) r = Some (v, j) ->
  exists a d, nth_error chains a = Some (v, d) /\ (1 <= j <= d)%nat /\ r = (off chains a + (j - 1))%nat.
Proof.
  revert r. induction chains as [|[w d] ch IH]; intros r H; [destruct r; discriminate|]. unfold lay in H. cbn [flat_map] in H.
  destruct (lt_dec r d) as [Hl|Hl].
  - rewrite nth_error_app1 in H by (unfold lags_of; rewrite map_length, seq_length; exact Hl). rewrite lags_nth in H. destruct (Nat.ltb_spec r d); [|lia]. injection H as <- <-.
    exists 0%nat, d. split; [reflexivity|]. cbn. lia.
  - rewrite nth_error_app2 in H by (unfold lags_of; rewrite map_length, seq_length; cbn; lia). unfold lags_of in H at 2. rewrite map_length, seq_length in H. cbn [snd] in H.
    destruct (IH _ H) as (a & d' & H1 & H2 & H3). exists (S a), d'. split; [exact H1|]. split; [exact H2|]. cbn. lia.
Qed.
Lemma lay_at chains a v d k : nth_error chains a = Some (v, d) -> (k < d)%nat -> nth_error (lay chains) (off chains a + k) = Some (v, S k).
Proof.
  revert a. induction chains as [|[w e] ch IH]; intros [|a] H Hk; try discriminate; unfold lay; cbn [flat_map].
  - injection H as -> ->. cbn [off Nat.add]. rewrite nth_error_app1 by (unfold lags_of; rewrite map_length, seq_length; exact Hk). rewrite lags_nth. destruct (Nat.ltb_spec k d); [reflexivity|lia].
  - cbn [off]. assert (El : length (lags_of (w, e)) = e) by (unfold lags_of; now rewrite map_length, seq_length).
    rewrite nth_error_app2 by (rewrite El; lia). rewrite El. replace (e + off ch a + k - e)%nat with (off ch a + k)%nat by lia. now apply IH.
Qed.
Lemma off_lt chains a v d k : nth_error chains a = Some (v, d) -> (k < d)%nat -> (off chains a + k < total chains)%nat.
Proof. intros H Hk. rewrite <- lay_length. apply nth_error_Some. rewrite (lay_at _ _ _ _ _ H Hk). discriminate. Qed.

(* a matrix of zeros and ones, described by where the ones are *)
Definition ones_at (M : mat) (P : nat -> nat -> Prop) : Prop := forall r c, (P r c -> M r c = 1) /\ (~ P r c -> M r c = 0).
Lemma fold_ones {A} (fi fj : A -> nat) l : forall M a b, fold_left (fun M k => set_at M (fi k) (fj k) 1) l M a b =
  if existsb (fun k => Nat.eqb a (fi k) && Nat.eqb b (fj k))%bool l then 1 else M a b.
Proof.
  induction l as [|x l IH]; intros M a b; [reflexivity|]. cbn [fold_left existsb]. rewrite IH. unfold set_at at 1.
  destruct (existsb _ l); [now rewrite orb_true_r|]. rewrite orb_false_r. reflexivity.
Qed.
Lemma fold_ones_at {A} (fi fj : A -> nat) l M P : ones_at M P ->
  ones_at (fold_left (fun M k => set_at M (fi k) (fj k) 1) l M) (fun r c => P r c \/ exists k, In k l /\ r = fi k /\ c = fj k).
Proof.
  intros H r c. rewrite fold_ones. destruct (existsb _ l) eqn:E.
  - rewrite existsb_exists in E. destruct E as (k & Hk & E). apply andb_prop in E. destruct E as [E1 E2]. apply Nat.eqb_eq in E1, E2. split; [reflexivity|]. intro C. exfalso. apply C. right. eauto.
  - assert (Hno : ~ exists k, In k l /\ r = fi k /\ c = fj k).
    { intros (k & Hk & -> & ->). assert (existsb (fun k0 => (fi k =? fi k0)%nat && (fj k =? fj k0)%nat)%bool l = true) as C by (rewrite existsb_exists; exists k; now rewrite !Nat.eqb_refl). congruence. }
    destruct (H r c) as [H1 H2]. split; [intros [C|C]; [now apply H1|contradiction]|]. intro C. apply H2. tauto.
Qed.
Lemma zeros_ones : ones_at zeros (fun _ _ => False). Proof. split; [tauto|reflexivity]. Qed.
Lemma ones_ext M P Q : (forall r c, P r c <-> Q r c) -> ones_at M P -> ones_at M Q.
Proof. intros H HM r c. destruct (HM r c) as [H1 H2]. split; intro C; [apply H1, H, C|apply H2; rewrite H; exact C]. Qed.

(* rows of the lag block of a family of chains *)
Section Chains.
Variables (vars : list chars) (chains : list (chars * nat)) (F C : mat).
Hypothesis HF : ones_at F (fun r c => exists a v d, nth_error chains a = Some (v, d) /\ r = off chains a /\ index v vars = Ok c).
Hypothesis HC : forall r c, (r < total chains)%nat -> (c < total chains)%nat ->
  ((exists a v d k, nth_error chains a = Some (v, d) /\ (1 <= k < d)%nat /\ r = off chains a + k /\ r = S c)%nat -> C r c = 1) /\
  (~ (exists a v d k, nth_error chains a = Some (v, d) /\ (1 <= k < d)%nat /\ r = off chains a + k /\ r = S c)%nat -> C r c = 0).
Hypothesis Hpos : forall v d, In (v, d) chains -> (0 < d)%nat.
Lemma chain_first r v p : nth_error (lay chains) r = Some (v, 1%nat) -> index v vars = Ok p ->
  (forall j, F r j = if Nat.eqb j p then 1 else 0) /\ (forall j, (j < total chains)%nat -> C r j = 0).
Proof.
  intros Hr Hp. destruct (lay_nth _ _ _ _ Hr) as (a & d & Ha & Hd & Er). assert (Hlt : (r < total chains)%nat) by (rewrite <- lay_length; apply nth_error_Some; congruence). split.
  - intro j. destruct (HF r j) as [H1 H2]. destruct (Nat.eqb_spec j p) as [->|N].
    + apply H1. exists a, v, d. split; [exact Ha|]. split; [lia|exact Hp].
    + apply H2. intros (b & w & e & Hb & Eb & Ej). pose proof (Hpos w e (nth_error_In _ _ Hb)) as He. pose proof (lay_at _ _ _ _ 0 Hb He) as Hl. rewrite Nat.add_0_r in Hl. rewrite <- Eb, Hr in Hl. injection Hl as <-. congruence.
  - intros j Hj. apply (HC r j Hlt Hj). intros (b & w & e & k & Hb & Hk & Eb & Ej). pose proof (lay_at _ _ _ _ k Hb ltac:(lia)) as Hl. rewrite <- Eb, Hr in Hl. injection Hl as _ Hl. lia.
Qed.
Lemma chain_next r v j : nth_error (lay chains) r = Some (v, S (S j)) ->
  (forall c, F r c = 0) /\ (forall c, (c < total chains)%nat -> C r c = if Nat.eqb c (r - 1) then 1 else 0) /\ (0 < r)%nat /\ nth_error (lay chains) (r - 1) = Some (v, S j).
Proof.
  intros Hr. destruct (lay_nth _ _ _ _ Hr) as (a & d & Ha & Hd & Er). assert (Hlt : (r < total chains)%nat) by (rewrite <- lay_length; apply nth_error_Some; congruence). split; [|split; [|split; [lia|]]].
  - intro c. apply (HF r c). intros (b & w & e & Hb & Eb & Ej). pose proof (Hpos w e (nth_error_In _ _ Hb)) as He. pose proof (lay_at _ _ _ _ 0 Hb He) as Hl. rewrite Nat.add_0_r in Hl. rewrite <- Eb, Hr in Hl. discriminate.
  - intros c Hc. destruct (HC r c Hlt Hc) as [H1 H2]. destruct (Nat.eqb_spec c (r - 1)) as [->|N].
    + apply H1. exists a, v, d, (S j). split; [exact Ha|]. split; [lia|]. split; lia.
    + apply H2. intros (b & w & e & k & Hb & Hk & Eb & Ec). lia.
  - replace (r - 1)%nat with (off chains a + j)%nat by lia. apply (lay_at _ _ _ d); [exact Ha|lia].
Qed.
End Chains.
