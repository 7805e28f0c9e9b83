(* The augmented transition: every added state copies its predecessor. *)
From Verif Require Import Common Sym_Model Sym_Spec SR_Model SR_Proofs Kal_Model Kal_Spec Kal_Proofs Kal_Config.
From Coq Require Import Reals Lra.
Local Open Scope R_scope.
Local Open Scope list_scope.

Definition same_depth (n : nat) (cv : list chars) : list (chars * nat) := map (fun v => (v, n)) cv.
Lemma off_same n cv a : (a <= length cv)%nat -> off (same_depth n cv) a = (a * n)%nat.
Proof. revert a. induction cv as [|v cv IH]; intros [|a] H; try reflexivity; [cbn in H; lia|]. cbn [same_depth map off]. change (map _ cv) with (same_depth n cv). rewrite IH by (cbn in H; lia). reflexivity. Qed.
Lemma total_same n cv : total (same_depth n cv) = (length cv * n)%nat.
Proof. unfold total, same_depth. induction cv as [|v cv IH]; [reflexivity|]. cbn in *. rewrite IH. reflexivity. Qed.
Lemma lay_same n cv : lay (same_depth n cv) = flat_map (fun v => lags_of (v, n)) cv.
Proof. unfold lay, same_depth. induction cv as [|v cv IH]; [reflexivity|]. cbn in *. now rewrite IH. Qed.
Lemma summed_cumulators c : summed_series c = cumulator_variables c.
Proof. unfold summed_series, cumulator_variables. f_equal. apply filter_ext. intros [v a]. cbn [fst snd]. unfold mem at 2. cbn [existsb cumulator_aggregations]. now rewrite orb_false_r. Qed.
Lemma starts_get depths o a v d : NoDup (map fst depths) -> nth_error depths a = Some (v, d) -> get v (lag_starts o depths) = Some (o + off depths a)%nat.
Proof.
  revert o a. induction depths as [|[w e] ds IH]; intros o a Hn H; [destruct a; discriminate|]. cbn in Hn. inversion Hn as [|? ? N1 N2]; subst. cbn [lag_starts get]. destruct a as [|a].
  - injection H as -> ->. rewrite chars_eqb_refl. cbn. f_equal. lia.
  - cbn in H. destruct (chars_eqb v w) eqn:E; [apply chars_eqb_eq in E; subst; exfalso; apply N1; apply nth_error_In in H; now apply (in_map fst) in H|].
    rewrite (IH (o + e)%nat a N2 H). cbn. f_equal. lia.
Qed.

Section T.
Variables (m : kmodel) (c : config).
Hypothesis Hw : wf m c.
Let k := length (k_vars m).
Let cv := cumulator_variables c.
Let n := n_lags c.
Lemma cum_In v : In v cv -> exists a, In (v, a) (c_agg c) /\ mem a cumulator_aggregations = true /\ get v (c_obs c) = None /\ get v (c_agg c) = Some a.
Proof.
  intro H. unfold cv, cumulator_variables in H. apply in_map_iff in H. destruct H as ([w a] & E & H). cbn in E. subst w. apply filter_In in H. destruct H as [H1 H2]. cbn [fst snd] in H2. apply andb_prop in H2. destruct H2 as [H2 H3].
  exists a. split; [exact H1|]. split; [exact H2|]. split; [apply get_None, mem_false; now apply negb_true_iff in H3|]. apply get_nodup; [apply (wf_agg m c Hw)|exact H1].
Qed.
Lemma n_pos v : In v cv -> (1 <= n)%nat.
Proof. intro H. destruct (cum_In v H) as (a & H1 & H2 & _). pose proof (wf_period m c Hw v a H1 H2). unfold n, n_lags. lia. Qed.
Lemma n_cum : n_cumulator_states c = total (same_depth n cv). Proof. rewrite total_same. reflexivity. Qed.
Lemma n_obs : n_obs_lag_states c = total (c_depths c). Proof. reflexivity. Qed.

Lemma loadings_ones idx : all_ok (orig_index m) cv = Ok idx ->
  ones_at (loadings n idx) (fun r q => exists a v d, nth_error (same_depth n cv) a = Some (v, d) /\ r = off (same_depth n cv) a /\ index v (k_vars m) = Ok q).
Proof.
  intro H. destruct (all_ok_nth _ _ _ H) as [L1 L2]. unfold loadings. eapply ones_ext; [|apply fold_ones_at, zeros_ones]. intros r q. cbn beta. split.
  - intros [[]|([a i] & Hin & E1 & E2)]. cbn [fst snd] in E1, E2. subst i. apply In_nth_error in Hin. destruct Hin as [t Ht].
    assert (Ht1 : nth_error (seq 0 (length idx)) t = Some a /\ nth_error idx t = Some q).
    { clear -Ht. revert t Ht. generalize (seq 0 (length idx)) as l1. induction l1 as [|x l1 IH] in idx |- *; intros [|t] Ht; try discriminate; destruct idx as [|y idx]; try discriminate; cbn in Ht.
      - injection Ht as <- <-. auto.
      - cbn; now apply IH. }
    destruct Ht1 as [Ht1 Ht2]. assert (Hlt : (t < length idx)%nat) by (apply nth_error_Some; congruence). rewrite (nth_error_nth' _ 0%nat) in Ht1 by (now rewrite seq_length). rewrite seq_nth in Ht1 by exact Hlt. injection Ht1 as <-. cbn in E1.
    destruct (nth_error cv t) as [v|] eqn:Ev; [|apply nth_error_None in Ev; lia]. destruct (L2 t v Ev) as (b & Hb & Hb2). rewrite Ht2 in Hb2. injection Hb2 as <-.
    exists t, v, n. split; [unfold same_depth; now rewrite nth_error_map, Ev|]. split; [rewrite off_same by lia; lia|exact Hb].
  - intros (a & v & d & Ha & Er & Hi). unfold same_depth in Ha. rewrite nth_error_map in Ha. destruct (nth_error cv a) as [w|] eqn:Ev; [|discriminate]. cbn in Ha. injection Ha as -> <-.
    destruct (L2 a v Ev) as (b & Hb & Hb2). unfold orig_index in Hb. rewrite Hi in Hb. injection Hb as <-. assert (Hlt : (a < length idx)%nat) by (apply nth_error_Some; congruence).
    right. exists (a, q). split; [|cbn; split; [|reflexivity]; rewrite Er, off_same by lia; lia].
    apply (nth_error_In _ a). assert (Hs : nth_error (seq 0 (length idx)) a = Some a) by (rewrite (nth_error_nth' _ 0%nat) by (now rewrite seq_length); rewrite seq_nth by exact Hlt; reflexivity).
    clear -Hs Hb2. revert Hs Hb2. generalize (seq 0 (length idx)) as l1. intros l1 Hs Hb2. assert (G : forall t, nth_error l1 t = Some a -> nth_error idx t = Some q -> nth_error (combine l1 idx) t = Some (a, q)).
    { clear. induction l1 as [|x l1 IH] in idx |- *; intros [|t] H1 H2; try discriminate; destruct idx as [|y idx]; try discriminate; cbn in *; [congruence|now apply IH]. }
    now apply G.
Qed.
Lemma kron_ones r q : (0 < n)%nat -> (r < length cv * n)%nat -> (q < length cv * n)%nat ->
  ((exists a v d t, nth_error (same_depth n cv) a = Some (v, d) /\ (1 <= t < d)%nat /\ r = off (same_depth n cv) a + t /\ r = S q)%nat -> kron_eye n (shift n) r q = 1) /\
  (~ (exists a v d t, nth_error (same_depth n cv) a = Some (v, d) /\ (1 <= t < d)%nat /\ r = off (same_depth n cv) a + t /\ r = S q)%nat -> kron_eye n (shift n) r q = 0).
Proof.
  intros Hn Hr Hq. unfold kron_eye, shift. pose proof (Nat.div_mod r n ltac:(lia)) as Dr. pose proof (Nat.div_mod q n ltac:(lia)) as Dq. pose proof (Nat.mod_upper_bound r n ltac:(lia)) as Mr. pose proof (Nat.mod_upper_bound q n ltac:(lia)) as Mq. split.
  - intros (a & v & d & t & Ha & Ht & Er & Eq). unfold same_depth in Ha. rewrite nth_error_map in Ha. destruct (nth_error cv a) as [w|] eqn:Ev; [|discriminate]. cbn in Ha. injection Ha as -> <-.
    assert (Hlt : (a < length cv)%nat) by (apply nth_error_Some; congruence). rewrite off_same in Er by lia.
    assert (E1 : (r / n = a)%nat) by (rewrite Er, Nat.mul_comm, Nat.add_comm, Nat.mul_comm, Nat.div_add by lia; rewrite Nat.div_small by lia; reflexivity).
    assert (E2 : (r mod n = t)%nat) by (rewrite Er, Nat.add_comm, Nat.mod_add by lia; apply Nat.mod_small; lia).
    assert (Eq' : q = (t - 1 + a * n)%nat) by lia.
    assert (E3 : (q / n = a)%nat) by (rewrite Eq', Nat.div_add by lia; rewrite Nat.div_small by lia; reflexivity).
    assert (E4 : (q mod n = t - 1)%nat) by (rewrite Eq', Nat.mod_add by lia; apply Nat.mod_small; lia).
    rewrite E1, E2, E3, E4, Nat.eqb_refl. destruct (Nat.ltb_spec 1 n); [|lia]. destruct (Nat.leb_spec 1 t); [|lia]. destruct (Nat.ltb_spec t n); [|lia]. destruct (Nat.eqb_spec t (S (t - 1))); [|lia]. cbn. ring.
  - intro Hno. destruct (Nat.eqb_spec (r / n) (q / n)) as [E|E]; [|ring]. destruct (Nat.leb_spec 1 (r mod n)) as [H1|H1]; [|rewrite andb_false_r; cbn; ring].
    destruct (Nat.eqb_spec (r mod n) (S (q mod n))) as [H2|H2]; [|rewrite andb_false_r; ring]. exfalso. apply Hno. assert (Ha : (r / n < length cv)%nat) by (apply Nat.div_lt_upper_bound; lia).
    destruct (nth_error cv (r / n)) as [v|] eqn:Ev; [|apply nth_error_None in Ev; lia]. exists (r / n)%nat, v, n, (r mod n)%nat. split; [unfold same_depth; now rewrite nth_error_map, Ev|]. split; [lia|]. rewrite off_same by lia. split; [lia|]. rewrite <- E in Dq. lia.
Qed.
Definition copies (N : nat) (M : mat) (names : list (chars * nat)) (i : nat) : Prop :=
  forall v j, nth_error names i = Some (v, S j) -> exists p, (p < N)%nat /\ nth_error names p = Some (v, j) /\ forall q, (q < N)%nat -> M i q = if Nat.eqb q p then 1 else 0.
Lemma meaning_eq : meaning m c = map (fun v => (v, 0%nat)) (k_vars m) ++ lay (same_depth n cv) ++ lay (c_depths c).
Proof. unfold meaning. rewrite summed_cumulators, lay_same. reflexivity. Qed.
Lemma meaning_length : length (meaning m c) = k_states m c.
Proof. rewrite meaning_eq, !app_length, map_length, !lay_length, <- n_cum, <- n_obs. unfold k_states. lia. Qed.
Lemma meaning_var i v : nth_error (k_vars m) i = Some v -> nth_error (meaning m c) i = Some (v, 0%nat).
Proof. intro H. rewrite meaning_eq, nth_error_app1 by (rewrite map_length; apply nth_error_Some; congruence). now rewrite nth_error_map, H. Qed.
Lemma meaning_cum r : (r < total (same_depth n cv))%nat -> nth_error (meaning m c) (k + r) = nth_error (lay (same_depth n cv)) r.
Proof. intro H. rewrite meaning_eq, nth_error_app2 by (rewrite map_length; unfold k; lia). rewrite map_length. replace (k + r - length (k_vars m))%nat with r by (unfold k; lia). rewrite nth_error_app1 by (rewrite lay_length; exact H). reflexivity. Qed.
Lemma meaning_lag r : nth_error (meaning m c) (k + total (same_depth n cv) + r) = nth_error (lay (c_depths c)) r.
Proof. rewrite meaning_eq, nth_error_app2 by (rewrite map_length; unfold k; lia). rewrite map_length. rewrite nth_error_app2 by (rewrite lay_length; unfold k; lia). rewrite lay_length. f_equal. unfold k. lia. Qed.

(* after the first augmentation *)
Lemma augment_rows T T1 : augment_transition m c T = Ok T1 -> let N1 := (k + total (same_depth n cv))%nat in
  (forall i, (i < k)%nat -> (forall j, (j < k)%nat -> T1 i j = T i j) /\ (forall j, (k <= j < N1)%nat -> T1 i j = 0)) /\
  (forall i, (k <= i < N1)%nat -> copies N1 T1 (meaning m c) i).
Proof.
  intros H N1.
  assert (Hc : (cv = [] /\ T1 = T) \/ (exists v0, In v0 cv) /\ exists idx, all_ok (orig_index m) cv = Ok idx /\ T1 = block k T (loadings n idx) (kron_eye n (shift n))).
  { clear N1. unfold augment_transition in H. unfold cv, n. destruct (cumulator_variables c) as [|v0 l]; [left; split; [reflexivity|congruence]|right]. split; [exists v0; now left|].
    destruct (all_ok (orig_index m) (v0 :: l)) as [idx|] eqn:Ei; [|discriminate]. cbn [bind] in H. injection H as <-. exists idx. split; reflexivity. }
  destruct Hc as [[Ecv ->]|[[v0 Hv0] (idx & Ei & ->)]].
  { assert (EN : N1 = k) by (unfold N1; rewrite Ecv; unfold total; cbn; lia). rewrite EN. split; [intros i Hi; split; [reflexivity|intros j Hj; exfalso; lia]|intros i Hi; exfalso; lia]. }
  assert (Hn : (1 <= n)%nat) by (apply (n_pos v0), Hv0).
  assert (HF := loadings_ones idx Ei). split.
  - intros i Hi. unfold block. destruct (Nat.ltb_spec i k); [|lia]. split; intros j Hj; destruct (Nat.ltb_spec j k); try lia; reflexivity.
  - intros i Hi v j Hv. set (r := (i - k)%nat). assert (Ei' : i = (k + r)%nat) by (unfold r; lia). assert (Hr : (r < total (same_depth n cv))%nat) by (unfold N1 in Hi; lia).
    rewrite Ei', meaning_cum in Hv by exact Hr.
    assert (HC : forall r0 c0, (r0 < total (same_depth n cv))%nat -> (c0 < total (same_depth n cv))%nat -> _) by (intros r0 c0 H1 H2; rewrite total_same in H1, H2; exact (kron_ones r0 c0 Hn H1 H2)).
    assert (Hpos : forall w d, In (w, d) (same_depth n cv) -> (0 < d)%nat) by (intros w d Hin; unfold same_depth in Hin; apply in_map_iff in Hin; destruct Hin as (? & E & _); injection E as _ <-; lia).
    destruct j as [|j].
    + destruct (lay_nth _ _ _ _ Hv) as (a & d & Ha & _). assert (Hcv : In v cv) by (apply nth_error_In in Ha; unfold same_depth in Ha; apply in_map_iff in Ha; destruct Ha as (w & E & Hin); injection E as -> _; exact Hin).
      apply In_nth_error in Hcv. destruct Hcv as [ia Hia]. destruct (proj2 (all_ok_nth _ _ _ Ei) ia v Hia) as (p & Hp & _). unfold orig_index in Hp.
      destruct (chain_first (k_vars m) _ _ _ HF HC Hpos r v p Hv Hp) as [R1 R2]. pose proof (index_lt _ _ _ Hp) as Lp. exists p. split; [unfold N1, k; lia|]. split; [apply meaning_var, index_ok, Hp|].
      intros q Hq. unfold block. destruct (Nat.ltb_spec i k); [lia|]. fold r. destruct (Nat.ltb_spec q k); [apply R1|]. rewrite R2 by (unfold N1 in Hq; lia). destruct (Nat.eqb_spec q p); [unfold k in *; lia|reflexivity].
    + destruct (chain_next (k_vars m) _ _ _ HF HC Hpos r v j Hv) as (R1 & R2 & R3 & R4). exists (k + (r - 1))%nat. split; [unfold N1; lia|]. split; [rewrite meaning_cum by lia; exact R4|].
      intros q Hq. unfold block. destruct (Nat.ltb_spec i k); [lia|]. fold r. destruct (Nat.ltb_spec q k); [rewrite R1; destruct (Nat.eqb_spec q (k + (r - 1))); [lia|reflexivity]|].
      rewrite R2 by (unfold N1 in Hq; lia). destruct (Nat.eqb_spec (q - k) (r - 1)); destruct (Nat.eqb_spec q (k + (r - 1))); try lia; reflexivity.
Qed.
(* the second *)
Lemma loop_chain l : forall F C F' C' P Q, loop (lag_chain m c) l (F, C) = Ok (F', C') -> ones_at F P -> ones_at C Q ->
  ones_at F' (fun r q => P r q \/ exists v d s, In (v, d) l /\ start_of c v = Ok s /\ r = (s - k_prev m c)%nat /\ index v (k_vars m) = Ok q) /\
  ones_at C' (fun r q => Q r q \/ exists v d s t, In (v, d) l /\ start_of c v = Ok s /\ (1 <= t < d)%nat /\ r = (s - k_prev m c + t)%nat /\ q = (s - k_prev m c + t - 1)%nat) /\
  forall v d, In (v, d) l -> exists q, index v (k_vars m) = Ok q.
Proof.
  induction l as [|[v d] l IH]; intros F C F' C' P Q H HP HQ; cbn [loop] in H.
  - injection H as <- <-. split; [|split; [|intros ? ? []]].
    + eapply ones_ext; [|exact HP]. intros r q. split; [tauto|]. intros [G|(w & e & s & [] & _)]. exact G.
    + eapply ones_ext; [|exact HQ]. intros r q. split; [tauto|]. intros [G|(w & e & s & t & [] & _)]. exact G.
  - unfold lag_chain at 1 in H. cbn [fst snd] in H. destruct (orig_index m v) as [oi|] eqn:Eo; [|discriminate]. cbn [bind] in H. destruct (start_of c v) as [s|] eqn:Es; [|discriminate]. cbn [bind] in H.
    set (b := (s - k_prev m c)%nat) in H.
    assert (HP1 : ones_at (set_at F b oi 1) (fun r q => P r q \/ exists x, In x [tt] /\ r = b /\ q = oi)) by (exact (fold_ones_at (fun _ : unit => b) (fun _ => oi) [tt] F P HP)).
    pose proof (fold_ones_at (fun t => b + t)%nat (fun t => b + t - 1)%nat (seq 1 (d - 1)) C Q HQ) as HQ1.
    destruct (IH _ _ _ _ _ _ H HP1 HQ1) as (I1 & I2 & I3). clear IH. split; [|split].
    + eapply ones_ext; [|exact I1]. intros r q. cbn beta. split.
      * intros [[G|(x & _ & G1 & G2)]|(w & e & s' & G)]; [now left| |right; exists w, e, s'; destruct G as (G & G'); split; [now right|exact G']].
        right. exists v, d, s. split; [now left|]. split; [exact Es|]. split; [exact G1|]. rewrite G2. exact Eo.
      * intros [G|(w & e & s' & [G|G] & G1 & G2 & G3)]; [now left; left| |right; exists w, e, s'; auto].
        injection G as <- <-. left. right. exists tt. split; [now left|]. rewrite Es in G1. injection G1 as <-. split; [exact G2|]. unfold orig_index in Eo. congruence.
    + eapply ones_ext; [|exact I2]. intros r q. cbn beta. split.
      * intros [[G|(t & G0 & G1 & G2)]|(w & e & s' & t & G)]; [now left| |right; exists w, e, s', t; destruct G as (G & G'); split; [now right|exact G']].
        apply in_seq in G0. right. exists v, d, s, t. split; [now left|]. split; [exact Es|]. split; [lia|]. split; assumption.
      * intros [G|(w & e & s' & t & [G|G] & G1 & G2 & G3)]; [now left; left| |right; exists w, e, s', t; auto].
        injection G as <- <-. left. right. exists t. rewrite Es in G1. injection G1 as <-. split; [apply in_seq; lia|exact G3].
    + intros w e [G|G]; [injection G as <- <-; exists oi; exact Eo|now apply (I3 w e)].
Qed.
Lemma start_spec a v d : nth_error (c_depths c) a = Some (v, d) -> start_of c v = Ok (k_prev m c + off (c_depths c) a)%nat.
Proof.
  intro H. unfold start_of. rewrite (wf_starts m c Hw), (starts_get _ _ _ _ _ (wf_depths m c Hw) H). reflexivity.
Qed.
Lemma append_rows T1 T2 : append_obs_lags m c T1 = Ok T2 -> let N1 := (k + total (same_depth n cv))%nat in let N := (N1 + total (c_depths c))%nat in
  (forall i, (i < N1)%nat -> (forall j, (j < N1)%nat -> T2 i j = T1 i j) /\ (forall j, (N1 <= j < N)%nat -> T2 i j = 0)) /\
  (forall i, (N1 <= i < N)%nat -> copies N T2 (meaning m c) i).
Proof.
  intros H N1 N. unfold append_obs_lags in H. destruct (Nat.eqb_spec (n_obs_lag_states c) 0) as [E0|N0].
  { injection H as <-. rewrite n_obs in E0. split; [intros i Hi; split; [reflexivity|intros; unfold N in *; lia]|intros; unfold N in *; lia]. }
  destruct (loop (lag_chain m c) (c_depths c) (zeros, zeros)) as [[F C]|] eqn:El; [|discriminate]. cbn [bind fst snd] in H. injection H as <-.
  destruct (loop_chain _ _ _ _ _ _ _ El zeros_ones zeros_ones) as (HF0 & HC0 & Hidx).
  assert (Ek : k_prev m c = N1) by (unfold k_prev, k_orig, N1; rewrite n_cum; reflexivity). rewrite Ek.
  assert (HF : ones_at F (fun r q => exists a v d, nth_error (c_depths c) a = Some (v, d) /\ r = off (c_depths c) a /\ index v (k_vars m) = Ok q)).
  { eapply ones_ext; [|exact HF0]. intros r q. cbn beta. split.
    - intros [[]|(v & d & s & G1 & G2 & G3 & G4)]. apply In_nth_error in G1. destruct G1 as [a Ha]. exists a, v, d. split; [exact Ha|]. rewrite (start_spec a v d Ha) in G2. injection G2 as <-. split; [lia|exact G4].
    - intros (a & v & d & G1 & G2 & G3). right. exists v, d, (k_prev m c + off (c_depths c) a)%nat. split; [eapply nth_error_In; exact G1|]. split; [now apply (start_spec a v d)|]. split; [lia|exact G3]. }
  assert (HC : forall r q, (r < total (c_depths c))%nat -> (q < total (c_depths c))%nat ->
    ((exists a v d t, nth_error (c_depths c) a = Some (v, d) /\ (1 <= t < d)%nat /\ r = off (c_depths c) a + t /\ r = S q)%nat -> C r q = 1) /\
    (~ (exists a v d t, nth_error (c_depths c) a = Some (v, d) /\ (1 <= t < d)%nat /\ r = off (c_depths c) a + t /\ r = S q)%nat -> C r q = 0)).
  { intros r q _ _. destruct (HC0 r q) as [H1 H2]. split.
    - intros (a & v & d & t & G1 & G2 & G3 & G4). apply H1. right. exists v, d, (k_prev m c + off (c_depths c) a)%nat, t. split; [eapply nth_error_In; exact G1|]. split; [now apply (start_spec a v d)|]. split; [exact G2|]. lia.
    - intro Hno. apply H2. intros [[]|(v & d & s & t & G1 & G2 & G3 & G4 & G5)]. apply Hno. apply In_nth_error in G1. destruct G1 as [a Ha]. rewrite (start_spec a v d Ha) in G2. injection G2 as <-. exists a, v, d, t. split; [exact Ha|]. split; [exact G3|]. lia. }
  split.
  - intros i Hi. unfold block. destruct (Nat.ltb_spec i N1); [|lia]. split; intros j Hj; destruct (Nat.ltb_spec j N1); try lia; reflexivity.
  - intros i Hi v j Hv. set (r := (i - N1)%nat). assert (Ei' : i = (N1 + r)%nat) by (unfold r; lia). rewrite Ei' in Hv. unfold N1 in Hv. rewrite meaning_lag in Hv.
    assert (Hr : (r < total (c_depths c))%nat) by (rewrite <- lay_length; apply nth_error_Some; congruence).
    destruct j as [|j].
    + destruct (lay_nth _ _ _ _ Hv) as (a & d & Ha & _). destruct (Hidx v d (nth_error_In _ _ Ha)) as [p Hp].
      destruct (chain_first (k_vars m) _ _ _ HF HC (wf_pos m c Hw) r v p Hv Hp) as [R1 R2]. pose proof (index_lt _ _ _ Hp) as Lp. exists p. split; [unfold N, N1, k; lia|]. split; [apply meaning_var, index_ok, Hp|].
      intros q Hq. unfold block. destruct (Nat.ltb_spec i N1); [lia|]. fold r. destruct (Nat.ltb_spec q N1); [apply R1|]. rewrite R2 by (unfold N in Hq; lia). destruct (Nat.eqb_spec q p); [unfold N1, k in *; lia|reflexivity].
    + destruct (chain_next (k_vars m) _ _ _ HF HC (wf_pos m c Hw) r v j Hv) as (R1 & R2 & R3 & R4). exists (N1 + (r - 1))%nat. split; [unfold N; lia|]. split; [unfold N1; rewrite meaning_lag; exact R4|].
      intros q Hq. unfold block. destruct (Nat.ltb_spec i N1); [lia|]. fold r. destruct (Nat.ltb_spec q N1); [rewrite R1; destruct (Nat.eqb_spec q (N1 + (r - 1))); [lia|reflexivity]|].
      rewrite R2 by (unfold N in Hq; lia). destruct (Nat.eqb_spec (q - N1) (r - 1)); destruct (Nat.eqb_spec q (N1 + (r - 1))); try lia; reflexivity.
Qed.
Lemma transition_rows T T1 T2 : augment_transition m c T = Ok T1 -> append_obs_lags m c T1 = Ok T2 -> let N := k_states m c in
  (forall i, (i < k)%nat -> (forall j, (j < k)%nat -> T2 i j = T i j) /\ (forall j, (k <= j < N)%nat -> T2 i j = 0)) /\
  (forall i, (k <= i < N)%nat -> copies N T2 (meaning m c) i).
Proof.
  intros H1 H2 N. destruct (augment_rows _ _ H1) as [A1 A2]. destruct (append_rows _ _ H2) as [B1 B2]. cbv zeta in A1, A2, B1, B2.
  assert (EN : N = (k + total (same_depth n cv) + total (c_depths c))%nat) by (unfold N, k_states; rewrite n_cum, n_obs; reflexivity). split.
  - intros i Hi. destruct (A1 i Hi) as [P1 P2]. destruct (B1 i ltac:(lia)) as [Q1 Q2]. split; intros j Hj; [rewrite Q1 by lia; now apply P1|].
    destruct (lt_dec j (k + total (same_depth n cv))); [rewrite Q1 by lia; apply P2; lia|apply Q2; lia].
  - intros i Hi. destruct (lt_dec i (k + total (same_depth n cv))) as [Hl|Hl].
    + intros v j Hv. destruct (A2 i ltac:(lia) v j Hv) as (p & Hp1 & Hp2 & Hp3). destruct (B1 i Hl) as [Q1 Q2]. exists p. split; [lia|]. split; [exact Hp2|]. intros q Hq.
      destruct (lt_dec q (k + total (same_depth n cv))); [rewrite Q1 by lia; now apply Hp3|]. rewrite Q2 by lia. destruct (Nat.eqb_spec q p); [lia|reflexivity].
    + rewrite EN. apply B2. lia.
Qed.
Lemma selection_rows R0 i j : (i < k_states m c)%nat -> (i < k)%nat /\ augment_selection m c R0 i j = R0 i j \/ (k <= i)%nat /\ augment_selection m c R0 i j = 0.
Proof.
  intro Hi. unfold augment_selection. destruct (Nat.eqb_spec (n_cumulator_states c + n_obs_lag_states c) 0) as [E|N].
  - left. split; [unfold k_states, k in *; lia|reflexivity].
  - unfold k_orig. fold k. destruct (Nat.ltb_spec i k); [left|right]; split; auto.
Qed.

(* along a path *)
Lemma path_lags T R0 q T1 T2 s e : augment_transition m c T = Ok T1 -> append_obs_lags m c T1 = Ok T2 ->
  follows (k_states m c) q T2 (augment_selection m c R0) s e ->
  follows k q T R0 s e /\
  forall j i v p t, nth_error (meaning m c) i = Some (v, j) -> index v (k_vars m) = Ok p -> (j <= t)%nat -> s t i = s (t - j)%nat p.
Proof.
  intros H1 H2 Hs. destruct (transition_rows _ _ _ H1 H2) as [HA HB]. set (N := k_states m c) in *. assert (HkN : (k <= N)%nat) by (unfold N, k_states, k; lia). split.
  - intros t i Hi. rewrite (Hs t i ltac:(lia)). destruct (HA i Hi) as [P1 P2]. destruct (selection_rows R0 i 0 ltac:(fold N; lia)) as [[_ _]|[C _]]; [|lia].
    replace N with (k + (N - k))%nat by lia. rewrite rsum_split.
    rewrite (rsum_0 (N - k)) by (intros j Hj; rewrite P2 by lia; ring). rewrite Rplus_0_r. f_equal; apply rsum_ext; intros j Hj.
    + now rewrite P1.
    + destruct (selection_rows R0 i j ltac:(fold N; lia)) as [[_ ->]|[C _]]; [reflexivity|lia].
  - induction j as [|j IH]; intros i v p t Hi Hp Ht.
    + rewrite Nat.sub_0_r. f_equal. pose proof (index_ok _ _ _ Hp) as Hp'.
      assert (Hik : (i < k)%nat).
      { destruct (lt_dec i k) as [|C]; [assumption|exfalso]. rewrite meaning_eq in Hi. rewrite nth_error_app2 in Hi by (rewrite map_length; unfold k in C; lia).
        assert (Hl : forall ch r, nth_error (lay ch) r = Some (v, 0%nat) -> False) by (intros ch r Hr; destruct (lay_nth _ _ _ _ Hr) as (? & ? & _ & ? & _); lia).
        destruct (lt_dec (i - length (map (fun v1 => (v1, 0%nat)) (k_vars m))) (length (lay (same_depth n cv)))); [rewrite nth_error_app1 in Hi by assumption|rewrite nth_error_app2 in Hi by lia]; eapply Hl; exact Hi. }
      destruct (nth_error (k_vars m) i) as [w|] eqn:Ew; [|apply nth_error_None in Ew; unfold k in Hik; lia]. rewrite (meaning_var i w Ew) in Hi. injection Hi as ->.
      pose proof (index_nth v _ (wf_vars m c Hw) i Ew) as Hq. congruence.
    + destruct t as [|t]; [lia|]. assert (HiN : (i < N)%nat) by (unfold N; rewrite <- meaning_length; apply nth_error_Some; congruence).
      assert (Hki : (k <= i)%nat).
      { destruct (lt_dec i k) as [C|]; [|lia]. destruct (nth_error (k_vars m) i) as [w|] eqn:Ew; [|apply nth_error_None in Ew; unfold k in C; lia]. rewrite (meaning_var i w Ew) in Hi. discriminate. }
      destruct (HB i ltac:(lia) v j Hi) as (r & Hr1 & Hr2 & Hr3). rewrite (Hs t i HiN).
      rewrite (rsum_ext N _ (fun q0 => (if Nat.eqb q0 r then 1 else 0) * s t q0)) by (intros q0 Hq0; now rewrite Hr3). rewrite rsum_unit by exact Hr1.
      rewrite (rsum_0 q) by (intros j0 _; destruct (selection_rows R0 i j0 HiN) as [[C _]|[_ ->]]; [lia|ring]).
      rewrite (IH r v p t Hr2 Hp ltac:(lia)). cbn [Nat.sub]. ring.
Qed.
End T.
