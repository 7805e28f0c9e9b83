(* The observation equation of the state-space form. *)
From Verif Require Import Common Sym_Model Sym_Spec SR_Model SR_Proofs Kal_Model Kal_Spec Kal_Proofs Kal_Config Kal_Trans.
From Coq Require Import Reals Lra.
Local Open Scope R_scope.
Local Open Scope list_scope.

Definition row_dot (N : nat) (M : mat) (i : nat) (s : vec) : R := rsum N (fun j => M i j * s j).
Lemma set_other M i j x a b : a <> i -> set_at M i j x a b = M a b.
Proof. intro H. unfold set_at. destruct (Nat.eqb_spec a i); [contradiction|reflexivity]. Qed.
Lemma inc_other M i j x a b : a <> i -> inc_at M i j x a b = M a b.
Proof. intro H. unfold inc_at. destruct (Nat.eqb_spec a i); [contradiction|reflexivity]. Qed.
Lemma dot_inc N M i j x s : (j < N)%nat -> row_dot N (inc_at M i j x) i s = row_dot N M i s + x * s j.
Proof.
  intro H. unfold row_dot. rewrite <- (rsum_unit N j s H). rewrite <- rsum_scale, <- rsum_add. apply rsum_ext. intros b _. unfold inc_at. rewrite Nat.eqb_refl. cbn. destruct (Nat.eqb b j); ring.
Qed.
Lemma dot_set N M i j x s : (j < N)%nat -> M i j = 0 -> row_dot N (set_at M i j x) i s = row_dot N M i s + x * s j.
Proof.
  intros H H0. rewrite <- dot_inc by exact H. unfold row_dot. apply rsum_ext. intros b _. unfold set_at, inc_at. rewrite Nat.eqb_refl. cbn. destruct (Nat.eqb_spec b j) as [->|]; [rewrite H0; ring|reflexivity].
Qed.
Lemma slots_other i start x a l : forall M b, a <> i -> fold_left (fun M k => set_at M i (start + k)%nat x) l M a b = M a b.
Proof. induction l as [|k l IH]; intros M b H; [reflexivity|]. cbn [fold_left]. rewrite IH by exact H. now apply set_other. Qed.
Lemma dot_slots N i start x s : forall n M, (start + n <= N)%nat -> (forall k, (k < n)%nat -> M i (start + k)%nat = 0) ->
  row_dot N (set_slots M i start n x) i s = row_dot N M i s + rsum n (fun k => x * s (start + k)%nat).
Proof.
  intros n M H H0. unfold set_slots. assert (G : forall k, (k <= n)%nat ->
    row_dot N (fold_left (fun M k => set_at M i (start + k)%nat x) (seq 0 k) M) i s = row_dot N M i s + rsum k (fun k => x * s (start + k)%nat) /\
    forall q, (k <= q < n)%nat -> fold_left (fun M k => set_at M i (start + k)%nat x) (seq 0 k) M i (start + q)%nat = 0).
  { induction k as [|k IH]; intro Hk; [cbn; split; [unfold row_dot; ring|intros; apply H0; lia]|]. destruct (IH ltac:(lia)) as [I1 I2]. rewrite seq_S, fold_left_app. cbn [fold_left Nat.add]. split.
    - rewrite dot_set by (try lia; apply I2; lia). rewrite I1. cbn [rsum]. ring.
    - intros q Hq. unfold set_at at 1. rewrite Nat.eqb_refl. destruct (Nat.eqb_spec (start + q) (start + k)); [lia|]. apply I2. lia. }
  apply (G n). lia.
Qed.
Lemma rows_loop (rowf : mat -> nat * chars -> result mat) :
  (forall M i name M', rowf M (i, name) = Ok M' -> forall r j, r <> i -> M' r j = M r j) -> forall l a M0 M1,
  loop rowf (combine (seq a (length l)) l) M0 = Ok M1 ->
  (forall r j, (r < a \/ a + length l <= r)%nat -> M1 r j = M0 r j) /\
  forall b name, nth_error l b = Some name -> exists Mb Mb', rowf Mb ((a + b)%nat, name) = Ok Mb' /\ (forall j, Mb (a + b)%nat j = M0 (a + b)%nat j) /\ (forall j, M1 (a + b)%nat j = Mb' (a + b)%nat j).
Proof.
  intro Hrow. induction l as [|x l IH]; intros a M0 M1 H; cbn in H.
  - injection H as <-. split; [reflexivity|]. intros [|]; discriminate.
  - destruct (rowf M0 (a, x)) as [M'|] eqn:Er; [|discriminate]. cbn [bind] in H. destruct (IH _ _ _ H) as [I1 I2]. split.
    + intros r j Hr. rewrite I1 by (cbn in Hr; lia). apply (Hrow _ _ _ _ Er). cbn in Hr. lia.
    + intros [|b] name Hb.
      * injection Hb as ->. rewrite Nat.add_0_r. exists M0, M'. split; [exact Er|]. split; [reflexivity|]. intro j. apply I1. lia.
      * destruct (I2 b name Hb) as (Mb & Mb' & B1 & B2 & B3). replace (a + S b)%nat with (S a + b)%nat by lia. exists Mb, Mb'. split; [exact B1|]. split; [|exact B3]. intro j. rewrite B2. apply (Hrow _ _ _ _ Er). lia.
Qed.
Lemma loop_inc N i x s (colf : nat -> result nat) l : forall M0 M1,
  loop (fun M d => col <- colf d ;; Ok (inc_at M i col x)) l M0 = Ok M1 ->
  (forall r j, r <> i -> M1 r j = M0 r j) /\
  ((forall d col, In d l -> colf d = Ok col -> (col < N)%nat) -> forall val, (forall d col, In d l -> colf d = Ok col -> s col = val d) -> row_dot N M1 i s = row_dot N M0 i s + lsum (fun d => x * val d) l).
Proof.
  induction l as [|d l IH]; intros M0 M1 H; cbn [loop] in H.
  - injection H as <-. split; [reflexivity|]. intros _ val _. cbn. ring.
  - destruct (colf d) as [col|] eqn:Ec; [|discriminate]. cbn [bind] in H. destruct (IH _ _ H) as [I1 I2]. split.
    + intros r j Hr. rewrite I1 by exact Hr. now apply inc_other.
    + intros Hl val Hv. rewrite (I2 (fun d0 col0 Hin => Hl d0 col0 (or_intror Hin)) val (fun d0 col0 Hin => Hv d0 col0 (or_intror Hin))).
      rewrite dot_inc by (apply (Hl d); [now left|exact Ec]). rewrite (Hv d col (or_introl eq_refl) Ec). cbn. ring.
Qed.
Lemma lsum_seq f n : lsum f (seq 0 n) = rsum n f.
Proof.
  assert (G : forall a, lsum f (seq a n) = rsum n (fun i => f (a + i)%nat)).
  { induction n as [|n IH]; intro a; [reflexivity|]. cbn [seq lsum]. rewrite IH, rsum_S_first, Nat.add_0_r. f_equal. apply rsum_ext. intros. f_equal. lia. }
  rewrite G. reflexivity.
Qed.

Section O.
Variables (m : kmodel) (W : world) (c : config) (draw : chars -> R).
Hypothesis Hw : wf m c.
Let k := length (k_vars m).
Let N := k_states m c.
Let n := n_lags c.
Lemma cumulates_iff name : cumulates (method_of c name) = true <-> is_sum (method_of c name) = true \/ is_mean (method_of c name) = true.
Proof. unfold cumulates, is_sum, is_mean. destruct (method_of c name) as [a|]; [|split; [discriminate|intros [|]; discriminate]]. unfold mem. cbn [existsb cumulator_aggregations]. rewrite orb_false_r, orb_true_iff. reflexivity. Qed.
Lemma sum_not_mean name : is_sum (method_of c name) = true -> is_mean (method_of c name) = false.
Proof. unfold is_sum, is_mean. destruct (method_of c name) as [a|]; [|discriminate]. intro H. apply chars_eqb_eq in H. subst a. reflexivity. Qed.
Lemma covers_eq name : covers c name = if cumulates (method_of c name) then Z.to_nat (c_period c) else 1%nat.
Proof. unfold covers, cumulates, method_of. destruct (get name (c_agg c)) as [a|]; [|reflexivity]. unfold mem. cbn [existsb cumulator_aggregations]. rewrite orb_false_r. reflexivity. Qed.
Lemma averaged_eq name : averaged c name = is_mean (method_of c name). Proof. reflexivity. Qed.
Lemma period_facts name : cumulates (method_of c name) = true -> (2 <= c_period c)%Z /\ Z.to_nat (c_period c) = S n /\ period c = INR (S n).
Proof.
  intro H. unfold cumulates, method_of in H. destruct (get name (c_agg c)) as [a|] eqn:E; [|discriminate]. pose proof (wf_period m c Hw name a (get_In _ _ _ E) H) as H2. split; [exact H2|].
  assert (E1 : Z.to_nat (c_period c) = S n) by (unfold n, n_lags; lia). split; [exact E1|]. unfold period. rewrite INR_IZR_INZ, <- E1, Z2Nat.id by lia. reflexivity.
Qed.
Lemma weight_facts name : let w := if is_mean (method_of c name) then 1 / period c else 1 in
  w = (if averaged c name then / INR (covers c name) else 1) /\
  (forall b, (if is_sum (method_of c name) then period c * b else b) = w * rsum (covers c name) (fun _ => b)) /\
  (if cumulates (method_of c name) then (if is_sum (method_of c name) then 1 else 1 / period c) else 1) = w.
Proof.
  cbv zeta. rewrite averaged_eq, covers_eq. assert (Hc : forall q b, rsum q (fun _ => b) = INR q * b) by (induction q as [|q IH]; intro b; [cbn; ring|rewrite S_INR; cbn [rsum]; rewrite IH; ring]).
  destruct (cumulates (method_of c name)) eqn:Ec.
  - destruct (period_facts name Ec) as (_ & E1 & E2). rewrite E1, E2. pose proof (lt_0_INR (S n) ltac:(lia)) as Hp. apply cumulates_iff in Ec. destruct Ec as [Es|Em].
    + rewrite (sum_not_mean _ Es), Es. split; [reflexivity|]. split; [|reflexivity]. intro b. rewrite Hc. ring.
    + rewrite Em. destruct (is_sum (method_of c name)) eqn:Es; [rewrite (sum_not_mean _ Es) in Em; discriminate|]. split; [unfold Rdiv; ring|]. split; [|reflexivity]. intro b. rewrite Hc. field. lra.
  - assert (Em : is_mean (method_of c name) = false). { destruct (is_mean (method_of c name)) eqn:E; [|reflexivity]. assert (cumulates (method_of c name) = true) by (apply cumulates_iff; now right). congruence. }
    assert (Es : is_sum (method_of c name) = false). { destruct (is_sum (method_of c name)) eqn:E; [|reflexivity]. assert (cumulates (method_of c name) = true) by (apply cumulates_iff; now left). congruence. }
    rewrite Em, Es. split; [reflexivity|]. split; [|reflexivity]. intro b. rewrite Hc. cbn. ring.
Qed.

(* rows *)
Definition selects (Z0 : mat) (i : nat) (name : chars) (Z1 : mat) : Prop :=
  exists oi, index name (k_vars m) = Ok oi /\ (forall r j, r <> i -> Z1 r j = Z0 r j) /\
  ((forall j, Z0 i j = 0) -> forall s val,
    (forall pos q, cumulates (method_of c name) = true -> index name (cumulator_variables c) = Ok pos -> (q < n)%nat -> s (k + pos * n + q)%nat = val q) ->
    row_dot N Z1 i s = (if is_mean (method_of c name) then 1 / period c else 1) * (s oi + (if cumulates (method_of c name) then rsum n val else 0))).
Lemma slot_range name pos : index name (cumulator_variables c) = Ok pos -> (k + pos * n + n <= N)%nat.
Proof. intro H. apply index_lt in H. unfold N, k_states, n_cumulator_states. fold n k. nia. Qed.
Lemma kN : (k <= N)%nat. Proof. unfold N, k_states, k. lia. Qed.
Lemma selects_intro Z0 i name oi w : index name (k_vars m) = Ok oi -> w = (if is_mean (method_of c name) then 1 / period c else 1) ->
  (cumulates (method_of c name) = false -> selects Z0 i name (set_at Z0 i oi w)) /\
  (forall pos, cumulates (method_of c name) = true -> index name (cumulator_variables c) = Ok pos -> selects Z0 i name (set_slots (set_at Z0 i oi w) i (k + pos * n) n w)).
Proof.
  intros Ho Ew. pose proof (index_lt _ _ _ Ho) as Lo. fold k in Lo. pose proof kN as HkN. split.
  - intro Hc. exists oi. split; [exact Ho|]. split; [intros r j Hr; now apply set_other|]. intros H0 s val _. rewrite Hc. rewrite dot_set by (try lia; apply H0). rewrite <- Ew.
    unfold row_dot at 1. rewrite rsum_0 by (intros; rewrite H0; ring). ring.
  - intros pos Hc Hp. exists oi. split; [exact Ho|]. pose proof (slot_range name pos Hp) as Hr. split.
    + intros r j Hne. unfold set_slots. rewrite slots_other by exact Hne. now apply set_other.
    + intros H0 s val Hv. rewrite Hc. rewrite dot_slots; [|lia|intros q Hq; unfold set_at; rewrite Nat.eqb_refl; destruct (Nat.eqb_spec (k + pos * n + q) oi); [lia|apply H0]].
      rewrite dot_set by (try lia; apply H0). unfold row_dot at 1. rewrite rsum_0 by (intros; rewrite H0; ring). rewrite (rsum_ext n _ (fun q => w * val q)) by (intros q Hq; rewrite (Hv pos q Hc Hp Hq); reflexivity).
      rewrite rsum_scale, <- Ew. ring.
Qed.
Lemma plain_selects Z0 i name Z1 : plain_row m c Z0 (i, name) = Ok Z1 -> selects Z0 i name Z1.
Proof.
  intro H. unfold plain_row, orig_index in H. destruct (index name (k_vars m)) as [oi|] eqn:Eo; [|discriminate]. cbn [bind] in H.
  destruct (selects_intro Z0 i name oi _ Eo eq_refl) as [S1 S2]. destruct (cumulates (method_of c name)) eqn:Ec.
  - destruct (index name (cumulator_variables c)) as [pos|] eqn:Ep; [|discriminate]. cbn [bind] in H. injection H as <-. apply (S2 pos eq_refl eq_refl).
  - injection H as <-. specialize (S1 eq_refl). assert (Em : is_mean (method_of c name) = false). { destruct (is_mean (method_of c name)) eqn:E; [|reflexivity]. assert (cumulates (method_of c name) = true) by (apply cumulates_iff; now right). congruence. }
    rewrite Em in S1. exact S1.
Qed.
Lemma symbolic_selects Z0 i name Z1 : get name (c_obs c) = None -> symbolic_row m W c draw Z0 (i, name) = Ok Z1 -> selects Z0 i name Z1.
Proof.
  intros Hn H. unfold symbolic_row, orig_index in H. rewrite Hn in H. destruct (index name (k_vars m)) as [oi|] eqn:Eo; [|discriminate]. cbn [bind] in H.
  destruct (selects_intro Z0 i name oi _ Eo eq_refl) as [S1 S2]. destruct (cumulates (method_of c name)) eqn:Ec.
  - destruct (index name (cumulator_variables c)) as [pos|] eqn:Ep; [|discriminate]. cbn [bind] in H. injection H as <-. apply (S2 pos eq_refl eq_refl).
  - injection H as <-. exact (S1 eq_refl).
Qed.
(* the column that holds v at a lag *)
Definition column (v : chars) (effective : Z) : result nat := if Z.eqb effective 0 then orig_index m v else lag_column c v effective.
Lemma equation_row Z0 i name e coeffs Z1 : get name (c_obs c) = Some (e, coeffs) -> symbolic_row m W c draw Z0 (i, name) = Ok Z1 ->
  (forall r j, r <> i -> Z1 r j = Z0 r j) /\
  ((forall j, Z0 i j = 0) -> forall s (val : chars -> Z -> R),
    (forall v lag q d col, In ((v, lag), q) coeffs -> (d < covers c name)%nat -> column v (lag - Z.of_nat d) = Ok col -> (col < N)%nat /\ s col = val v (lag - Z.of_nat d)%Z) ->
    row_dot N Z1 i s = (if is_mean (method_of c name) then 1 / period c else 1) *
      lsum (fun kc => value m W c draw (snd kc) * rsum (covers c name) (fun d => val (fst (fst kc)) (snd (fst kc) - Z.of_nat d)%Z)) coeffs).
Proof.
  intros Hg H. unfold symbolic_row in H. rewrite Hg in H. destruct (weight_facts name) as (_ & _ & Ew). cbv zeta in Ew. rewrite Ew in H. set (w := if is_mean (method_of c name) then 1 / period c else 1) in *. rewrite <- covers_eq in H.
  assert (G : forall l Z0 Z1, loop (add_coefficient m W c draw i w (covers c name)) l Z0 = Ok Z1 ->
    (forall r j, r <> i -> Z1 r j = Z0 r j) /\
    forall s (val : chars -> Z -> R), (forall v lag q d col, In ((v, lag), q) l -> (d < covers c name)%nat -> column v (lag - Z.of_nat d) = Ok col -> (col < N)%nat /\ s col = val v (lag - Z.of_nat d)%Z) ->
      row_dot N Z1 i s = row_dot N Z0 i s + w * lsum (fun kc => value m W c draw (snd kc) * rsum (covers c name) (fun d => val (fst (fst kc)) (snd (fst kc) - Z.of_nat d)%Z)) l).
  { induction l as [|[[v lag] q] l IH]; intros Y0 Y1 HY; cbn [loop] in HY.
    - injection HY as <-. split; [reflexivity|]. intros s val _. cbn. ring.
    - destruct (add_coefficient m W c draw i w (covers c name) Y0 (v, lag, q)) as [Y2|] eqn:Ea; [|discriminate]. cbn [bind] in HY. destruct (IH _ _ HY) as [I1 I2].
      unfold add_coefficient in Ea. split.
      + intros r j Hr. rewrite I1 by exact Hr. destruct (loop_inc N i (w * value m W c draw q) (fun _ => 0) (fun d => column v (lag - Z.of_nat d)) _ _ _ Ea) as [J1 _]. now apply J1.
      + intros s val Hv. rewrite (I2 s val) by (intros v0 lag0 q0 d col Hin; apply (Hv v0 lag0 q0 d col (or_intror Hin))).
        destruct (loop_inc N i (w * value m W c draw q) s (fun d => column v (lag - Z.of_nat d)) _ _ _ Ea) as [_ J2].
        rewrite (J2 (fun d col Hin Hcol => proj1 (Hv v lag q d col (or_introl eq_refl) (proj2 (proj1 (in_seq _ _ _) Hin)) Hcol)) (fun d => val v (lag - Z.of_nat d)%Z)
          (fun d col Hin Hcol => proj2 (Hv v lag q d col (or_introl eq_refl) (proj2 (proj1 (in_seq _ _ _) Hin)) Hcol))).
        rewrite lsum_seq, rsum_scale. cbn [lsum fst snd]. ring. }
  destruct (G _ _ _ H) as [G1 G2]. split; [exact G1|]. intros H0 s val Hv. rewrite (G2 s val Hv). unfold row_dot at 1. rewrite rsum_0 by (intros; rewrite H0; ring). ring.
Qed.
Lemma design_rows Z0 : design m W c draw = Ok Z0 -> forall i name, nth_error (c_observed c) i = Some name -> exists Zb Zb',
  (forall j, Zb i j = 0) /\ (forall j, Z0 i j = Zb' i j) /\
  ((get name (c_obs c) = None /\ selects Zb i name Zb') \/ (exists e coeffs, get name (c_obs c) = Some (e, coeffs) /\ symbolic_row m W c draw Zb (i, name) = Ok Zb')).
Proof.
  intros H i name Hi. unfold design, numbered in H. destruct (c_obs c) as [|o l] eqn:Eo.
  - assert (Hrow : forall M i0 n0 M', plain_row m c M (i0, n0) = Ok M' -> forall r j, r <> i0 -> M' r j = M r j) by (intros M i0 n0 M' HM; destruct (plain_selects _ _ _ _ HM) as (oi & _ & Hx & _); exact Hx).
    destruct (rows_loop _ Hrow _ _ _ _ H) as [_ R]. destruct (R i name Hi) as (Zb & Zb' & R1 & R2 & R3). cbn [Nat.add] in *. exists Zb, Zb'. split; [intro j; rewrite R2; reflexivity|]. split; [exact R3|]. left. split; [reflexivity|]. now apply plain_selects.
  - rewrite <- Eo in *. assert (Hrow : forall M i0 n0 M', symbolic_row m W c draw M (i0, n0) = Ok M' -> forall r j, r <> i0 -> M' r j = M r j).
    { intros M i0 n0 M' HM. destruct (get n0 (c_obs c)) as [[e coeffs]|] eqn:Eg; [apply (equation_row _ _ _ _ _ _ Eg HM)|]. destruct (symbolic_selects _ _ _ _ Eg HM) as (oi & _ & Hx & _). exact Hx. }
    destruct (rows_loop _ Hrow _ _ _ _ H) as [_ R]. destruct (R i name Hi) as (Zb & Zb' & R1 & R2 & R3). cbn [Nat.add] in *. exists Zb, Zb'. split; [intro j; rewrite R2; reflexivity|]. split; [exact R3|].
    destruct (get name (c_obs c)) as [[e coeffs]|] eqn:Eg; [right; eauto|left]. split; [reflexivity|]. now apply symbolic_selects.
Qed.
Definition base_value (name : chars) : R := match get name (c_obs c) with
  | Some (e, _) => value m W c draw e
  | None => if mem name (c_ssint c) then (if mem name (k_logged m) then s_fn (w_fun W) (str "log") 0 (w_ss W (inputs_at m c draw) name) else w_ss W (inputs_at m c draw) name) else 0 end.
Lemma intercept_spec d : obs_intercept m W c draw = Ok d -> length d = length (c_observed c) /\ forall i name, nth_error (c_observed c) i = Some name ->
  nth i d 0 = (if is_mean (method_of c name) then 1 / period c else 1) * rsum (covers c name) (fun _ => base_value name).
Proof.
  intro H. unfold obs_intercept in H.
  assert (Hn : all_ok (intercept_entry m W c draw) (c_observed c) = Ok d -> length d = length (c_observed c) /\ forall i name, nth_error (c_observed c) i = Some name -> nth i d 0 = (if is_sum (method_of c name) then period c * base_value name else base_value name)).
  { intro Ha. split; [apply (all_ok_nth _ _ _ Ha)|]. intros i name Hi. destruct (proj2 (all_ok_nth _ _ _ Ha) i name Hi) as (b & Hb & Hb2). rewrite (nth_error_nth _ _ _ Hb2). unfold intercept_entry in Hb. unfold base_value.
    destruct (get name (c_obs c)) as [[e coeffs]|]; [cbn in Hb; congruence|]. destruct (mem name (c_ssint c)).
    - destruct (mem name (k_has_ss m)); [|discriminate]. cbn [bind] in Hb. cbv zeta in Hb. cbn [bind] in Hb. injection Hb as <-. reflexivity.
    - cbn in Hb. injection Hb as <-. destruct (is_sum (method_of c name)); ring. }
  assert (Hall : length d = length (c_observed c) /\ forall i name, nth_error (c_observed c) i = Some name -> nth i d 0 = (if is_sum (method_of c name) then period c * base_value name else base_value name)).
  { destruct (c_ssint c) as [|x l] eqn:E1; [destruct (c_obs c) as [|o l2] eqn:E3|]; [|now apply Hn|now apply Hn].
    assert (Ed : d = map (fun _ => 0) (c_observed c)) by congruence. rewrite Ed. split; [now rewrite map_length|]. intros i name Hi. unfold base_value. rewrite E1, E3. cbn [get mem existsb].
    assert (E0 : forall l i, nth i (map (fun _ : chars => 0) l) 0 = 0) by (induction l; intros [|j]; cbn; auto). rewrite E0. destruct (is_sum _); ring. }
  destruct Hall as [H1 H2]. split; [exact H1|]. intros i name Hi. destruct (weight_facts name) as (_ & E2 & _). cbv zeta in E2. rewrite <- E2. now apply H2.
Qed.
(* a lagged value sits in the column that the layout says *)
Lemma lag_slot v lag col : (lag < 0)%Z -> (exists d, get v (c_depths c) = Some d /\ (- lag <= Z.of_nat d)%Z) -> lag_column c v lag = Ok col ->
  nth_error (meaning m c) col = Some (v, Z.to_nat (- lag)).
Proof.
  intros Hl (d & Hd & Ld) H. apply get_In, In_nth_error in Hd. destruct Hd as [a Ha]. unfold lag_column in H. rewrite (start_spec m c Hw _ _ _ Ha) in H. cbn [bind] in H.
  assert (E : col = (k + total (same_depth n (cumulator_variables c)) + (off (c_depths c) a + (Z.to_nat (- lag) - 1)))%nat).
  { assert (E : col = (k_prev m c + off (c_depths c) a + (Z.to_nat (- lag) - 1))%nat) by congruence. rewrite E. unfold k_prev, k_orig. rewrite n_cum. fold n k. lia. }
  rewrite E. rewrite meaning_lag. rewrite (lay_at _ _ _ _ (Z.to_nat (- lag) - 1) Ha) by lia. f_equal. f_equal. lia.
Qed.
Lemma cum_slot name pos q : index name (cumulator_variables c) = Ok pos -> (q < n)%nat -> nth_error (meaning m c) (k + pos * n + q)%nat = Some (name, S q).
Proof.
  intros Hp Hq. pose proof (index_ok _ _ _ Hp) as Hn. pose proof (index_lt _ _ _ Hp) as Hlt. rewrite <- Nat.add_assoc, meaning_cum by (rewrite total_same; fold n; nia).
  rewrite <- (off_same n (cumulator_variables c) pos) by lia. apply (lay_at _ _ _ n); [|exact Hq]. unfold same_depth. now rewrite nth_error_map, Hn.
Qed.
Lemma observation_holds T R0 q T1 T2 Z0 d s e i name t :
  augment_transition m c T = Ok T1 -> append_obs_lags m c T1 = Ok T2 -> design m W c draw = Ok Z0 -> obs_intercept m W c draw = Ok d ->
  follows N q T2 (augment_selection m c R0) s e -> nth_error (c_observed c) i = Some name -> reaches c name t ->
  nth i d 0 + row_dot N Z0 i (s t) = observation m W c draw s name t.
Proof.
  intros H1 H2 HZ Hd Hf Hi Hr. destruct (path_lags m c Hw T R0 q T1 T2 s e H1 H2 Hf) as [_ HL]. rewrite (proj2 (intercept_spec d Hd) i name Hi).
  destruct (design_rows Z0 HZ i name Hi) as (Zb & Zb' & B1 & B2 & B3). assert (Erow : row_dot N Z0 i (s t) = row_dot N Zb' i (s t)) by (unfold row_dot; apply rsum_ext; intros; now rewrite B2). rewrite Erow. clear Erow.
  destruct (weight_facts name) as (Ew & _ & _). cbv zeta in Ew. unfold observation. rewrite <- Ew. set (w := if is_mean (method_of c name) then 1 / period c else 1) in *. destruct Hr as [Hr1 Hr2].
  destruct B3 as [[Hg (oi & Ho & _ & Hsel)]|(e0 & coeffs & Hg & Hrow)].
  - rewrite (Hsel B1 (s t) (fun q => s (t - S q)%nat oi)).
    2:{ intros pos q0 Hc Hp Hq. rewrite covers_eq, Hc in Hr1. destruct (period_facts name Hc) as (_ & E1 & _). apply (HL (S q0) _ name oi t); [now apply cum_slot|exact Ho|lia]. }
    unfold one_period, deviation. rewrite Hg, Ho. unfold base_value. rewrite Hg. rewrite rsum_add. fold w. rewrite <- Rmult_plus_distr_l. f_equal. f_equal. rewrite covers_eq. destruct (cumulates (method_of c name)) eqn:Hc.
    + destruct (period_facts name Hc) as (_ & E1 & _). rewrite E1, rsum_S_first, Nat.sub_0_r. reflexivity.
    + cbn. rewrite Nat.sub_0_r. ring.
  - destruct (equation_row _ _ _ _ _ _ Hg Hrow) as [_ He]. rewrite (He B1 (s t) (fun v z => deviation m s v (Z.to_nat (Z.of_nat t + z)))).
    2:{ intros v lag q0 d0 col Hin Hd0 Hcol. pose proof (get_In _ _ _ Hg) as Hgi. destruct (wf_eqs m c Hw _ _ _ _ _ _ Hgi Hin) as [Hv Hlag]. destruct (index_In _ _ Hv) as [p Hp]. specialize (Hr2 _ _ Hg _ _ _ Hin).
      assert (Hm : nth_error (meaning m c) col = Some (v, Z.to_nat (- (lag - Z.of_nat d0)))).
      { unfold column in Hcol. destruct (Z.eqb_spec (lag - Z.of_nat d0) 0) as [E|Ne].
        - rewrite E. apply meaning_var. now apply index_ok.
        - apply lag_slot; [lia| |exact Hcol].
          assert (Hb : (Z.of_nat d0 <= if cumulates (get name (c_agg c)) then c_period c - 1 else 0)%Z).
          { rewrite covers_eq in Hd0. unfold method_of in Hd0. destruct (cumulates (get name (c_agg c))) eqn:Hc; [|lia]. destruct (period_facts name Hc) as (P1 & E1 & _). lia. }
          destruct (wf_enough m c Hw _ _ _ _ _ _ Hgi Hin) as (d1 & D1 & D2); [destruct (cumulates (get name (c_agg c))); lia|]. exists d1. split; [exact D1|destruct (cumulates (get name (c_agg c))); lia]. }
      split; [unfold N; rewrite <- (meaning_length m c); apply nth_error_Some; congruence|].
      rewrite (HL _ _ _ _ t Hm Hp) by lia. unfold deviation. rewrite Hp. f_equal. lia. }
    fold w. unfold one_period, base_value. rewrite Hg. rewrite rsum_add, <- Rmult_plus_distr_l. f_equal. f_equal. rewrite rsum_lsum. apply lsum_ext. intros [[v lag] q0] Hin. cbn [fst snd]. rewrite rsum_scale. f_equal. apply rsum_ext. intros d0 Hd0. f_equal. lia.
Qed.
End O.
