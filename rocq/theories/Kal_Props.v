(* The state-space form: what its hidden states, its observation equation and its measurement errors mean. *)
From Verif Require Import Common Sym_Model Sym_Spec Sym_Proofs Sym_More SR_Model SR_Proofs Kal_Model Kal_Spec Kal_Proofs Kal_Config Kal_Trans Kal_Obs.
From Coq Require Import Reals Lra.
Local Open Scope R_scope.
Local Open Scope list_scope.

Lemma graph_parts m W c draw F b : make_symbolic_graph m W c draw F = Ok b ->
  exists T R0 T1, policy m W c draw = (T, R0) /\ augment_transition m c T = Ok T1 /\ append_obs_lags m c T1 = Ok (b_T b) /\ b_R b = augment_selection m c R0 /\
  design m W c draw = Ok (b_Z b) /\ obs_intercept m W c draw = Ok (b_d b) /\ (exists names, registered m c = Ok names) /\ obs_cov c draw = Ok (b_H b) /\ b_Q b = state_cov m c draw F.
Proof.
  unfold make_symbolic_graph. destruct (policy m W c draw) as [T R0]. intro H.
  destruct (augment_transition m c T) as [T1|] eqn:E1; [|discriminate]. cbn [bind] in H. destruct (append_obs_lags m c T1) as [T2|] eqn:E2; [|discriminate]. cbn [bind] in H.
  destruct (design m W c draw) as [Z0|] eqn:E3; [|discriminate]. cbn [bind] in H. destruct (obs_intercept m W c draw) as [d|] eqn:E4; [|discriminate]. cbn [bind] in H.
  destruct (registered m c) as [names|] eqn:E5; [|discriminate]. cbn [bind] in H. destruct (obs_cov c draw) as [H0|] eqn:E6; [|discriminate]. cbn [bind] in H.
  assert (Eb : b = Built T2 (augment_selection m c R0) Z0 d H0 (state_cov m c draw F)) by congruence. subst b. exists T, R0, T1. repeat split; eauto.
Qed.

(* ---------- success does not depend on the draw ---------- *)
Lemma loop_same {A S1 S2} (f : S1 -> A -> result S1) (g : S2 -> A -> result S2) l :
  (forall s s' a, In a l -> (exists x, f s a = Ok x) -> exists y, g s' a = Ok y) -> forall s s', (exists x, loop f l s = Ok x) -> exists y, loop g l s' = Ok y.
Proof.
  induction l as [|a l IH]; intros H s s' [x Hx]; cbn in *; [eexists; reflexivity|]. destruct (f s a) as [s1|] eqn:E; [|discriminate]. cbn in Hx.
  destruct (H s s' a (or_introl eq_refl) (ex_intro _ s1 E)) as [s2 ->]. cbn. apply (IH (fun t t' b Hb => H t t' b (or_intror Hb)) s1 s2). eauto.
Qed.
Lemma all_ok_same {A B1 B2} (f : A -> result B1) (g : A -> result B2) l : (forall a, (exists x, f a = Ok x) -> exists y, g a = Ok y) -> (exists x, all_ok f l = Ok x) -> exists y, all_ok g l = Ok y.
Proof.
  intros H [x Hx]. apply all_ok_all. intros a Ha. apply H. destruct (In_nth_error _ _ Ha) as [i Hi]. destruct (proj2 (all_ok_nth _ _ _ Hx) i a Hi) as (b & Hb & _). eauto.
Qed.
Lemma plain_same m c s s' a : (exists x, plain_row m c s a = Ok x) -> exists y, plain_row m c s' a = Ok y.
Proof.
  destruct a as [i name]. unfold plain_row. intros [x Hx]. destruct (orig_index m name) as [oi|]; [|discriminate]. cbn [bind] in *. destruct (cumulates (method_of c name)); [|eauto].
  destruct (index name (cumulator_variables c)); [|discriminate]. cbn [bind]. eauto.
Qed.
Lemma symbolic_same m W W' c draw draw' s s' a : (exists x, symbolic_row m W c draw s a = Ok x) -> exists y, symbolic_row m W' c draw' s' a = Ok y.
Proof.
  destruct a as [i name]. unfold symbolic_row. destruct (get name (c_obs c)) as [[e coeffs]|].
  - apply loop_same. intros t t' [[v lag] k] _ Ht. unfold add_coefficient in *. revert Ht. apply loop_same. intros u u' d _ [x Hx]. destruct (if Z.eqb (lag - Z.of_nat d) 0 then orig_index m v else lag_column c v (lag - Z.of_nat d)) as [col|]; [|discriminate]. cbn [bind]. eauto.
  - intros [x Hx]. destruct (orig_index m name) as [oi|]; [|discriminate]. cbn [bind] in *. destruct (cumulates (method_of c name)); [|eauto]. destruct (index name (cumulator_variables c)); [|discriminate]. cbn [bind]. eauto.
Qed.
Lemma graph_same m W W' c draw draw' F F' : (exists b, make_symbolic_graph m W c draw F = Ok b) -> exists b, make_symbolic_graph m W' c draw' F' = Ok b.
Proof.
  intros [b Hb]. destruct (graph_parts _ _ _ _ _ _ Hb) as (T & R0 & T1 & _ & E1 & E2 & _ & E3 & E4 & (names & E5) & E6 & _).
  unfold make_symbolic_graph. destruct (policy m W' c draw') as [T' R'].
  assert (G1 : exists T1', augment_transition m c T' = Ok T1').
  { unfold augment_transition in *. destruct (cumulator_variables c) as [|l l0]; [eauto|]. destruct (all_ok (orig_index m) (l :: l0)); [|discriminate]. cbn. eauto. }
  destruct G1 as [T1' ->]. cbn [bind]. assert (G2 : exists T2', append_obs_lags m c T1' = Ok T2').
  { unfold append_obs_lags in *. destruct (Nat.eqb (n_obs_lag_states c) 0); [eauto|]. destruct (loop (lag_chain m c) (c_depths c) (zeros, zeros)); [|discriminate]. cbn. eauto. }
  destruct G2 as [T2' ->]. cbn [bind]. assert (G3 : exists Z', design m W' c draw' = Ok Z').
  { unfold design in *. destruct (c_obs c) eqn:Eo; [eapply loop_same; [|eexists; exact E3]; intros; eapply plain_same; eassumption|eapply loop_same; [|eexists; exact E3]; intros; eapply symbolic_same; eassumption]. }
  destruct G3 as [Z' ->]. cbn [bind]. assert (G4 : exists d', obs_intercept m W' c draw' = Ok d').
  { assert (Hs : (exists x, all_ok (intercept_entry m W c draw) (c_observed c) = Ok x) -> exists y, all_ok (intercept_entry m W' c draw') (c_observed c) = Ok y).
    { apply all_ok_same. intros name [x Hx]. unfold intercept_entry in *. destruct (get name (c_obs c)) as [[e k]|]; [cbn [bind]; eauto|]. destruct (mem name (c_ssint c)); [|cbn [bind]; eauto]. destruct (mem name (k_has_ss m)); [cbn [bind]; eauto|discriminate]. }
    unfold obs_intercept in *. destruct (c_ssint c); [destruct (c_obs c); [eauto|]|]; apply Hs; eauto. }
  destruct G4 as [d' ->]. cbn [bind]. rewrite E5. cbn [bind]. assert (G5 : exists H', obs_cov c draw' = Ok H').
  { unfold obs_cov in *. destruct (c_error c); [eauto|]. destruct (Nat.ltb _ _); [discriminate|eauto]. }
  destruct G5 as [H' ->]. cbn [bind]. eauto.
Qed.

(* ---------- C37: the hidden states ---------- *)
Lemma meaning_in m W c draw F b : wf m c -> make_symbolic_graph m W c draw F = Ok b -> forall i v j, nth_error (meaning m c) i = Some (v, j) -> exists p, index v (k_vars m) = Ok p.
Proof.
  intros Hw Hb i v j Hi. destruct (graph_parts _ _ _ _ _ _ Hb) as (T & R0 & T1 & _ & E1 & E2 & _). apply nth_error_In in Hi. rewrite meaning_eq in Hi. apply in_app_or in Hi. destruct Hi as [Hi|Hi].
  - apply in_map_iff in Hi. destruct Hi as (w & E & Hin). injection E as -> _. now apply index_In.
  - apply in_app_or in Hi. destruct Hi as [Hi|Hi].
    + unfold lay, same_depth in Hi. apply in_flat_map in Hi. destruct Hi as ([w d] & Hin & Hl). apply in_map_iff in Hin. destruct Hin as (w' & E & Hin). injection E as -> _. unfold lags_of in Hl. apply in_map_iff in Hl. destruct Hl as (q & E & _). cbn in E. injection E as -> _.
      unfold augment_transition in E1. destruct (cumulator_variables c) as [|x l]; [destruct Hin|]. destruct (all_ok (orig_index m) (x :: l)) as [idx|] eqn:Ea; [|discriminate].
      destruct (In_nth_error _ _ Hin) as [a Ha]. destruct (proj2 (all_ok_nth _ _ _ Ea) a v Ha) as (p & Hp & _). exists p. exact Hp.
    + unfold lay in Hi. apply in_flat_map in Hi. destruct Hi as ([w d] & Hin & Hl). unfold lags_of in Hl. apply in_map_iff in Hl. destruct Hl as (q & E & Hq). cbn in E. injection E as -> _. cbn in Hq.
      unfold append_obs_lags in E2. destruct (Nat.eqb_spec (n_obs_lag_states c) 0) as [E0|N0].
      * exfalso. assert (G : forall l, In (v, d) l -> (d <= fold_right Nat.add 0 (map snd l))%nat) by (induction l as [|[w e] l IH]; [intros []|]; intros [E|E]; cbn; [injection E as <- <-; lia|specialize (IH E); lia]).
        specialize (G _ Hin). unfold n_obs_lag_states in E0. apply in_seq in Hq. lia.
      * destruct (loop (lag_chain m c) (c_depths c) (zeros, zeros)) as [[F0 C0]|] eqn:El; [|discriminate].
        destruct (loop_chain m c _ _ _ _ _ _ _ El zeros_ones zeros_ones) as (_ & _ & L3). exact (L3 v d Hin).
Qed.
Lemma flat_map_map {A B C} (f : B -> list C) (g : A -> B) l : flat_map f (map g l) = flat_map (fun a => f (g a)) l.
Proof. induction l as [|a l IH]; [reflexivity|]. cbn. now rewrite IH. Qed.
Lemma map_flat_map {A B C} (f : B -> C) (g : A -> list B) l : map f (flat_map g l) = flat_map (fun a => map f (g a)) l.
Proof. induction l as [|a l IH]; [reflexivity|]. cbn. now rewrite map_app, IH. Qed.
Lemma flat_map_lengths {A B C} (f : A -> list B) (g : A -> list C) l : (forall a, length (f a) = length (g a)) -> length (flat_map f l) = length (flat_map g l).
Proof. intro H. induction l as [|a l IH]; [reflexivity|]. cbn [flat_map]. now rewrite !app_length, H, IH. Qed.
Lemma state_names_at m c i v j : nth_error (meaning m c) i = Some (v, j) -> exists name, nth_error (state_names m c) i = Some name /\
  (j = 0%nat /\ name = v \/ (0 < j)%nat /\ (name = v ++ str "_cumulator_lag" ++ dec (N.of_nat j) \/ name = v ++ str "_obs_lag" ++ dec (N.of_nat j))).
Proof.
  intro H. rewrite meaning_eq in H. unfold state_names, cumulator_state_names, obs_lag_state_names.
  assert (Ec : flat_map (fun v => map (fun lag => v ++ str "_cumulator_lag" ++ dec (N.of_nat lag)) (seq 1 (n_lags c))) (cumulator_variables c) =
    map (fun vj : chars * nat => fst vj ++ str "_cumulator_lag" ++ dec (N.of_nat (snd vj))) (lay (same_depth (n_lags c) (cumulator_variables c)))).
  { rewrite lay_same, map_flat_map. apply flat_map_ext. intro w. unfold lags_of. cbn [fst snd]. now rewrite map_map. }
  assert (Eo : flat_map (fun vd => map (fun k => fst vd ++ str "_obs_lag" ++ dec (N.of_nat k)) (seq 1 (snd vd))) (c_depths c) =
    map (fun vj : chars * nat => fst vj ++ str "_obs_lag" ++ dec (N.of_nat (snd vj))) (lay (c_depths c))).
  { unfold lay. rewrite map_flat_map. apply flat_map_ext. intros [w d]. unfold lags_of. cbn [fst snd]. now rewrite map_map. }
  rewrite Ec, Eo. clear Ec Eo. set (L1 := lay (same_depth (n_lags c) (cumulator_variables c))) in *. set (L2 := lay (c_depths c)) in *.
  assert (HL1 : forall q w k, nth_error L1 q = Some (w, k) -> (0 < k)%nat) by (intros q w k Hq; destruct (lay_nth _ _ _ _ Hq) as (? & ? & _ & ? & _); lia).
  assert (HL2 : forall q w k, nth_error L2 q = Some (w, k) -> (0 < k)%nat) by (intros q w k Hq; destruct (lay_nth _ _ _ _ Hq) as (? & ? & _ & ? & _); lia).
  destruct (lt_dec i (length (k_vars m))) as [Hl|Hl].
  - rewrite nth_error_app1 in H by (now rewrite map_length). rewrite nth_error_map in H. rewrite nth_error_app1 by exact Hl. destruct (nth_error (k_vars m) i) as [w|]; [|discriminate]. injection H as -> <-. eauto.
  - rewrite nth_error_app2 in H by (rewrite map_length; lia). rewrite map_length in H. rewrite nth_error_app2 by lia. set (r := (i - length (k_vars m))%nat) in *. destruct (lt_dec r (length L1)) as [H1|H1].
    + rewrite nth_error_app1 in H by exact H1. rewrite nth_error_app1 by (now rewrite map_length). rewrite nth_error_map, H. cbn. eexists. split; [reflexivity|]. right. split; [now apply (HL1 r v)|now left].
    + rewrite nth_error_app2 in H by lia. rewrite nth_error_app2 by (rewrite map_length; lia). rewrite map_length, nth_error_map, H. cbn. eexists. split; [reflexivity|]. right. split; [now apply (HL2 (r - length L1)%nat v)|now right].
Qed.
(* For a configured model and any draw of its parameters the state-space form can be built.  Along any path of it the model's variables
   follow the model's own policy function, and every other hidden state, which is named after a variable and a lag, equals that
   variable so many periods earlier. *)
Theorem C37_hidden_states_are_lags : forall m W ord c0 a c draw F, configured m W ord c0 a c ->
  exists b, make_symbolic_graph m W c draw F = Ok b /\ length (c_states c) = k_states m c /\
  forall q s e, follows (k_states m c) q (b_T b) (b_R b) s e ->
    follows (length (k_vars m)) q (fst (policy m W c draw)) (snd (policy m W c draw)) s e /\
    forall i, (i < k_states m c)%nat -> exists name v j, nth_error (c_states c) i = Some name /\
      (j = 0%nat /\ name = v \/ (0 < j)%nat /\ (name = v ++ str "_cumulator_lag" ++ dec (N.of_nat j) \/ name = v ++ str "_obs_lag" ++ dec (N.of_nat j))) /\
      In v (k_vars m) /\ (i < length (k_vars m) <-> j = 0)%nat /\
      forall t, (j <= t)%nat -> s t i = deviation m s v (t - j).
Proof.
  intros m W ord c0 a c draw F (Ho & Hp & Hc). destruct (configure_wf _ _ _ _ _ _ Ho Hp Hc) as (Hw & _ & _ & _ & _ & _ & _ & _ & Es & _ & _ & Hb0).
  destruct (graph_same m W W c _ draw _ F Hb0) as [b Hb]. exists b. split; [exact Hb|].
  assert (El : length (c_states c) = k_states m c).
  { rewrite Es, <- meaning_length. unfold state_names, cumulator_state_names, obs_lag_state_names, meaning. rewrite summed_cumulators, !app_length, map_length. f_equal. f_equal.
    - apply flat_map_lengths. intro v. unfold lags_of. cbn [fst snd]. now rewrite !map_length.
    - apply flat_map_lengths. intros [v d]. unfold lags_of. cbn [fst snd]. now rewrite !map_length. }
  split; [exact El|]. intros q s e Hf. destruct (graph_parts _ _ _ _ _ _ Hb) as (T & R0 & T1 & Ep & E1 & E2 & E3 & _). rewrite Ep. cbn [fst snd]. rewrite E3 in Hf. destruct (path_lags m c Hw T R0 q T1 (b_T b) s e E1 E2 Hf) as [HA HL].
  split; [exact HA|]. intros i Hi. rewrite <- (meaning_length m c) in Hi. destruct (nth_error (meaning m c) i) as [[v j]|] eqn:Em; [|apply nth_error_None in Em; lia].
  destruct (state_names_at _ _ _ _ _ Em) as (name & Hn & Hj). destruct (meaning_in _ _ _ _ _ _ Hw Hb _ _ _ Em) as [p Hpp]. exists name, v, j. rewrite Es. split; [exact Hn|]. split; [exact Hj|]. split; [eapply nth_error_In, index_ok; exact Hpp|]. split.
  - rewrite meaning_eq in Em. split; intro Hlt.
    + rewrite nth_error_app1 in Em by (now rewrite map_length). rewrite nth_error_map in Em. destruct (nth_error (k_vars m) i); [|discriminate]. cbn in Em. congruence.
    + destruct (lt_dec i (length (k_vars m))) as [|Hg]; [assumption|exfalso]. subst j. rewrite nth_error_app2 in Em by (rewrite map_length; lia). apply nth_error_In in Em. apply in_app_or in Em.
      destruct Em as [Em|Em]; apply In_nth_error in Em; destruct Em as [r Hr]; destruct (lay_nth _ _ _ _ Hr) as (? & ? & _ & ? & _); lia.
  - intros t Ht. unfold deviation. rewrite Hpp. now apply (HL j i v p t).
Qed.

(* ---------- C89: the observation equation ---------- *)
(* For every observed series, at every date whose window lies inside the path: intercept plus the row of the design matrix times the
   hidden states is the sum or the mean over the series' window (or the single period's value) of the series' one-period value, that is
   of the linearised observation equation or of the variable (plus steady state if asked for). *)
Theorem C89_observation : forall m W ord c0 a c draw F b q s e i name t, configured m W ord c0 a c ->
  make_symbolic_graph m W c draw F = Ok b -> follows (k_states m c) q (b_T b) (b_R b) s e ->
  nth_error (a_observed a) i = Some name -> reaches c name t ->
  length (b_d b) = length (a_observed a) /\
  nth i (b_d b) 0 + rsum (k_states m c) (fun j => b_Z b i j * s t j) = observation m W c draw s name t.
Proof.
  intros m W ord c0 a c draw F b q s e i name t (Ho & Hp & Hc) Hb Hf Hi Hr. destruct (configure_wf _ _ _ _ _ _ Ho Hp Hc) as (Hw & Eo & _).
  destruct (graph_parts _ _ _ _ _ _ Hb) as (T & R0 & T1 & Ep & E1 & E2 & E3 & E4 & E5 & _). rewrite E3 in Hf. rewrite <- Eo in *. split; [apply (proj1 (intercept_spec m W c draw Hw _ E5))|].
  exact (observation_holds m W c draw Hw T R0 q T1 (b_T b) (b_Z b) (b_d b) s e i name t E1 E2 E4 E5 Hf Hi Hr).
Qed.

(* ---------- C36: measurement errors ---------- *)
Lemma error_name_inj x y : error_name x = error_name y -> x = y.
Proof. unfold error_name. apply app_inv_head. Qed.
Lemma obs_cov_entry m W c draw F b i j : make_symbolic_graph m W c draw F = Ok b -> (i < length (c_observed c))%nat -> (j < length (c_observed c))%nat ->
  b_H b i j = if Nat.eqb i j then (if Nat.ltb i (length (c_error c)) then draw (error_name (nth i (c_error c) [])) * draw (error_name (nth i (c_error c) [])) else 0) else 0.
Proof.
  intros Hb Hi Hj. destruct (graph_parts _ _ _ _ _ _ Hb) as (_ & _ & _ & _ & _ & _ & _ & _ & _ & _ & EH & _). unfold obs_cov in EH. destruct (c_error c) as [|x l] eqn:Ee.
  - assert (E : b_H b = zeros) by congruence. rewrite E. destruct (Nat.eqb i j); reflexivity.
  - destruct (Nat.ltb (length (c_observed c)) (length (x :: l))); [discriminate|]. set (es := x :: l) in *. set (f := fun s => draw (error_name s) * draw (error_name s)) in *.
    assert (E : b_H b = diag (map f es)) by congruence. rewrite E. unfold diag. destruct (Nat.eqb i j); [|reflexivity]. destruct (Nat.ltb_spec i (length es)) as [Hl|Hl].
    + rewrite (nth_indep _ 0 (f [])) by (now rewrite map_length). rewrite (map_nth f). reflexivity.
    + apply nth_overflow. now rewrite map_length.
Qed.
Definition variance_at (draw : chars -> R) (name : chars) : R := draw (error_name name) * draw (error_name name).
(* With distinct observed series, the measurement-error covariance is the expected one at every draw exactly when the series measured
   with error are listed first among the observed series, in the same order. *)
Theorem C36_measurement_errors : forall m W ord c0 a c, configured m W ord c0 a c -> NoDup (a_observed a) ->
  ((forall draw F b, make_symbolic_graph m W c draw F = Ok b -> error_covariance (a_observed a) (or_nil (a_error a)) (variance_at draw) (b_H b)) <->
   prefix (or_nil (a_error a)) (a_observed a)).
Proof.
  intros m W ord c0 a c (Ho & Hp & Hc) Hnd. destruct (configure_wf _ _ _ _ _ _ Ho Hp Hc) as (Hw & Eo & Ee & _ & _ & _ & _ & _ & _ & _ & Hv & Hb0). rewrite <- Eo, <- Ee in *. split.
  - intro Hall. assert (Hlen : (length (c_error c) <= length (c_observed c))%nat).
    { destruct Hb0 as [b Hb]. destruct (graph_parts _ _ _ _ _ _ Hb) as (_ & _ & _ & _ & _ & _ & _ & _ & _ & _ & EH & _). unfold obs_cov in EH. destruct (c_error c) as [|x l]; [cbn; lia|]. destruct (Nat.ltb_spec (length (c_observed c)) (length (x :: l))); [discriminate|lia]. }
    assert (Hat : forall i, (i < length (c_error c))%nat -> nth i (c_error c) [] = nth i (c_observed c) []).
    { intros i Hi. set (x := nth i (c_error c) []). set (draw := fun n => if chars_eqb n (error_name x) then 1 else 0). destruct (graph_same m W W c _ draw _ (fun _ _ => 0) Hb0) as [b Hb].
      specialize (Hall draw _ b Hb i i ltac:(lia) ltac:(lia)). rewrite (obs_cov_entry _ _ _ _ _ _ i i Hb ltac:(lia) ltac:(lia)) in Hall. rewrite Nat.eqb_refl in Hall. destruct (Nat.ltb_spec i (length (c_error c))); [|lia]. fold x in Hall.
      assert (E1 : draw (error_name x) = 1) by (unfold draw; now rewrite chars_eqb_refl). rewrite E1 in Hall. destruct (mem (nth i (c_observed c) []) (c_error c)); [|lra]. unfold variance_at, draw in Hall.
      destruct (chars_eqb (error_name (nth i (c_observed c) [])) (error_name x)) eqn:Ex; [|lra]. apply chars_eqb_eq, error_name_inj in Ex. now symmetry. }
    exists (skipn (length (c_error c)) (c_observed c)). rewrite <- (firstn_skipn (length (c_error c)) (c_observed c)) at 1. f_equal. apply (nth_ext _ _ [] []); [apply firstn_length_le; exact Hlen|].
    intros i Hi0. pose proof (firstn_length_le _ Hlen) as Hfl. assert (Hi : (i < length (c_error c))%nat) by (rewrite <- Hfl; exact Hi0). etransitivity; [|symmetry; exact (Hat i Hi)]. etransitivity; [|rewrite <- (firstn_skipn (length (c_error c)) (c_observed c)); reflexivity]. rewrite app_nth1 by (rewrite Hfl; exact Hi). reflexivity.
  - intros [rest Er] draw F b Hb i j Hi Hj. rewrite (obs_cov_entry _ _ _ _ _ _ i j Hb Hi Hj). destruct (Nat.eqb i j); [|reflexivity]. destruct (Nat.ltb_spec i (length (c_error c))) as [Hl|Hl].
    + rewrite Er, app_nth1 by exact Hl. assert (Hm : mem (nth i (c_error c) []) (c_error c) = true) by (apply mem_In, nth_In; exact Hl). rewrite Hm. reflexivity.
    + destruct (mem (nth i (c_observed c) []) (c_error c)) eqn:Em; [exfalso|reflexivity]. apply mem_In in Em. rewrite Er in Em, Hnd. rewrite app_nth2 in Em by exact Hl.
      assert (Hin : In (nth (i - length (c_error c)) rest []) rest) by (apply nth_In; rewrite Er, app_length in Hi; lia).
      generalize dependent (nth (i - length (c_error c)) rest []). clear - Hnd. intros z Em Hin. induction (c_error c) as [|y l IH]; [destruct Em|]. cbn in Hnd. inversion Hnd as [|? ? N1 N2]; subst. destruct Em as [Em|Em]; [subst y; apply N1, in_or_app; now right|]. auto.
Qed.

(* ---------- a concrete model ---------- *)
Definition kY := str "Y". Definition kC := str "C". Definition kGr := str "Gr". Definition krho := str "rho".
Definition toy : kmodel := KM [kY; kC] [str "e"] [krho] [(krho, 9 / 10)] [] [krho] [kY] [kY; kC] [1; 0]%nat.
Definition toy_policy (p : chars -> R) : mat * mat := (fun i j => match i, j with O, O => p krho | O, S O => 1 / 2 | S O, S O => p krho | _, _ => 0 end, fun _ _ => 1).
Definition toy_world : world := World toy_policy (fun p v => if chars_eqb v kY then 2 else p krho) expworld.
Definition growth : sx := Ad (Sy (SDate kC 0)) (Ng (Sy (SDate kC (-1)))).
Definition toy_args : cargs := CA [kGr; kC] (Some [kGr]) NoConst false (Some [(kC, str "mean")]) 3 (Some [kC]) (Some [(kGr, Ok growth)]) (str "gensys").
Definition toy_config : config := fst (configure toy toy_world id_ord (new_object toy) toy_args).
Theorem C37_case : configured toy toy_world id_ord (new_object toy) toy_args toy_config /\
  c_states toy_config = [kY; kC; str "C_cumulator_lag1"; str "C_cumulator_lag2"; str "C_obs_lag1"] /\ k_states toy toy_config = 5%nat.
Proof.
  split; [|split; vm_compute; reflexivity]. split; [apply id_ord_ok|]. split; [repeat split; cbn; repeat constructor; cbn; intuition; discriminate|].
  unfold toy_config. assert (E : snd (configure toy toy_world id_ord (new_object toy) toy_args) = Ok tt) by (vm_compute; reflexivity). rewrite <- E. apply surjective_pairing.
Qed.
(* a path from any initial state *)
Fixpoint walk (N : nat) (T S0 : mat) (s0 : vec) (t : nat) : vec :=
  match t with O => s0 | S t' => fun i => rsum N (fun j => T i j * walk N T S0 s0 t' j) + S0 i 0%nat end.
Theorem C89_case : forall draw, exists b s, make_symbolic_graph toy toy_world toy_config draw zeros = Ok b /\
  follows 5 1 (b_T b) (b_R b) s (fun _ _ => 1) /\ s 0%nat 1%nat = 1 /\
  forall t, (3 <= t)%nat ->
    nth 0 (b_d b) 0 + rsum 5 (fun j => b_Z b 0%nat j * s t j) = s t 1%nat - s (t - 1)%nat 1%nat /\
    nth 1 (b_d b) 0 + rsum 5 (fun j => b_Z b 1%nat j * s t j) = draw krho + (s t 1%nat + s (t - 1)%nat 1%nat + s (t - 2)%nat 1%nat) / 3.
Proof.
  intro draw. destruct C37_case as (Hc & _ & Hk). destruct (C37_hidden_states_are_lags _ _ _ _ _ _ draw zeros Hc) as (b & Hb & _). exists b, (walk 5 (b_T b) (b_R b) (fun _ => 1)). split; [exact Hb|].
  set (s := walk 5 (b_T b) (b_R b) (fun _ => 1)). assert (Hf : follows 5 1 (b_T b) (b_R b) s (fun _ _ => 1)) by (intros t i _; unfold s at 1; cbn [walk]; cbn [rsum]; unfold s; ring).
  split; [exact Hf|]. split; [reflexivity|]. intros t Ht.
  assert (Eobs : c_obs toy_config = [(kGr, linearize_equation toy id_ord growth)]) by (vm_compute; reflexivity).
  assert (Ecov : covers toy_config kGr = 1%nat /\ covers toy_config kC = 3%nat /\ averaged toy_config kGr = false /\ averaged toy_config kC = true /\ mem kC (c_ssint toy_config) = true) by (repeat split; vm_compute; reflexivity).
  destruct Ecov as (V1 & V2 & V3 & V4 & V5).
  assert (Eg : get kGr (c_obs toy_config) = Some (linearize_equation toy id_ord growth)) by (rewrite Eobs; reflexivity).
  assert (Ec : get kC (c_obs toy_config) = None) by (rewrite Eobs; reflexivity).
  rewrite <- Hk in Hf |- *. split.
  - destruct (C89_observation _ _ _ _ _ _ draw zeros b 1 s (fun _ _ => 1) 0 kGr t Hc Hb Hf eq_refl) as [_ Ho].
    { split; [rewrite V1; lia|]. intros i co Hg v lag k Hin. rewrite V1. rewrite Eg in Hg. injection Hg as _ Hg. rewrite <- Hg in Hin. vm_compute in Hin. destruct Hin as [E|[E|[]]]; injection E as _ <- _; lia. }
    rewrite Ho. unfold observation. rewrite V1, V3. cbn [rsum]. rewrite Nat.sub_0_r. unfold one_period. rewrite Eg. cbn -[deviation Z.of_nat Z.to_nat].
    replace (Z.to_nat (Z.of_nat t + 0)) with t by lia. replace (Z.to_nat (Z.of_nat t + -1)) with (t - 1)%nat by lia. unfold deviation. cbn. unfold value. cbn. ring.
  - destruct (C89_observation _ _ _ _ _ _ draw zeros b 1 s (fun _ _ => 1) 1 kC t Hc Hb Hf eq_refl) as [_ Ho].
    { split; [rewrite V2; lia|]. intros i co Hg. rewrite Ec in Hg. discriminate. }
    rewrite Ho. unfold observation. rewrite V2, V4. cbn [rsum]. rewrite Nat.sub_0_r. unfold one_period. rewrite Ec, V5. unfold deviation. cbn. unfold inputs_at. cbn. assert (Ek : c_const toy_config = []) by (vm_compute; reflexivity). rewrite Ek. cbn. field.
Qed.
(* measurement error on the second of two series: its variance lands on the first *)
Definition toy_args2 : cargs := CA [kY; kC] (Some [kC]) NoConst false None 4 None None (str "gensys").
Definition toy_config2 : config := fst (configure toy toy_world id_ord (new_object toy) toy_args2).
Theorem C36_refuted : configured toy toy_world id_ord (new_object toy) toy_args2 toy_config2 /\ NoDup (a_observed toy_args2) /\
  ~ prefix (or_nil (a_error toy_args2)) (a_observed toy_args2) /\
  exists b, make_symbolic_graph toy toy_world toy_config2 (fun n => if chars_eqb n (str "error_sigma_C") then 2 else 0) zeros = Ok b /\ b_H b 0%nat 0%nat = 4 /\ b_H b 1%nat 1%nat = 0.
Proof.
  assert (Hc : configured toy toy_world id_ord (new_object toy) toy_args2 toy_config2).
  { split; [apply id_ord_ok|]. split; [repeat split; cbn; repeat constructor; cbn; intuition; discriminate|]. unfold toy_config2.
    assert (E : snd (configure toy toy_world id_ord (new_object toy) toy_args2) = Ok tt) by (vm_compute; reflexivity). rewrite <- E. apply surjective_pairing. }
  split; [exact Hc|]. split; [repeat constructor; cbn; intuition; discriminate|]. split; [intros [r E]; discriminate E|].
  destruct (C37_hidden_states_are_lags _ _ _ _ _ _ (fun n => if chars_eqb n (str "error_sigma_C") then 2 else 0) zeros Hc) as (b & Hb & _). exists b. split; [exact Hb|].
  assert (L : length (c_observed toy_config2) = 2%nat) by (vm_compute; reflexivity). assert (Ee : c_error toy_config2 = [kC]) by (vm_compute; reflexivity). rewrite !(obs_cov_entry _ _ _ _ _ _ _ _ Hb) by lia. rewrite Ee. cbn. split; [ring|reflexivity].
Qed.
