(* C147.  Artificial data from the prior. *)
From Verif Require Import Common Dfp_Model.
From Coq Require Import QArith Qround Lqa.
Local Open Scope list_scope.
Local Open Scope nat_scope.

Section C.
Variables Gen Model Params Value Date Kw : Type.
Variable has_data : Model -> bool.
Variable set_data : Model -> list Date -> Model.
Variable containers_shared : bool.
Variable build : list (chars * Kw) -> list Date -> Model -> result Model * bool.
Variable sample_prior : Model -> nat -> Gen -> result (list Params * Gen).
Variable sample_trajectories : Model -> list Params -> list Date -> Gen -> result (list (list (list Value)) * Gen).
Variable choice : nat -> Gen -> nat * Gen.
Variable choose : nat -> nat -> Gen -> list nat * Gen.
Variable date_eqb : Date -> Date -> bool.
Variable default_index : list Date.
Notation dfp b := (data_from_prior Gen Model Params Value Date Kw has_data set_data containers_shared b sample_prior sample_trajectories choice choose date_eqb default_index).
Notation World := (World Model Date).
Notation index_of i := (match i with None => default_index | Some ix => ix end).

(* numpy's choice without replacement; dates are equal as ==; every simulated column has one value per date *)
Definition choose_ok : Prop := forall n k g, k <= n -> NoDup (fst (choose n k g)) /\ length (fst (choose n k g)) = k /\ Forall (fun p => p < n) (fst (choose n k g)).
Definition dates_ok : Prop := forall a b, date_eqb a b = true <-> a = b.
Definition trajectories_ok (index : list Date) : Prop := forall m ps g trs g', sample_trajectories m ps index g = Ok (trs, g') -> Forall (Forall (fun col => length col = length index)) trs.
Definition missing (c : list (option Value)) : nat := length (filter (fun v => match v with None => true | _ => false end) c).


(* everything that can happen *)
Lemma cases b w index n pct g kw : exists r w1, dfp b w index n pct g kw = (r, match r with Ok _ => World (model _ _ w1) None | Err _ => w1 end) /\
  (model _ _ w1 = model _ _ w \/ (has_data (model _ _ w) = true /\ containers_shared = true)) /\
  (fit _ _ w1 = fit _ _ w \/ fit _ _ w1 = Some (index_of index)) /\
  (forall o, r = Ok o -> exists m g1 g2 t full g3,
     sample_prior m n g = Ok (prior _ _ o, g1) /\ sample_trajectories m (prior _ _ o) (index_of index) g1 = Ok (trajectories _ _ o, g2) /\
     nth_error (prior _ _ o) (param_idx _ _ o) = Some (true_params _ _ o) /\ nth_error (trajectories _ _ o) (param_idx _ _ o) = Some t /\ full = map (map Some) t /\
     ((pct <= 0)%Q /\ data _ _ o = full \/ (0 < pct)%Q /\ exists g4, blank_all Gen Value Date choose date_eqb (index_of index) (n_missing (length (index_of index)) pct) full g3 = Ok (data _ _ o, g4))).
Proof.
  unfold data_from_prior. set (idx := index_of index).
  match goal with |- context [if has_data ?a then ?p else ?q] =>
    assert (exists m w1, (if has_data a then p else q) = (m, w1) /\ (model _ _ w1 = model _ _ w \/ has_data (model _ _ w) = true /\ containers_shared = true) /\ (fit _ _ w1 = fit _ _ w \/ fit _ _ w1 = Some idx)) as (m & w1 & -> & M & F) end.
  { destruct (has_data (model _ _ w)).
    - eexists _, _. split; [reflexivity|]. destruct containers_shared; cbn; auto.
    - destruct (build_graph _ _ _ b _ idx _) as [r k]. eexists _, _. split; [reflexivity|]. cbn. split; [now left|]. destruct r; [now right|]. destruct k; auto. }
  destruct m as [m|e]; [|exists (Err e), w1; repeat split; auto; discriminate].
  destruct (sample_prior m n g) as [[ps g1]|e] eqn:Ep; [|exists (Err e), w1; repeat split; auto; discriminate].
  destruct (sample_trajectories m ps idx g1) as [[trs g2]|e] eqn:Et; [|exists (Err e), w1; repeat split; auto; discriminate].
  destruct ps as [|p0 pt]; [exists (Err ValueError), w1; repeat split; auto; discriminate|].
  destruct (choice (length (p0 :: pt)) g2) as [i g3] eqn:Ec.
  destruct (nth_error (p0 :: pt) i) as [p|] eqn:En; [|exists (Err IndexError), w1; repeat split; auto; discriminate].
  destruct (nth_error trs i) as [t|] eqn:Etr; [|exists (Err IndexError), w1; repeat split; auto; discriminate].
  cbv zeta. destruct (Qle_bool pct 0) eqn:Eq.
  - eexists (Ok _), w1. split; [reflexivity|]. split; [easy|]. split; [easy|]. intros o Ho. injection Ho as <-. exists m, g1, g2, t, (map (map Some) t), g3. cbn. repeat (split; [easy|]). left. split; [now apply Qle_bool_iff|easy].
  - destruct (blank_all Gen Value Date choose date_eqb idx (n_missing (length idx) pct) (map (map Some) t) g3) as [[d g4]|e] eqn:Eb; [|exists (Err e), w1; repeat split; auto; discriminate].
    eexists (Ok _), w1. split; [reflexivity|]. split; [easy|]. split; [easy|]. intros o Ho. injection Ho as <-. exists m, g1, g2, t, (map (map Some) t), g3. cbn. repeat (split; [easy|]). right. split; [|now exists g4].
    apply Qnot_le_lt. intros L. apply Qle_bool_iff in L. congruence.
Qed.
(* The user's PyMC model is as it was, whatever happens; the docstring says otherwise.  (Only if it already has data and
   copies share their containers is its data overwritten.) *)
Theorem C147_model w index n pct g kw : has_data (model _ _ w) = false \/ containers_shared = false -> model _ _ (snd (dfp build w index n pct g kw)) = model _ _ w.
Proof.
  intros H. destruct (cases build w index n pct g kw) as (r & w1 & -> & [M|[M1 M2]] & _); [cbn; now destruct r|destruct H; congruence].
Qed.
Theorem C147_overwritten w index n pct g kw : has_data (model _ _ w) = true -> containers_shared = true -> model _ _ (snd (dfp build w index n pct g kw)) = set_data (model _ _ w) (index_of index).
Proof.
  intros H S. unfold data_from_prior. rewrite H, S. cbv zeta. cbn iota.
  destruct (sample_prior _ n g) as [[ps g1]|e]; [|easy]. destruct (sample_trajectories _ ps _ g1) as [[trs g2]|e]; [|easy]. destruct ps as [|p0 pt]; [easy|]. destruct (choice _ g2) as [i g3].
  destruct (nth_error (p0 :: pt) i); [|easy]. destruct (nth_error trs i) as [t|]; [|easy]. destruct (if Qle_bool pct 0 then _ else _) as [[d g4]|e]; easy.
Qed.
(* The statespace model is ready for new data after a success; after a failure it may be left with the dummy data. *)
Theorem C147_reset w index n pct g kw : match dfp build w index n pct g kw with (Ok _, w') => fit _ _ w' = None | (Err _, w') => fit _ _ w' = fit _ _ w \/ fit _ _ w' = Some (index_of index) end.
Proof. destruct (cases build w index n pct g kw) as (r & w1 & -> & _ & F & _). destruct r; [reflexivity|exact F]. Qed.
(* The parameters returned and the data come from one draw of the prior; cells are that draw's or missing. *)
Theorem C147_same_draw w index n pct g kw o w' : dfp build w index n pct g kw = (Ok o, w') -> length (prior _ _ o) > 0 /\
  nth_error (prior _ _ o) (param_idx _ _ o) = Some (true_params _ _ o) /\
  exists t, nth_error (trajectories _ _ o) (param_idx _ _ o) = Some t /\
  (trajectories_ok (index_of index) -> Forall2 (Forall2 (fun v x => x = Some v \/ x = None)) t (data _ _ o)) /\ ((pct <= 0)%Q -> data _ _ o = map (map Some) t).
Proof.
  intros H. destruct (cases build w index n pct g kw) as (r & w1 & E & _ & _ & R). rewrite H in E. injection E as <- _.
  destruct (R o eq_refl) as (m & g1 & g2 & t & full & g3 & Ep & Et & En & Etr & -> & D). split; [|split; [easy|]].
  { destruct (prior _ _ o); [now destruct (param_idx _ _ o)|cbn; lia]. }
  exists t. split; [easy|]. split.
  - intros T. specialize (T _ _ _ _ _ Et). apply nth_error_In in Etr. rewrite Forall_forall in T. specialize (T t Etr).
    assert (Forall2 (Forall2 (fun v x => x = Some v \/ x = None)) t (map (map Some) t)) as Id.
    { clear. induction t as [|c t IH]; cbn; constructor; [|easy]. induction c; cbn; constructor; auto. }
    destruct D as [[_ ->]|[_ [g4 Eb]]]; [exact Id|]. set (k := n_missing _ _) in Eb. clearbody k. clear -T Eb Id.
    revert g3 g4 Eb. generalize (data _ _ o). induction t as [|c t IH]; cbn [map blank_all]; intros d g3 g4 Eb; [injection Eb as <- <-; constructor|].
    destruct (Nat.ltb _ k); [discriminate|]. destruct (choose _ k g3) as [pos g5]. destruct (blank_all _ _ _ _ _ _ k _ g5) as [[d' g6]|] eqn:E; cbn [bind] in Eb; [|discriminate]. injection Eb as <- <-.
    inversion Id as [|? ? ? ? Ic It]; subst. inversion T as [|? ? Tc Tt]; subst. constructor; [|now apply (IH Tt It d' g5 g6)]. cbn [fst]. clear -Tc Ic.
    unfold blank. generalize (flat_map (fun p => match nth_error (index_of index) p with Some d => [d] | None => [] end) pos) as ls. revert Tc. generalize (index_of index) as l. clear Ic. induction c as [|v c IH]; intros [|dt l] Hl ls; cbn in *; try discriminate; [constructor|]. constructor.
    + destruct (existsb (date_eqb dt) ls); auto.
    + apply IH. lia.
  - intros L. destruct D as [[_ D]|[L' _]]; [exact D|]. exfalso. apply (Qlt_irrefl 0). now apply Qlt_le_trans with pct.
Qed.
(* Each column then misses exactly the floor of pct times the number of dates. *)
Lemma blank_count index ls c : dates_ok -> NoDup index -> length c = length index -> Forall (fun v => v <> None) c ->
  missing (blank Value Date date_eqb index ls c) = length (filter (fun d => existsb (date_eqb d) ls) index).
Proof.
  intros De. revert c. induction index as [|d t IH]; intros [|v c] N L V; cbn in L; try discriminate; [reflexivity|]. inversion N; inversion V; subst.
  unfold blank in *. unfold missing in *. cbn [combine map filter fst snd]. destruct (existsb (date_eqb d) ls) eqn:E.
  - cbn [filter length]. f_equal. now apply IH; [|lia|].
  - destruct v; [|congruence]. now apply IH; [|lia|].
Qed.
Lemma labels_count index pos : dates_ok -> NoDup index -> NoDup pos -> Forall (fun p => p < length index) pos ->
  length (filter (fun d => existsb (date_eqb d) (flat_map (fun p => match nth_error index p with Some d => [d] | None => [] end) pos)) index) = length pos.
Proof.
  intros De N Np Hp. set (ls := flat_map _ pos).
  assert (length ls = length pos /\ NoDup ls /\ incl ls index) as (L1 & L2 & L3).
  { unfold ls. clear ls. induction pos as [|p t IH]; cbn [flat_map]; [repeat split; [constructor|intros x []]|]. inversion Np; inversion Hp; subst. destruct IH as (I1 & I2 & I3); auto.
    destruct (nth_error index p) as [d|] eqn:E; [|apply nth_error_None in E; lia]. cbn [app length]. split; [now rewrite I1|]. split.
    - constructor; [|easy]. intros Hd. apply in_flat_map in Hd as (q & Hq & Hd). destruct (nth_error index q) as [d'|] eqn:E'; [|destruct Hd]. destruct Hd as [->|[]].
      assert (p = q) by (apply (proj1 (NoDup_nth_error index) N); [easy|congruence]). now subst q.
    - intros x [<-|Hx]; [eapply nth_error_In; eauto|now apply I3]. }
  rewrite <- L1. apply Nat.le_antisymm.
  - apply NoDup_incl_length; [now apply NoDup_filter|]. intros d Hd. apply filter_In in Hd as [_ Hd]. apply existsb_exists in Hd as (x & Hx & E). apply De in E. now subst.
  - apply NoDup_incl_length; [easy|]. intros d Hd. apply filter_In. split; [now apply L3|]. apply existsb_exists. exists d. split; [easy|]. now apply De.
Qed.
Theorem C147_missing w index n pct g kw o w' : choose_ok -> dates_ok -> NoDup (index_of index) -> trajectories_ok (index_of index) -> (0 < pct)%Q ->
  dfp build w index n pct g kw = (Ok o, w') -> Forall (fun col => missing col = n_missing (length (index_of index)) pct) (data _ _ o).
Proof.
  intros Ch De N T P H. destruct (cases build w index n pct g kw) as (r & w1 & E & _ & _ & R). rewrite H in E. injection E as <- _.
  destruct (R o eq_refl) as (m & g1 & g2 & t & full & g3 & Ep & Et & En & Etr & -> & [[L _]|[_ [g4 Eb]]]); [exfalso; apply (Qlt_irrefl 0); now apply Qlt_le_trans with pct|].
  specialize (T _ _ _ _ _ Et). apply nth_error_In in Etr. rewrite Forall_forall in T. specialize (T t Etr). clear -Ch De N T Eb.
  set (k := n_missing _ _) in *. clearbody k. revert g3 g4 Eb. generalize (data _ _ o). induction t as [|c t IH]; cbn [map blank_all]; intros d g3 g4 Eb; [injection Eb as <- <-; constructor|].
  destruct (Nat.ltb_spec (length (index_of index)) k) as [|Lk]; [discriminate|]. destruct (choose _ k g3) as [pos g5] eqn:Ec. destruct (blank_all _ _ _ _ _ _ k _ g5) as [[d' g6]|] eqn:E; cbn [bind] in Eb; [|discriminate]. injection Eb as <- <-.
  inversion T as [|? ? Tc Tt]; subst. constructor; [|now apply (IH Tt d' g5 g6)]. destruct (Ch (length (index_of index)) k g3 Lk) as (C1 & C2 & C3). rewrite Ec in *. cbn [fst] in *.
  rewrite blank_count; auto; [rewrite labels_count; auto|now rewrite map_length|]. apply Forall_forall. intros v Hv. apply in_map_iff in Hv as (x & <- & _). discriminate.
Qed.
Theorem C147_floor n pct : (0 <= pct)%Q -> (inject_Z (Z.of_nat (n_missing n pct)) <= inject_Z (Z.of_nat n) * pct < inject_Z (Z.of_nat (n_missing n pct)) + 1)%Q.
Proof.
  intros P. unfold n_missing. assert (0 <= inject_Z (Z.of_nat n) * pct)%Q as B.
  { apply Qmult_le_0_compat; [|easy]. change 0%Q with (inject_Z 0). rewrite <- Zle_Qle. lia. }
  pose proof (Qfloor_resp_le _ _ B) as F. change (Qfloor 0) with 0%Z in F. rewrite Z2Nat.id by easy. split; [apply Qfloor_le|]. pose proof (Qlt_floor (inject_Z (Z.of_nat n) * pct)) as Q. rewrite inject_Z_plus in Q. exact Q.
Qed.
(* Only the user's options matter: the graph is built with exactly those given, the defaults in the function with none. *)
Theorem C147_options build' w index n pct g kw : (forall i m, build (match kw with None => [] | Some k => k end) i m = build' (match kw with None => [] | Some k => k end) i m) ->
  dfp build w index n pct g kw = dfp build' w index n pct g kw.
Proof. intros H. unfold data_from_prior, build_graph. now rewrite H. Qed.
(* and none if the model already has data, not even unknown ones *)
Theorem C147_ignored w index n pct g kw kw' : has_data (model _ _ w) = true -> dfp build w index n pct g kw = dfp build w index n pct g kw'.
Proof. intros H. unfold data_from_prior. now rewrite H. Qed.
Theorem C147_unknown w index n pct g kw k : has_data (model _ _ w) = false -> In k kw -> ~ In (fst k) accepted -> dfp build w index n pct g (Some kw) = (Err TypeError, w).
Proof.
  intros H Hk N. unfold data_from_prior, build_graph. rewrite H. replace (forallb _ kw) with false; [now destruct w|]. symmetry. apply Bool.not_true_iff_false. intros F. rewrite forallb_forall in F. specialize (F k Hk).
  apply existsb_exists in F as (x & Hx & E). apply chars_eqb_eq in E. congruence.
Qed.
End C.

(* ---- the options the function calls its defaults, l.1371-1376 ---- *)
Definition defaults : list (chars * bool) := [(str "add_bk_check", false); (str "add_solver_success_check", true); (str "add_norm_check", true); (str "add_steady_state_penalty", true)].
(* generators are numbers; a prior with two draws; one observed state over three dates; the graph fails without the solver check *)
Definition toy (b : list (chars * bool) -> result unit * bool) (traj : result (list (list (list nat)))) :=
  data_from_prior nat unit nat nat nat bool (fun _ => false) (fun m _ => m) true (fun k _ _ => b k) (fun _ n g => Ok (seq 0 n, g + 1))
    (fun _ _ _ g => match traj with Ok t => Ok (t, g + 1) | Err e => Err e end) (fun n g => (g mod n, g + 1)) (fun n k g => (seq 0 k, g + 1)) Nat.eqb [1; 2; 3].
Definition two : result (list (list (list nat))) := Ok [[[10; 20; 30]]; [[11; 21; 31]]].
Theorem C147_defaults_refuted : ~ (forall b, fst (toy b two (World _ _ tt None) None 2 0 0 None) = fst (toy b two (World _ _ tt None) None 2 0 0 (Some defaults))).
Proof. intros H. specialize (H (fun _ => (Ok tt, true))). vm_compute in H. discriminate H. Qed.
Theorem C147_reset_refuted : ~ (forall b t r w', toy b t (World _ _ tt None) None 2 0 0 None = (r, w') -> fit _ _ w' = None).
Proof. intros H. specialize (H (fun _ => (Ok tt, true)) (Err ValueError) _ _ eq_refl). discriminate H. Qed.
Theorem C147_case : toy (fun _ => (Ok tt, true)) two (World _ _ tt None) None 2 (1 # 2) 1 None = (Ok (Outcome _ _ 1 1 [[None; Some 21; Some 31]] [0; 1] [[[10; 20; 30]]; [[11; 21; 31]]]), World _ _ tt None) /\
  choose_ok nat (fun n k g => (seq 0 k, g + 1)) /\ dates_ok nat Nat.eqb /\ NoDup [1; 2; 3] /\ n_missing 3 (1 # 2) = 1 /\
  fst (toy (fun _ => (Ok tt, true)) two (World _ _ tt None) None 2 2 1 None) = Err ValueError.
Proof.
  split; [reflexivity|]. split; [|split; [|split; [|split; reflexivity]]].
  - intros n k g L. cbn [fst]. split; [apply seq_NoDup|]. split; [apply seq_length|]. apply Forall_forall. intros x Hx. apply in_seq in Hx. lia.
  - intros a b. apply Nat.eqb_eq.
  - repeat constructor; cbn; intuition lia.
Qed.
