(* The statements on mixed-frequency data. *)
From Coq Require Import ZArith List Bool Lia Arith.
From Verif Require Import Common Mix_Model Mix_Spec Mix_Proofs.
Import ListNotations.
Local Open Scope Z_scope.

Section S.
Variable V : Type.
Variables (tick : Z -> Z) (roll : Z -> Z).
Hypothesis Cal : calendar tick roll.
Notation prepare := (prepare_mixed_frequency_data V tick roll).
Notation NaNs := (fun data => repeat (@None V) (length (columns V data))).
(* the period of the window in which the value is put *)
Definition offset (period : nat) (where_ : chars) : Z := if chars_eqb where_ (str "first") then 0 else Z.of_nat period - 1.
Definition some_value (c : list (cell V)) : Prop := exists v, In (Some v) c.
Lemma value_iff d (c : list (cell V)) : has_value V (d, c) = true <-> some_value c.
Proof.
  unfold has_value, some_value. cbn [snd]. rewrite existsb_exists. split.
  - intros [[v|] [H1 H2]]; [now exists v|discriminate].
  - intros [v H]. exists (Some v). auto.
Qed.
Lemma offset_range period w : (0 < period)%nat -> 0 <= offset period w < Z.of_nat period.
Proof. intro H. unfold offset. destruct (chars_eqb w (str "first")); lia. Qed.

Lemma prepare_form data period w d0 : (0 < period)%nat -> index_min V (rows V data) = Some d0 ->
  prepare data period w =
  let t := table V tick roll (length (columns V data)) (offset period w) (roll d0) (length (rows V data) * period) (rows V data) in
  match last_valid_index V t with Some l => Ok (loc_upto V t l) | None => Ok t end.
Proof.
  intros Hp Hm. unfold prepare_mixed_frequency_data. fold (offset period w). rewrite Hm. unfold date_range. cbn [bind].
  fold (ticks tick (roll d0) 0 (length (rows V data) * period)).
  rewrite (blank_table V tick roll _ (offset period w)).
  rewrite (place_all V tick roll Cal) by
    (first [apply offset_range, Hp | intros r d Hin Hd; apply (roll_mono tick roll Cal); pose proof (min_iff V (rows V data)) as M;
      rewrite Hm in M; destruct M as [_ M]; eauto]).
  reflexivity.
Qed.

(* C129: whatever the dates of the rows and their order, the result runs over consecutive dates of the calendar from the first one
   that is not before the smallest date; the date that many periods after each row's own first date holds its values, the last
   such row winning, and every other date holds NaN; it ends with the last date that has a value *)
Theorem C129_placement data period w d0 : (0 < period)%nat ->
  (exists v, In (Some d0, v) (rows V data)) -> (forall d v, In (Some d, v) (rows V data) -> d0 <= d) ->
  exists k0 m, number tick d0 k0 /\ (m <= length (rows V data) * period)%nat /\
    (exists t, prepare data period w = Ok t /\ length t = m /\
      forall j, (j < m)%nat -> exists c, nth_error t j = Some (tick (k0 + Z.of_nat j), c) /\
        (found tick (offset period w) (k0 + Z.of_nat j) (rows V data) (Some c) \/
         found tick (offset period w) (k0 + Z.of_nat j) (rows V data) None /\ c = NaNs data)) /\
    (forall j c, (m <= j < length (rows V data) * period)%nat ->
       found tick (offset period w) (k0 + Z.of_nat j) (rows V data) (Some c) -> ~ some_value c) /\
    (m = (length (rows V data) * period)%nat \/
     exists j c, m = S j /\ found tick (offset period w) (k0 + Z.of_nat j) (rows V data) (Some c) /\ some_value c).
Proof.
  intros Hp [v0 Hd0] Hmin.
  assert (Hm : index_min V (rows V data) = Some d0).
  { pose proof (min_iff V (rows V data)) as M. destruct (index_min V (rows V data)) as [b|].
    - destruct M as [[v Hv] M]. specialize (M _ d0 Hd0 eq_refl). apply Hmin in Hv. f_equal; lia.
    - specialize (M _ Hd0). discriminate M. }
  exists (roll d0). set (pos := offset period w). set (N := (length (rows V data) * period)%nat).
  rewrite (prepare_form data period w d0 Hp Hm). fold pos N. set (wd := length (columns V data)).
  set (g := fun i => cells V roll wd pos (rows V data) (roll d0 + Z.of_nat i)).
  assert (Et : table V tick roll wd pos (roll d0) N (rows V data) = map (grow V tick (roll d0) g) (seq 0 N)) by reflexivity.
  rewrite Et. cbv zeta.
  assert (F : forall i, (found tick pos (roll d0 + Z.of_nat i) (rows V data) (Some (g i)) \/
                         found tick pos (roll d0 + Z.of_nat i) (rows V data) None /\ g i = repeat None wd)).
  { intro i. destruct (cells_found V tick roll Cal wd pos (rows V data) (roll d0 + Z.of_nat i)) as [F1 F2].
    unfold g. destruct (existsb (here V roll pos (roll d0 + Z.of_nat i)) (rows V data)); auto. }
  assert (NV : ~ some_value (repeat None wd)).
  { intros [v Hv]. apply repeat_spec in Hv. discriminate. }
  assert (U : forall i c, found tick pos (roll d0 + Z.of_nat i) (rows V data) (Some c) -> c = g i).
  { intros i c Hc. unfold g. clear - Hc Cal. set (k := roll d0 + Z.of_nat i) in *. clearbody k.
    assert (HN : forall d, number tick d (k - pos) <-> (roll d + pos =? k) = true).
    { intro d. rewrite (number_roll tick roll Cal), Z.eqb_eq. lia. }
    remember (Some c) as o eqn:Eo. revert Eo. destruct Hc as [pre d v post H1 H2|rs H]; intro Eo; [|discriminate]. injection Eo as ->.
    unfold cells. rewrite fold_left_app. cbn [fold_left]. unfold here at 2. cbn [fst snd]. apply HN in H1. rewrite H1.
    clear H1 pre. revert H2. generalize (repeat (@None V) wd) as b. intros _ H2.
    induction post as [|[[d'|] v'] post IH]; cbn [fold_left]; [reflexivity| |].
    - unfold here at 2. cbn [fst snd]. destruct (roll d' + pos =? k) eqn:E.
      + exfalso. apply (H2 d' v'); [now left|now apply HN].
      + apply IH. intros d'' v'' Hin. apply (H2 d'' v''). now right.
    - cbn [here fst]. apply IH. intros d'' v'' Hin. apply (H2 d'' v''). now right. }
  assert (VI : forall i, valued V tick (roll d0) g i = true <-> some_value (g i)) by (intro i; apply value_iff).
  assert (Rows : forall m j, (j < m)%nat -> nth_error (map (grow V tick (roll d0) g) (seq 0 m)) j = Some (tick (roll d0 + Z.of_nat j), g j)).
  { intros m j H. rewrite nth_error_map. rewrite nth_error_nth' with (d := 0%nat) by (rewrite seq_length; lia).
    rewrite seq_nth by lia. reflexivity. }
  destruct (last_valid V tick (roll d0) g N) as [[E A]|[j [L [Vj [A E]]]]]; rewrite E.
  - exists N. refine (conj (proj2 (number_roll tick roll Cal d0 (roll d0)) eq_refl) (conj (le_n _) (conj _ (conj _ (or_introl eq_refl))))).
    + eexists. split; [reflexivity|]. split; [now rewrite map_length, seq_length|].
      intros j Hj. exists (g j). split; [now apply Rows|apply F].
    + intros j c Hj. lia.
  - exists (S j). refine (conj (proj2 (number_roll tick roll Cal d0 (roll d0)) eq_refl) (conj L (conj _ (conj _ (or_intror _))))).
    + rewrite (loc_upto_ticks V tick roll Cal) by exact L. eexists. split; [reflexivity|].
      split; [now rewrite map_length, seq_length|]. intros i Hi. exists (g i). split; [now apply Rows|apply F].
    + intros i c Hi Hc. apply U in Hc. subst c. intro H. apply VI in H. rewrite A in H by lia. discriminate.
    + exists j, (g j). split; [reflexivity|]. apply VI in Vj. split; auto. destruct (F j) as [H|[_ H]]; auto.
      rewrite H in Vj. contradiction.
Qed.

(* C129: without gaps, the values of the i-th row are at the first or last period of the i-th window, and NaN everywhere else; no
   value is lost *)
Theorem C129_aligned data period w k0 : (0 < period)%nat -> rows V data <> [] ->
  (forall i r, nth_error (rows V data) i = Some r ->
     exists d, fst r = Some d /\ number tick d (k0 + Z.of_nat i * Z.of_nat period)) ->
  exists t m, prepare data period w = Ok t /\ length t = m /\ (m <= length (rows V data) * period)%nat /\
    (forall i r, nth_error (rows V data) i = Some r -> let j := (i * period + Z.to_nat (offset period w))%nat in
       (j < m)%nat /\ nth_error t j = Some (tick (k0 + Z.of_nat j), snd r) \/ (m <= j)%nat /\ ~ some_value (snd r)) /\
    (forall j, (j < m)%nat -> (forall i, j <> i * period + Z.to_nat (offset period w))%nat ->
       nth_error t j = Some (tick (k0 + Z.of_nat j), NaNs data)).
Proof.
  intros Hp Hne Hal.
  destruct (rows V data) as [|r0 rest] eqn:ER; [congruence|]. destruct (Hal 0%nat r0 eq_refl) as [d0' [Ed0 N0]].
  assert (HM : exists d0, (exists v, In (Some d0, v) (rows V data)) /\ (forall d v, In (Some d, v) (rows V data) -> d0 <= d)).
  { pose proof (min_iff V (rows V data)) as M. destruct (index_min V (rows V data)) as [b|] eqn:Eb.
    - destruct M as [M1 M2]. exists b. split; auto. intros d v Hin. exact (M2 _ d Hin eq_refl).
    - specialize (M r0). rewrite ER in M. specialize (M (or_introl eq_refl)). congruence. }
  destruct HM as [d0 [H1 H2]].
  destruct (C129_placement data period w d0 Hp H1 H2) as [k [m [Hk [Hm [[t [Et [Lt Ht]]] [Hrest Hend]]]]]].
  assert (Ek : k = k0).
  { apply (number_roll tick roll Cal) in Hk. destruct H1 as [v1 H1]. rewrite ER in H1. apply In_nth_error in H1. destruct H1 as [i Hi].
    destruct (Hal i _ Hi) as [d [Ed Nd]]. cbn in Ed. injection Ed as <-. apply (number_roll tick roll Cal) in Nd.
    apply (number_roll tick roll Cal) in N0. cbn in N0.
    assert (d0 <= d0'). { apply (H2 d0' (snd r0)). rewrite ER. left. destruct r0; cbn in *; congruence. }
    apply (roll_mono tick roll Cal) in H. lia. }
  subst k. clear Hk.
  pose proof (offset_range period w Hp) as OR. set (pos := offset period w) in *.
  assert (Only : forall i r, nth_error (rows V data) i = Some r -> found tick pos (k0 + Z.of_nat (i * period + Z.to_nat pos)) (rows V data) (Some (snd r))).
  { intros i r Hi. pose proof Hi as Hi'. rewrite ER in Hi'. destruct (Hal i r Hi') as [d [Ed Nd]].
    destruct (nth_error_split _ _ Hi) as [pre [post [Es Lp]]]. destruct r as [od v]. cbn in Ed. subst od. rewrite Es. cbn [snd].
    apply found_row.
    - replace (k0 + Z.of_nat (i * period + Z.to_nat pos) - pos) with (k0 + Z.of_nat i * Z.of_nat period) by lia. exact Nd.
    - intros d' v' Hin Nd'. apply In_nth_error in Hin. destruct Hin as [q Hq].
      assert (Hq' : nth_error (rows V data) (length pre + S q) = Some (Some d', v')).
      { rewrite Es, nth_error_app2 by lia. replace (length pre + S q - length pre)%nat with (S q) by lia. exact Hq. }
      rewrite ER in Hq'. destruct (Hal _ _ Hq') as [d'' [Ed'' Nd'']]. cbn in Ed''. injection Ed'' as <-.
      apply (number_roll tick roll Cal) in Nd'. apply (number_roll tick roll Cal) in Nd''. lia. }
  assert (Uniq : forall k c c', found tick pos k (rows V data) (Some c) -> found tick pos k (rows V data) c' -> c' = Some c).
  { clear - Cal. intros k c c' F1 F2.
    assert (Un : forall (pre : list (row V)) d v post pre' d' v' post', pre ++ (Some d, v) :: post = pre' ++ (Some d', v') :: post' ->
      number tick d (k - pos) -> number tick d' (k - pos) ->
      (forall a b, In (Some a, b) post -> ~ number tick a (k - pos)) -> (forall a b, In (Some a, b) post' -> ~ number tick a (k - pos)) -> v = v').
    { intros pre. induction pre as [|x pre IH]; intros d v post [|x' pre'] d' v' post' E N1 N2 A1 A2; cbn [app] in E; injection E; intros.
      - congruence.
      - exfalso. apply (A1 d' v'); auto. subst post. apply in_or_app. right. now left.
      - exfalso. apply (A2 d v); auto. subst post'. apply in_or_app. right. now left.
      - eapply IH; eauto. }
    remember (rows V data) as rs eqn:Ers. remember (Some c) as o eqn:Eo. revert Ers Eo F2.
    destruct F1 as [pre d v post N1 A1|rs A]; intros Ers Eo F2; [|discriminate]. injection Eo as ->.
    remember (pre ++ (Some d, c) :: post) as rs' eqn:Ers'. revert Ers'. destruct F2 as [pre' d' v' post' N2 A2|rs'' A]; intro Ers'.
    - f_equal. symmetry. eapply Un; eauto.
    - exfalso. apply (A d c); auto. rewrite Ers'. apply in_or_app. right. now left. }
  exists t, m. refine (conj Et (conj Lt (conj _ (conj _ _)))); [rewrite <- ER; exact Hm| |].
  - intros i r Hi j. rewrite <- ER in Hi. pose proof (Only i r Hi) as F. fold j in F.
    destruct (Nat.lt_ge_cases j m) as [L|L].
    + left. split; auto. destruct (Ht j L) as [c [Hc [Fc|[Fc _]]]]; pose proof (Uniq _ _ _ F Fc) as E; [|discriminate].
      injection E as ->. exact Hc.
    + right. split; auto. apply (Hrest j (snd r)); auto. split; auto.
      assert (i < length (rows V data))%nat by (apply nth_error_Some; congruence). unfold j. nia.
  - intros j Hj Hno. destruct (Ht j Hj) as [c [Hc [Fc|[_ ->]]]]; auto. exfalso.
    remember (rows V data) as rs eqn:Ers. remember (Some c) as o eqn:Eo. revert Ers Eo.
    destruct Fc as [pre d v post N1 A1|rs' A]; intros Ers Eo; [|discriminate].
    assert (Hq : nth_error (r0 :: rest) (length pre) = Some (Some d, v)).
    { rewrite <- ER, nth_error_app2, Nat.sub_diag by lia. reflexivity. }
    destruct (Hal _ _ Hq) as [d' [Ed Nd]]. cbn in Ed. injection Ed as <-.
    apply (number_roll tick roll Cal) in N1. apply (number_roll tick roll Cal) in Nd. apply (Hno (length pre)). lia.
Qed.

(* the result never depends on the values of a row whose period is past the end of the index: after a gap in the dates, the later
   observations disappear without a word *)
Theorem C129_gap_refuted cols pre d v v' post period w d0 k0 : (0 < period)%nat ->
  let rs := pre ++ (Some d, v) :: post in
  (exists c, In (Some d0, c) rs) -> (forall d' c, In (Some d', c) rs -> d0 <= d') -> number tick d0 k0 ->
  k0 + Z.of_nat (length rs * period) <= roll d + offset period w ->
  prepare (Frame V cols rs) period w = prepare (Frame V cols (pre ++ (Some d, v') :: post)) period w.
Proof.
  intros Hp rs [v0 Hd0] Hmin Hk0 Hlate. apply (number_roll tick roll Cal) in Hk0.
  assert (M : forall rs', length rs' = length rs -> map fst rs' = map fst rs -> index_min V rs' = Some d0).
  { intros rs' _ E. pose proof (min_iff V rs') as M. destruct (index_min V rs') as [b|].
    - destruct M as [[x Hx] M]. f_equal. apply (in_map fst) in Hx. rewrite E in Hx. apply in_map_iff in Hx.
      destruct Hx as [[e c] [Ee He]]. cbn in Ee. subst e. apply Hmin in He. apply (in_map fst) in Hd0. rewrite <- E in Hd0.
      apply in_map_iff in Hd0. destruct Hd0 as [[e' c'] [Ee' He']]. cbn in Ee'. subst e'. specialize (M _ d0 He' eq_refl). lia.
    - apply (in_map fst) in Hd0. rewrite <- E in Hd0. apply in_map_iff in Hd0. destruct Hd0 as [[e' c'] [Ee' He']]. cbn in Ee'. subst e'.
      specialize (M _ He'). discriminate M. }
  assert (ML : forall x y : list (cell V), @length (row V) (pre ++ (Some d, x) :: post) = @length (row V) (pre ++ (Some d, y) :: post)).
  { intros. now rewrite !app_length. }
  assert (MF : forall x y : list (cell V), map fst (pre ++ (Some d, x) :: post) = map fst (pre ++ (Some d, y) :: post)).
  { intros. now rewrite !map_app. }
  rewrite (prepare_form (Frame V cols rs) period w d0 Hp (M rs eq_refl eq_refl)).
  rewrite (prepare_form (Frame V cols _) period w d0 Hp (M _ (ML _ _) (MF _ _))). cbn [rows columns]. rewrite (ML v' v). fold rs.
  assert (Et : table V tick roll (length cols) (offset period w) (roll d0) (length rs * period) rs =
               table V tick roll (length cols) (offset period w) (roll d0) (length rs * period) (pre ++ (Some d, v') :: post)).
  { unfold table. apply map_ext_in. intros i Hi. apply in_seq in Hi. f_equal. unfold rs, cells. rewrite !fold_left_app. cbn [fold_left].
    unfold here at 2 5. cbn [fst snd]. destruct (Z.eqb_spec (roll d + offset period w) (roll d0 + Z.of_nat i)) as [E|E]; auto. lia. }
  exact (f_equal (fun t => match last_valid_index V t with Some l => Ok (loc_upto V t l) | None => Ok t end) Et).
Qed.

(* dates that name the end of a window are put a whole window too late: the value of the window of the periods q .. q+period-1,
   dated after the start of its last period, is found in the next window *)
Theorem C129_end_dates_refuted cols d v period q : (0 < period)%nat -> some_value v ->
  tick (q + Z.of_nat period - 1) < d <= tick (q + Z.of_nat period) ->
  exists t, prepare (Frame V cols [(Some d, v)]) period (str "last") = Ok t /\
    nth_error t (period - 1) = Some (tick (q + 2 * Z.of_nat period - 1), v) /\
    forall d' c, In (d', c) t -> tick (q + Z.of_nat period - 1) < d'.
Proof.
  intros Hp Hv [H1 H2].
  assert (Nd : number tick d (q + Z.of_nat period)) by (split; auto).
  destruct (C129_aligned (Frame V cols [(Some d, v)]) period (str "last") (q + Z.of_nat period) Hp) as [t [m [Et [Lt [Hm [Ha Hb]]]]]].
  - discriminate.
  - intros [|i] r Hr; [|destruct i; discriminate]. injection Hr as <-. exists d. split; auto. cbn. now rewrite Z.add_0_r.
  - exists t. split; auto. cbn [rows length] in Hm. destruct (Ha 0%nat (Some d, v) eq_refl) as [[L E]|[_ E]]; [|contradiction].
    assert (EO : Z.to_nat (offset period (str "last")) = (period - 1)%nat) by (change (offset period (str "last")) with (Z.of_nat period - 1); lia).
    rewrite EO in *. rewrite Nat.mul_0_l, Nat.add_0_l in *. cbn [snd] in E. split.
    + rewrite E. do 3 f_equal. lia.
    + intros d' c Hin. apply In_nth_error in Hin. destruct Hin as [j Hj].
      assert (Lj : (j < m)%nat) by (rewrite <- Lt; apply nth_error_Some; congruence).
      assert (Ed : d' = tick (q + Z.of_nat period + Z.of_nat j)).
      { destruct (Nat.eq_dec j (period - 1)) as [->|Nj].
        - rewrite E in Hj. injection Hj as <- _. reflexivity.
        - rewrite Hb in Hj; [now injection Hj as <- _|exact Lj|]. intros [|i]; nia. }
      subst d'. destruct Cal as [M _]. apply M. lia.
Qed.
(* every position that is not "first" is the last one, misspelt ones included *)
Theorem C129_position_refuted data period w : w <> str "first" -> prepare data period w = prepare data period (str "last").
Proof.
  intro H. unfold prepare_mixed_frequency_data.
  rewrite (proj2 (chars_eqb_neq w (str "first")) H). reflexivity.
Qed.
(* data without dates are refused; so is a period of zero, by an error about an index, unless the position is the first one *)
Theorem C129_no_dates data period w : (forall r, In r (rows V data) -> fst r = None) -> prepare data period w = Err ValueError.
Proof.
  intro H. unfold prepare_mixed_frequency_data. pose proof (min_iff V (rows V data)) as M.
  destruct (index_min V (rows V data)) as [b|]; [|reflexivity]. destruct M as [[v Hv] _]. apply H in Hv. discriminate.
Qed.
Theorem C129_zero_period_refuted cols d v rest : prepare (Frame V cols ((Some d, v) :: rest)) 0 (str "last") = Err IndexError /\
  prepare (Frame V cols ((Some d, v) :: rest)) 0 (str "first") = Ok [].
Proof.
  unfold prepare_mixed_frequency_data. cbn [rows]. rewrite Nat.mul_0_r.
  pose proof (min_iff V ((Some d, v) :: rest)) as M.
  destruct (index_min V ((Some d, v) :: rest)) as [b|]; [|specialize (M _ (or_introl eq_refl)); discriminate]. clear M.
  split; [reflexivity|]. cbn [date_range seq map bind].
  change (chars_eqb (str "first") (str "first")) with true. cbv iota.
  assert (P : forall rs, place_rows V [] 0 0 rs [] = Ok []) by (induction rs as [|r rs IH]; [reflexivity|exact IH]).
  rewrite P. reflexivity.
Qed.
End S.

(* a concrete calendar: quarters of ninety days; three years of data with two series, the second one missing at the end *)
Definition quarter (k : Z) : Z := 90 * k.
Definition quarter_of (d : Z) : Z := (d + 89) / 90.
Theorem C129_case_calendar : calendar quarter quarter_of.
Proof.
  split; [unfold quarter; intros; lia|]. intro d. unfold quarter, quarter_of.
  pose proof (Z.div_mod (d + 89) 90). pose proof (Z.mod_pos_bound (d + 89) 90). lia.
Qed.
Definition years : frame nat := Frame nat [str "GDP"; str "R"]
  [(Some 0, [Some 100; Some 5]%nat); (Some 360, [Some 110; Some 4]%nat); (Some 720, [None; None])].
Theorem C129_case : prepare_mixed_frequency_data nat quarter quarter_of years 4 (str "last") =
  Ok [(0, [None; None]); (90, [None; None]); (180, [None; None]); (270, [Some 100; Some 5]%nat);
      (360, [None; None]); (450, [None; None]); (540, [None; None]); (630, [Some 110; Some 4]%nat)].
Proof. reflexivity. Qed.
Theorem C129_case_hypothesis : forall i r, nth_error (rows nat years) i = Some r ->
  exists d, fst r = Some d /\ number quarter d (0 + Z.of_nat i * Z.of_nat 4).
Proof.
  intros [|[|[|i]]] r H; try (destruct i; discriminate H); injection H as <-; eexists; (split; [reflexivity|]); unfold number, quarter; lia.
Qed.
(* 2020 and 2022: the second observation is not in the result *)
Theorem C129_case_gap : prepare_mixed_frequency_data nat quarter quarter_of
  (Frame nat [str "GDP"] [(Some 0, [Some 100%nat]); (Some 720, [Some 110%nat])]) 4 (str "last") =
  Ok [(0, [None]); (90, [None]); (180, [None]); (270, [Some 100%nat])].
Proof. reflexivity. Qed.
