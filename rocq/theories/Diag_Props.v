(* The statements: solvability diagnostics, prior sampling, matrix labels. *)
From Coq Require Import List Bool Arith ZArith QArith String Permutation Lia Lqa.
From Verif Require Import Diag_Model Diag_Proofs.
Import ListNotations.
Local Open Scope nat_scope.
Open Scope string_scope.
Open Scope list_scope.

(* ---- C32: the table *)
Section C32.
Variables (V R : Type) (valid_field : string -> bool) (check : list (field * V) -> attempt R).
Notation sc := (solvability_check valid_field check).
Notation result_of columns row := (check (param_dict valid_field columns row)).
(* row i of the table is row i of the samples with the outcome of the check of that row *)
Definition aligned columns (rows : list (list V)) (out : list (list V * R)) : Prop :=
  List.length out = List.length rows /\
  forall i row r, nth_error out i = Some (row, r) -> nth_error rows i = Some row /\ result_of columns row = Done r.

Lemma combine_nth_error {A B} (l : list A) (m : list B) i a b : nth_error (combine l m) i = Some (a, b) ->
  nth_error l i = Some a /\ nth_error m i = Some b.
Proof.
  revert m i; induction l as [|x l IH]; intros [|y m] [|i] H; cbn in H; try discriminate.
  - injection H as <- <-; auto.
  - cbn. now apply IH.
Qed.
Lemma combine_fst {A B} (l : list A) (m : list B) : List.length l = List.length m -> map fst (combine l m) = l.
Proof. revert m; induction l as [|x l IH]; intros [|y m] L; cbn in *; try discriminate; [reflexivity|]. f_equal. apply IH. lia. Qed.
Lemma combine_snd {A B} (l : list A) (m : list B) : List.length l = List.length m -> map (fun p => @Done B (snd p)) (combine l m) = map Done m.
Proof. revert m; induction l as [|x l IH]; intros [|y m] L; cbn in *; try discriminate; [reflexivity|]. f_equal. apply IH. lia. Qed.
Lemma combine_aligned columns rows rs : map (fun row => result_of columns row) rows = map Done rs -> aligned columns rows (combine rows rs).
Proof.
  intros E. assert (Hl : List.length rows = List.length rs) by (rewrite <- (map_length (fun row => result_of columns row) rows), E; apply map_length).
  split; [rewrite combine_length; lia|]. intros i row r H. apply combine_nth_error in H as [Hr Hs]. split; [exact Hr|].
  apply (map_nth_error (fun row => result_of columns row)) in Hr. rewrite E in Hr.
  apply (map_nth_error (@Done R)) in Hs. rewrite Hs in Hr. now injection Hr.
Qed.
Theorem C32_serial columns rows out : sc columns rows 1 (Done out) -> aligned columns rows out.
Proof.
  intros H. remember (Done out) as o. destruct H as [_|results Hc]; [|congruence].
  unfold table, run_serial in Heqo. destruct (collect _) as [[|r rs]|e] eqn:E; try discriminate.
  injection Heqo as <-. apply combine_aligned. now apply collect_done.
Qed.
(* whatever the number of workers and the schedule, every draw is checked exactly once *)
Theorem C32_nothing_lost columns rows cores out : sc columns rows cores (Done out) ->
  map fst out = rows /\ Permutation (map (fun p => Done (snd p)) out) (map (fun row => result_of columns row) rows).
Proof.
  intros H. remember (Done out) as o.
  assert (K : forall results, Permutation (map (fun row => result_of columns row) rows) results ->
              table columns rows (collect results) = Done out ->
              map fst out = rows /\ Permutation (map (fun p => Done (snd p)) out) (map (fun row => result_of columns row) rows)).
  { intros results P E. unfold table in E. destruct (collect results) as [[|r rs]|e] eqn:C; try discriminate.
    injection E as <-. apply collect_done in C. subst results. apply Permutation_sym in P.
    assert (L : List.length rows = List.length (r :: rs)).
    { apply Permutation_length in P. rewrite !map_length in P. now symmetry. }
    set (rs' := r :: rs) in *. clearbody rs'. split.
    - now apply combine_fst.
    - now rewrite combine_snd. }
  destruct H as [_|results Hc Hf]; [apply (K _ (Permutation_refl _)); exact Heqo|].
  apply (K results); [now apply finishes_perm in Hf|exact Heqo].
Qed.
(* with at least two workers the rows describe their own draws under every schedule exactly when all draws have the same
   outcome: the results are collected in the order of completion *)
Theorem C32_parallel_alignment_iff columns rows cores f : 2 <= cores -> 2 <= List.length rows ->
  (forall row, In row rows -> result_of columns row = Done (f row)) ->
  ((forall out, sc columns rows cores (Done out) -> aligned columns rows out) <-> (forall x y, In x rows -> In y rows -> f x = f y)).
Proof.
  intros Hc Hr Hf.
  assert (M : map (fun row => result_of columns row) rows = map (@Done R) (map f rows)).
  { rewrite map_map. apply map_ext_in. exact Hf. }
  split.
  - intros A.
    (* equal neighbours *)
    assert (N : forall pre x y post, rows = pre ++ x :: y :: post -> f x = f y).
    { intros pre x y post E.
      set (swapped := map f pre ++ f y :: f x :: map f post).
      assert (F : finishes cores (map (fun row => result_of columns row) rows) (map (@Done R) swapped)).
      { rewrite M, E. unfold swapped. rewrite !map_app. cbn. now apply finishes_swap. }
      assert (Hne : swapped <> []) by (unfold swapped; destruct (map f pre); discriminate).
      assert (O : sc columns rows cores (Done (combine rows swapped))).
      { assert (E' : table columns rows (collect (map (@Done R) swapped)) = Done (combine rows swapped)).
        { rewrite (proj2 (collect_done _ _) eq_refl). unfold table. now destruct swapped. }
        rewrite <- E'. apply parallel; [lia|exact F]. }
      destruct (A _ O) as [_ B].
      assert (Hn : nth_error (combine rows swapped) (List.length pre) = Some (x, f y)).
      { unfold swapped. rewrite E. clear. induction pre as [|p pre IH]; [reflexivity|exact IH]. }
      destruct (B _ _ _ Hn) as [_ Hx]. rewrite Hf in Hx by (rewrite E; apply in_or_app; right; now left). now injection Hx. }
    assert (Fst : forall l z, (forall pre x y post, z :: l = pre ++ x :: y :: post -> f x = f y) -> forall x, In x l -> f x = f z).
    { clear. induction l as [|a l IH]; intros z H x Hx; [destruct Hx|].
      assert (E : f z = f a) by (apply (H [] z a l); reflexivity).
      destruct Hx as [->|Hx]; [now symmetry|]. rewrite E. apply IH; [|exact Hx].
      intros pre u v post Eq. apply (H (z :: pre) u v post). cbn. now rewrite Eq. }
    destruct rows as [|z l]; [cbn in Hr; lia|].
    intros x y [<-|Hx] [<-|Hy]; auto.
    + symmetry; now apply (Fst l z).
    + now apply (Fst l z).
    + transitivity (f z); [|symmetry]; now apply (Fst l z).
  - intros Eq out H.
    destruct (C32_nothing_lost _ _ _ _ H) as [E P].
    assert (L : List.length out = List.length rows) by (rewrite <- E; symmetry; apply map_length).
    split; [exact L|]. intros i row r Hi.
    assert (Hrow : nth_error rows i = Some row) by (rewrite <- E; apply (map_nth_error fst _ _ Hi)).
    split; [exact Hrow|].
    rewrite Hf by now apply nth_error_In in Hrow.
    assert (Hin : In (Done r) (map (fun row => result_of columns row) rows)).
    { apply (Permutation_in _ P). apply in_map_iff. exists (row, r). split; [reflexivity|now apply nth_error_In in Hi]. }
    rewrite M in Hin. apply in_map_iff in Hin as (r' & [= ->] & Hr'). apply in_map_iff in Hr' as (row' & <- & Hrow').
    f_equal. apply Eq; [|exact Hrow']. now apply nth_error_In in Hrow.
Qed.
(* how far a result can be from its draw: the result shown in row i belongs to one of the first i + cores draws *)
Theorem C32_displacement columns rows cores out i row r : 1 <= cores -> sc columns rows cores (Done out) -> nth_error out i = Some (row, r) ->
  exists j row', j < i + cores /\ nth_error rows j = Some row' /\ result_of columns row' = Done r.
Proof.
  intros Hc H Hi. remember (Done out) as o.
  assert (K : forall results, finishes cores (map (fun row => result_of columns row) rows) results ->
     table columns rows (collect results) = Done out ->
     exists j row', j < i + cores /\ nth_error rows j = Some row' /\ result_of columns row' = Done r).
  { intros results F E. unfold table in E. destruct (collect results) as [[|a l]|e] eqn:C; try discriminate.
    injection E as <-. apply collect_done in C.
    apply combine_nth_error in Hi as [_ Hs]. apply (map_nth_error (@Done R)) in Hs. rewrite <- C in Hs.
    destruct (finishes_window _ _ _ F _ _ Hs) as (j & Hj & Hn).
    destruct (nth_error rows j) as [row'|] eqn:Ej.
    - exists j, row'. split; [exact Hj|split; [exact Ej|]]. erewrite map_nth_error in Hn by exact Ej. now injection Hn.
    - exfalso. apply nth_error_None in Ej. assert (nth_error (map (fun row => result_of columns row) rows) j = None) as En by (apply nth_error_None; rewrite map_length; exact Ej).
      congruence. }
  destruct H as [_|results Hcc Hf]; [|apply (K results Hf Heqo)].
  apply (K (map (fun row => result_of columns row) rows)); [|exact Heqo]. apply finishes_in_order; lia.
Qed.
(* every column reaches the model under its own name when the names are different valid field names other than Index *)
Theorem C32_columns columns (row : list V) : NoDup columns -> (forall c, In c columns -> valid_field c = true /\ c <> "Index") ->
  param_dict valid_field columns row = combine (map Named columns) row.
Proof.
  intros ND Hv. unfold param_dict. f_equal.
  assert (G : forall l seen i, NoDup l -> (forall c, In c l -> valid_field c = true /\ ~ In c seen) -> field_names valid_field seen i l = map Named l).
  { clear. induction l as [|c l IH]; intros seen i ND H; cbn; [reflexivity|]. inversion ND as [|? ? Hn Hd]; subst.
    destruct (H c (or_introl eq_refl)) as [Hc Hs]. rewrite Hc.
    replace (existsb (String.eqb c) seen) with false.
    - cbn. f_equal. apply IH; [exact Hd|]. intros d Hd'. destruct (H d (or_intror Hd')) as [Hd1 Hd2]. split; [exact Hd1|].
      intros [<-|Hin]; contradiction.
    - symmetry. apply not_true_iff_false. intros X. apply existsb_exists in X as (d & Hd' & E). apply String.eqb_eq in E. subst d. contradiction. }
  apply G; [exact ND|]. intros c Hc. destruct (Hv c Hc) as [H1 H2]. split; [exact H1|]. intros [E|[]]. now apply H2.
Qed.
(* in general: column i keeps its name exactly when that is a valid field name, other than Index, not used by an earlier column;
   any other column is presented under its position *)
Theorem C32_renamed columns i c : nth_error columns i = Some c ->
  nth_error (field_names valid_field ["Index"] 1 columns) i =
    Some (if valid_field c && negb (existsb (String.eqb c) ("Index" :: firstn i columns)) then Named c else Positional (S i)).
Proof.
  intros H.
  assert (G : forall l i seen k, nth_error l i = Some c -> nth_error (field_names valid_field seen k l) i =
     Some (if valid_field c && negb (existsb (String.eqb c) (rev (firstn i l) ++ seen)) then Named c else Positional (k + i))).
  { clear. induction l as [|d l IH]; intros [|i] seen k H; cbn in H; try discriminate.
    - injection H as ->. cbn. now rewrite Nat.add_0_r.
    - cbn [field_names nth_error firstn rev]. rewrite (IH i (d :: seen) (S k) H), <- app_assoc. cbn [app]. now rewrite Nat.add_succ_r. }
  rewrite (G _ _ _ _ H). replace (existsb (String.eqb c) (rev (firstn i columns) ++ ["Index"])) with (existsb (String.eqb c) ("Index" :: firstn i columns)); [reflexivity|].
  apply eq_iff_eq_true. rewrite !existsb_exists. split; intros (x & Hx & E); exists x; (split; [|exact E]).
  - apply in_or_app. destruct Hx as [<-|Hx]; [right; now left|left; now apply -> in_rev].
  - apply in_app_or in Hx as [Hx|[<-|[]]]; [right; now apply in_rev|now left].
Qed.
(* but a column whose name is a Python keyword (say lambda) or starts with an underscore reaches it under no name *)
Theorem C32_keyword_column_refuted c (v : V) : valid_field c = false -> param_dict valid_field [c] [v] = [(Positional 1, v)].
Proof. intros H. unfold param_dict. cbn. now rewrite H. Qed.
(* and no draws at all are an error *)
Theorem C32_no_draws_refuted columns cores o : sc columns [] cores o -> o = Threw Numerical.
Proof.
  intros H. destruct H as [_|results Hc Hf]; [reflexivity|]. cbn in Hf. inversion Hf as [|b x a d Hb Hd Hx]; [reflexivity|].
  destruct b; discriminate.
Qed.
End C32.
(* two draws, two workers: the second finishes first and the verdicts are exchanged *)
Theorem C32_parallel_alignment_refuted :
  exists out, solvability_check (V := nat) (R := nat) (fun _ => true) (fun d => Done (fold_right (fun p a => snd p + a) 0 d))
     ["alpha"] [[5]; [7]] 2 (Done out) /\ out = [([5], 7); ([7], 5)].
Proof.
  exists [([5], 7); ([7], 5)]. split; [|reflexivity].
  apply (parallel nat nat (fun _ => true) _ ["alpha"] [[5]; [7]] 2 [Done 7; Done 5]); [lia|]. cbn.
  apply (finishes_swap 2 [] (Done 5) (Done 7) []). lia.
Qed.

(* ---- C74: the verdict on one draw *)
Section C74.
Variables (SS LS TR : Type) (w : world SS LS TR) (tol : Q).
Definition solved ls tr : Prop := exists ss, steady_state w = Done (ss, true) /\ linearize w ss = Done ls /\ solve w ls = Done (Some tr).
Theorem C74_success d s : check_one_draw w tol = Done (None, d, s) <->
  exists ls tr, solved ls tr /\ bk_satisfied w ls = Done true /\ norms w ls tr = Done (d, s) /\ above d tol = false /\ above s tol = false.
Proof.
  unfold check_one_draw, solved. split.
  - destruct (steady_state w) as [[ss []]|[]]; try discriminate.
    destruct (linearize w ss) as [ls|[]] eqn:E2; try discriminate.
    destruct (solve w ls) as [[tr|]|[]] eqn:E3; try discriminate.
    destruct (bk_satisfied w ls) as [[]|] eqn:E4; try discriminate.
    destruct (norms w ls tr) as [[d' s']|[]] eqn:E5; try discriminate.
    destruct (above d' tol) eqn:E6; try discriminate. destruct (above s' tol) eqn:E7; try discriminate.
    intros [= <- <-]. exists ls, tr. repeat split; auto. exists ss. auto.
  - intros (ls & tr & (ss & -> & -> & ->) & -> & -> & -> & ->). reflexivity.
Qed.
(* the step named is the first one that fails *)
Theorem C74_first_failure st d s : check_one_draw w tol = Done (Some st, d, s) ->
  match st with
  | Steady_state => steady_state w = Threw Numerical \/ exists ss, steady_state w = Done (ss, false)
  | Perturbation => exists ss, steady_state w = Done (ss, true) /\
      (linearize w ss = Threw Numerical \/ exists ls, linearize w ss = Done ls /\ (solve w ls = Threw Numerical \/ solve w ls = Done None))
  | Blanchard_kahn => exists ls tr, solved ls tr /\ bk_satisfied w ls = Done false
  | Deterministic_norm => exists ls tr, solved ls tr /\ bk_satisfied w ls = Done true /\
      (norms w ls tr = Threw Numerical \/ (norms w ls tr = Done (d, s) /\ exists x, d = Some x /\ (tol < x)%Q))
  | Stochastic_norm => exists ls tr, solved ls tr /\ bk_satisfied w ls = Done true /\
      norms w ls tr = Done (d, s) /\ above d tol = false /\ exists x, s = Some x /\ (tol < x)%Q
  end.
Proof.
  assert (Ab : forall x, above x tol = true -> exists q, x = Some q /\ (tol < q)%Q).
  { intros [q|]; cbn; [|discriminate]. intros H. exists q. split; [reflexivity|]. apply negb_true_iff in H.
    apply Qnot_le_lt. intros L. apply Qle_bool_iff in L. congruence. }
  unfold check_one_draw, solved.
  destruct (steady_state w) as [[ss []]|[]] eqn:E1; try discriminate.
  2: { intros [= <- <- <-]. right. now exists ss. }
  2: { intros [= <- <- <-]. now left. }
  destruct (linearize w ss) as [ls|[]] eqn:E2; try discriminate.
  2: { intros [= <- <- <-]. exists ss. split; [reflexivity|now left]. }
  destruct (solve w ls) as [[tr|]|[]] eqn:E3; try discriminate.
  2: { intros [= <- <- <-]. exists ss. split; [reflexivity|right]. exists ls. auto. }
  2: { intros [= <- <- <-]. exists ss. split; [reflexivity|right]. exists ls. auto. }
  assert (Hs : exists ss0, Done (ss, true) = Done (ss0, true) /\ linearize w ss0 = Done ls /\ solve w ls = Done (Some tr)) by (exists ss; auto).
  destruct (bk_satisfied w ls) as [[]|] eqn:E4; try discriminate.
  2: { intros [= <- <- <-]. exists ls, tr. auto. }
  destruct (norms w ls tr) as [[d' s']|[]] eqn:E5; try discriminate.
  2: { intros [= <- <- <-]. exists ls, tr. auto. }
  destruct (above d' tol) eqn:E6.
  { intros [= <- <- <-]. exists ls, tr. split; [exact Hs|]. split; [exact E4|]. right. split; [exact E5|]. now apply Ab. }
  destruct (above s' tol) eqn:E7; [|discriminate].
  intros [= <- <- <-]. exists ls, tr. split; [exact Hs|]. split; [exact E4|]. split; [exact E5|]. split; [exact E6|]. now apply Ab.
Qed.
(* success with norms that are numbers means that both are within the tolerance *)
Theorem C74_success_small_norms d s : check_one_draw w tol = Done (None, Some d, Some s) -> (d <= tol)%Q /\ (s <= tol)%Q.
Proof.
  intros H. apply C74_success in H as (ls & tr & _ & _ & _ & Hd & Hs). cbn in Hd, Hs.
  apply negb_false_iff in Hd, Hs. now rewrite !Qle_bool_iff in *.
Qed.
(* numerical errors of the steady state, the linearisation, the solver and the norms never leave the function *)
Theorem C74_numerical_errors_contained : steady_state w <> Threw Other_error -> (forall ss, linearize w ss <> Threw Other_error) ->
  (forall ls, solve w ls <> Threw Other_error) -> (forall ls, exists b, bk_satisfied w ls = Done b) ->
  (forall ls tr, norms w ls tr <> Threw Other_error) -> exists v, check_one_draw w tol = Done v.
Proof.
  intros H1 H2 H3 H4 H5. unfold check_one_draw.
  destruct (steady_state w) as [[ss []]|[]]; try (eexists; reflexivity); try contradiction.
  specialize (H2 ss). destruct (linearize w ss) as [ls|[]]; try (eexists; reflexivity); try contradiction.
  specialize (H3 ls). destruct (solve w ls) as [[tr|]|[]]; try (eexists; reflexivity); try contradiction.
  destruct (H4 ls) as [[] ->]; try (eexists; reflexivity).
  specialize (H5 ls tr). destruct (norms w ls tr) as [[d s]|[]]; try (eexists; reflexivity); try contradiction.
  destruct (above d tol); [eexists; reflexivity|]. destruct (above s tol); eexists; reflexivity.
Qed.
End C74.
(* but norms that are not numbers count as success, and a numerical error of the Blanchard-Kahn check aborts the whole table *)
Theorem C74_nan_is_success_refuted tol : exists w : world unit unit unit, check_one_draw w tol = Done (None, None, None).
Proof. exists (World (Done (tt, true)) (fun _ => Done tt) (fun _ => Done (Some tt)) (fun _ => Done true) (fun _ _ => Done (None, None))). reflexivity. Qed.
Theorem C74_bk_errors_contained_refuted tol : exists w : world unit unit unit,
  bk_satisfied w tt = Threw Numerical /\ check_one_draw w tol = Threw Numerical.
Proof. exists (World (Done (tt, true)) (fun _ => Done tt) (fun _ => Done (Some tt)) (fun _ => Threw Numerical) (fun _ _ => Done (None, None))). now split. Qed.
Theorem C74_abort_loses_table V R valid (check : list (field * V) -> attempt R) columns rows row cores o e :
  solvability_check valid check columns rows cores o -> In row rows -> check (param_dict valid columns row) = Threw e -> exists e', o = Threw e'.
Proof.
  intros H Hin Ht.
  destruct o as [out|e']; [exfalso|now exists e'].
  destruct (C32_nothing_lost V R valid check columns rows cores out H) as [_ P].
  assert (X : In (Threw e) (map (fun p => Done (snd p)) out)).
  { apply (Permutation_in _ (Permutation_sym P)). rewrite <- Ht. apply in_map_iff. now exists row. }
  apply in_map_iff in X as (p & E & _). discriminate.
Qed.
(* the named solver is used, except for models without leads; an unknown name is a failure of every draw, not an error *)
Theorem C74_solver TR (cr g b : attempt (option TR)) solver :
  solve_perturbation cr g b solver true = b /\
  (solver = Cycle_reduction -> solve_perturbation cr g b solver false = cr) /\ (solver = Gensys -> solve_perturbation cr g b solver false = g).
Proof. split; [reflexivity|]. split; intros ->; reflexivity. Qed.
Theorem C74_unknown_solver_refuted SS LS TR (w : world SS LS TR) tol ss ls cr g b : steady_state w = Done (ss, true) -> linearize w ss = Done ls ->
  solve w ls = solve_perturbation cr g b Unknown_solver false -> check_one_draw w tol = Done (Some Perturbation, None, None).
Proof. intros H1 H2 H3. unfold check_one_draw. now rewrite H1, H2, H3. Qed.

(* ---- C75: sampling *)
(* the Sobol guard accepts exactly the powers of two, and zero *)
Theorem C75_power_of_two n : sobol_size_ok n = true <-> (n = 0 \/ exists k, 0 <= k /\ n = 2 ^ k)%Z.
Proof. unfold sobol_size_ok. rewrite Z.eqb_eq. apply land_pow2. Qed.
Theorem C75_power_of_two_refuted : sobol_size_ok 0 = true /\ ~ exists k, (0 <= k /\ 0 = 2 ^ k)%Z.
Proof. split; [reflexivity|]. intros (k & Hk & E). pose proof (Z.pow_pos_nonneg 2 k ltac:(lia) Hk). lia. Qed.
(* every draw has one value per parameter, labelled with its name and within its bounds *)
Theorem C75_within_bounds bounds units out row : sample_uniform bounds units = Some out -> In row out ->
  (forall u, In u units -> List.length u = List.length bounds /\ forall x, In x u -> (0 <= x <= 1)%Q) ->
  map fst row = map fst bounds /\
  forall i name v, nth_error row i = Some (name, v) -> exists lo hi, nth_error bounds i = Some (name, (lo, hi)) /\ (lo < hi)%Q /\ (lo <= v <= hi)%Q.
Proof.
  unfold sample_uniform. destruct (existsb _ bounds) eqn:E; [discriminate|]. intros [= <-] Hin Hu.
  apply in_map_iff in Hin as (u & <- & Hin). destruct (Hu u Hin) as [Hl H01]. clear Hu Hin units.
  assert (Hb : forall b, In b bounds -> (fst (snd b) < snd (snd b))%Q).
  { intros b Hb. apply Qnot_le_lt. intros L. apply Qle_bool_iff in L.
    assert (existsb (fun b => Qle_bool (snd (snd b)) (fst (snd b))) bounds = true) by (apply existsb_exists; eauto). congruence. }
  clear E. unfold scale_row.
  revert u Hl H01; induction bounds as [|[n [lo hi]] bounds IH]; intros [|x u] Hl H01; cbn in Hl; try discriminate.
  - split; [reflexivity|]. intros [|i] name v H; discriminate.
  - destruct (IH (fun b H => Hb b (or_intror H)) u ltac:(lia) (fun y H => H01 y (or_intror H))) as [I1 I2].
    specialize (Hb _ (or_introl eq_refl)). cbn in Hb. specialize (H01 _ (or_introl eq_refl)).
    split; [cbn; now f_equal|]. intros [|i] name v H; cbn in H.
    + injection H as <- <-. exists lo, hi. split; [reflexivity|]. split; [exact Hb|]. cbn. nra.
    + destruct (I2 i name v H) as (lo' & hi' & ?). now exists lo', hi'.
Qed.
(* the points handed to the inverse distribution functions are strictly inside (0, 1), so finite values come out *)
Theorem C75_clipped eps x : (0 < eps)%Q -> (2 * eps < 1)%Q -> (0 < clip eps x < 1)%Q.
Proof.
  intros H1 H2. unfold clip. destruct (Qle_bool x eps) eqn:E1; [split; lra|].
  destruct (Qle_bool (1 - eps) x) eqn:E2; [split; lra|].
  assert (~ (x <= eps)%Q) by (intros L; apply Qle_bool_iff in L; congruence).
  assert (~ (1 - eps <= x)%Q) by (intros L; apply Qle_bool_iff in L; congruence). split; lra.
Qed.
Theorem C75_qmc_columns priors eps units row : In row (sample_qmc priors eps units) ->
  (forall u, In u units -> List.length u = List.length priors) ->
  exists u, In u units /\ map fst row = map fst priors /\
  forall i name v, nth_error row i = Some (name, v) -> exists ppf x, nth_error priors i = Some (name, ppf) /\ nth_error u i = Some x /\ v = ppf (clip eps x).
Proof.
  intros Hin Hu. apply in_map_iff in Hin as (u & <- & Hin). exists u. split; [exact Hin|]. specialize (Hu u Hin). clear Hin units.
  revert u Hu; induction priors as [|[n ppf] priors IH]; intros [|x u] Hu; cbn in Hu; try discriminate.
  - split; [reflexivity|]. intros [|i] name v H; discriminate.
  - destruct (IH u ltac:(lia)) as [I1 I2]. split; [cbn; now f_equal|]. intros [|i] name v H; cbn in H.
    + injection H as <- <-. exists ppf, x. auto.
    + apply I2 in H. exact H.
Qed.
(* restricting the priors: unknown names and models without priors are refused; otherwise exactly the named priors, in order *)
Theorem C75_subset D (priors : list (string * D)) names :
  match collect_priors priors (Some names) with
  | Some kept => priors <> [] /\ (forall n, In n names -> exists d, In (n, d) priors) /\
      (forall p, In p kept <-> In p priors /\ In (fst p) names) /\ exists keep, kept = filter keep priors
  | None => priors = [] \/ exists n, In n names /\ ~ exists d, In (n, d) priors
  end.
Proof.
  unfold collect_priors. destruct priors as [|p0 ps]; [now left|]. set (priors := p0 :: ps).
  assert (Known : forall n, existsb (fun p => String.eqb (fst p) n) priors = true <-> exists d, In (n, d) priors).
  { intros n. rewrite existsb_exists. split.
    - intros ([n' d] & Hp & E). apply String.eqb_eq in E. cbn in E. subst. now exists d.
    - intros (d & Hd). exists (n, d). split; [exact Hd|]. apply String.eqb_refl. }
  destruct (existsb _ names) eqn:E.
  - right. apply existsb_exists in E as (n & Hn & E). exists n. split; [exact Hn|]. intros K. apply Known in K. now rewrite K in E.
  - split; [discriminate|]. split; [|split].
    + intros n Hn. apply Known. apply negb_false_iff. apply not_true_iff_false. intros T.
      assert (existsb (fun n => negb (existsb (fun p => String.eqb (fst p) n) priors)) names = true) by (apply existsb_exists; eauto). congruence.
    + intros p. rewrite filter_In, existsb_exists. split.
      * intros [Hp (n & Hn & Eq)]. apply String.eqb_eq in Eq. rewrite Eq. auto.
      * intros [Hp Hn]. split; [exact Hp|]. exists (fst p). split; [exact Hn|]. apply String.eqb_refl.
    + eexists; reflexivity.
Qed.
Theorem C75_case : sample_uniform [("alpha", (1 # 4, 3 # 4)%Q); ("beta", (0, 2)%Q)] [[1 # 2; 1 # 4]]%Q =
   Some [[("alpha", (1 # 4) + ((3 # 4) - (1 # 4)) * (1 # 2)); ("beta", 0 + (2 - 0) * (1 # 4))]]%Q.
Proof. reflexivity. Qed.

(* ---- C76: labels of matrices *)
Section C76.
Variables (variables shocks : list string) (n_eq : nat).
(* an axis with as many entries as there are variables (shocks) is labelled with the variables (shocks), if the numbers differ *)
Theorem C76_inferred n : List.length variables <> List.length shocks ->
  axis_labels variables shocks n_eq n None =
  (if Nat.eqb n (List.length variables) then Some (map inl variables) else if Nat.eqb n (List.length shocks) then Some (map inl shocks) else None).
Proof.
  intros H. unfold axis_labels. destruct (Nat.eqb_spec n (List.length variables)) as [->|H1]; cbn.
  - now rewrite map_length, Nat.eqb_refl.
  - destruct (Nat.eqb_spec n (List.length shocks)) as [->|H2]; cbn; [|reflexivity]. now rewrite map_length, Nat.eqb_refl.
Qed.
Theorem C76_lengths n d labels : axis_labels variables shocks n_eq n d = Some labels -> List.length labels = n.
Proof.
  unfold axis_labels. destruct (_ || _); [|discriminate].
  destruct (Nat.eqb_spec (List.length (coords variables shocks n_eq (match d with Some d0 => d0 | None => if Nat.eqb n (List.length variables) then D_variable else D_shock end))) n) as [E|]; [|discriminate].
  now intros [= <-].
Qed.
(* with as many shocks as variables the shock axis is labelled with variables *)
Theorem C76_ambiguous_refuted : List.length variables = List.length shocks ->
  axis_labels variables shocks n_eq (List.length shocks) None = Some (map inl variables).
Proof. intros E. unfold axis_labels. rewrite <- E, Nat.eqb_refl. cbn. now rewrite map_length, Nat.eqb_refl. Qed.
End C76.
