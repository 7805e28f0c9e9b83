(* C155: what the pair plots, the summary of solvability and the heat map of a covariance matrix show *)
From Verif Require Import Common Panel_Model.
From Coq Require Import QArith Permutation Lqa.
Local Open Scope list_scope.
Local Open Scope nat_scope.

(* ---- specification ---- *)
Section S.
Variable V : Type.
Variable constant : list V -> bool.
(* a table of draws: one failure step for each draw (none: it can be solved), and a value of every column *)
Definition table_of_draws (d : draws V) (failure : list (option chars)) : Prop :=
  failure_step V d = Some failure /\ NoDup (map fst (columns V d)) /\ forall n v, In (n, v) (columns V d) -> length v = length failure.
(* a parameter that can be plotted, and its values *)
Definition plottable (d : draws V) (name : chars) (v : list V) : Prop :=
  In (name, v) (columns V d) /\ constant v = false /\
  ~ In name [str "failure_step"; str "norm_deterministic"; str "norm_stochastic"; str "success"].
(* the draws with this outcome, as what is drawn of them *)
Definition same (o : option chars) (r : option chars) : bool :=
  match o, r with None, None => true | Some a, Some b => chars_eqb a b | _, _ => false end.
Definition of_outcome {A} (o : option chars) (failure : list (option chars)) (l : list A) : list A :=
  map snd (filter (fun p => same o (fst p)) (combine failure l)).
Definition failed {A} (failure : list (option chars)) (l : list A) : list A :=
  map snd (filter (fun p => negb (same None (fst p))) (combine failure l)).
Definition enough (colour : string) (l : list V) : list (chars * list V) := match l with _ :: _ :: _ => [(str colour, l)] | _ => [] end.
Inductive shows (d : draws V) (failure : list (option chars)) (names : list chars) (row c : nat) : panel V -> Prop :=
| Shows_nothing : row < c -> shows d failure names row c (Panel V (Hidden V) None None)
| Shows_densities v : row = c -> plottable d (nth c names []) v ->
    shows d failure names row c
      (Panel V (Density V (enough "tab:blue" (of_outcome None failure v) ++ enough "tab:red" (failed failure v)))
        (if S row =? length names then Some (nth c names []) else None) (if c =? 0 then Some (nth row names []) else None))
| Shows_points xs ys reasons : c < row -> plottable d (nth c names []) xs -> plottable d (nth row names []) ys ->
    NoDup reasons -> (forall r, In r reasons <-> In (Some r) failure) ->
    shows d failure names row c
      (Panel V (Scatter V (Layer V (str "tab:blue") (of_outcome None failure (combine xs ys)) ::
                           map (fun r => Layer V (colour_of r) (of_outcome (Some r) failure (combine xs ys))) reasons))
        (if S row =? length names then Some (nth c names []) else None) (if c =? 0 then Some (nth row names []) else None)).
(* a figure of n times n panels *)
Definition figure {P} (n : nat) (spec : nat -> nat -> P -> Prop) (fig : list (list P)) : Prop :=
  length fig = n /\ forall row, row < n -> exists line, nth_error fig row = Some line /\ length line = n /\
    forall c, c < n -> exists p, nth_error line c = Some p /\ spec row c p.

(* ---- lemmas ---- *)
Lemma mem_iff x l : mem x l = true <-> In x l.
Proof.
  unfold mem. rewrite existsb_exists. split.
  - intros [y [H E]]. apply chars_eqb_eq in E. now subst.
  - intro H. exists x. split; [exact H|apply chars_eqb_refl].
Qed.
Lemma col_in name v (f : list (column V)) : NoDup (map fst f) -> In (name, v) f -> col V name f = Ok v.
Proof.
  induction f as [|[n w] f IH]; intros N H; [destruct H|]. cbn [map fst] in N. inversion N as [|? ? N1 N2]; subst. cbn [col].
  destruct (chars_eqb name n) eqn:E.
  - apply chars_eqb_eq in E. subst n. destruct H as [H|H]; [congruence|]. destruct N1. apply (in_map fst) in H. exact H.
  - destruct H as [H|H]; [|now apply IH]. injection H as -> ->. rewrite chars_eqb_refl in E. discriminate E.
Qed.
Lemma map_ok_seq {B} (f : nat -> result B) : forall n a, (forall i, a <= i < a + n -> exists y, f i = Ok y) ->
  exists l, map_ok f (seq a n) = Ok l /\ length l = n /\ forall i, i < n -> exists y, nth_error l i = Some y /\ f (a + i) = Ok y.
Proof.
  induction n as [|n IH]; intros a H; cbn [seq map_ok].
  - exists []. split; [reflexivity|]. split; [reflexivity|]. intros i L. lia.
  - destruct (H a) as [y Hy]; [lia|]. destruct (IH (S a)) as (l & E & Hl & Hn); [intros i L; apply H; lia|].
    rewrite Hy. cbn [bind]. rewrite E. cbn [bind]. exists (y :: l). split; [reflexivity|]. split; [cbn [length]; congruence|].
    intros [|i] L; [exists y; now rewrite Nat.add_0_r|]. destruct (Hn i) as (z & H1 & H2); [lia|]. exists z. split; [exact H1|]. now rewrite <- Nat.add_succ_comm.
Qed.
Lemma figure_ok {P} (f : nat -> nat -> result P) (spec : nat -> nat -> P -> Prop) n :
  (forall row c, row < n -> c < n -> exists p, f row c = Ok p /\ spec row c p) ->
  exists fig, map_ok (fun row => map_ok (f row) (seq 0 n)) (seq 0 n) = Ok fig /\ figure n spec fig.
Proof.
  intro H.
  destruct (map_ok_seq (fun row => map_ok (f row) (seq 0 n)) n 0) as (fig & E & L & N).
  { intros i Hi. destruct (map_ok_seq (f i) n 0) as (line & E & _). { intros j Hj. destruct (H i j) as [p [Hp _]]; [lia|lia|]. now exists p. } now exists line. }
  exists fig. split; [exact E|]. split; [exact L|]. intros row Hr. destruct (N row Hr) as (line & H1 & H2). exists line. split; [exact H1|].
  destruct (map_ok_seq (f row) n 0) as (line' & E' & L' & N'). { intros j Hj. destruct (H row j) as [p [Hp _]]; [lia|lia|]. now exists p. }
  cbn [plus] in H2. rewrite E' in H2. injection H2 as <-. split; [exact L'|].
  intros c Hc. destruct (N' c Hc) as (p & H3 & H4). exists p. split; [exact H3|]. destruct (H row c Hr Hc) as (p' & H5 & H6). cbn [plus] in H4. congruence.
Qed.
Notation success_of failure := (map (fun r : option chars => match r with None => true | Some _ => false end) failure).
Notation somes l := (concat (map (fun r : option chars => match r with Some s => [s] | None => [] end) l)).
Lemma masked_ok {A} failure : forall l : list A, masked l (success_of failure) = of_outcome None failure l.
Proof.
  unfold of_outcome. induction failure as [|[r|] failure IH]; intros [|x l]; cbn [masked map combine filter fst snd same]; try reflexivity; now rewrite IH.
Qed.
Lemma masked_bad {A} failure : forall l : list A, masked l (map negb (success_of failure)) = failed failure l.
Proof.
  unfold failed. induction failure as [|[r|] failure IH]; intros [|x l]; cbn [masked map combine filter fst snd same negb]; try reflexivity; now rewrite IH.
Qed.
Lemma combine_ok {A B} o failure : forall (xs : list A) (ys : list B), length xs = length failure -> length ys = length failure ->
  combine (of_outcome o failure xs) (of_outcome o failure ys) = of_outcome o failure (combine xs ys).
Proof.
  unfold of_outcome. induction failure as [|r failure IH]; intros [|x xs] [|y ys] Hx Hy; cbn [length] in *; try discriminate; try reflexivity.
  cbn [combine filter fst]. destruct (same o r); cbn [map combine snd]; rewrite IH by congruence; reflexivity.
Qed.
Lemma reasons_ok failure : somes (masked failure (map negb (success_of failure))) = somes failure.
Proof. induction failure as [|[r|] failure IH]; cbn [map masked negb concat app]; [reflexivity| |]; now rewrite IH. Qed.
Lemma reason_points {A} r failure : forall l : list A, length l = length failure ->
  masked (failed failure l) (map (chars_eqb r) (somes failure)) = of_outcome (Some r) failure l.
Proof.
  unfold failed, of_outcome. induction failure as [|o failure IH]; intros [|x l] H; cbn [length] in *; try discriminate; [reflexivity|].
  destruct o as [s|]; cbn [map concat app combine filter fst snd same negb masked]; [|rewrite IH by congruence; reflexivity].
  destruct (chars_eqb r s); cbn [map snd]; rewrite IH by congruence; reflexivity.
Qed.
Lemma unique_spec l : forall prior, NoDup (unique l prior) /\ (forall x, In x (unique l prior) <-> In x l /\ ~ In x prior).
Proof.
  induction l as [|y l IH]; intro prior; cbn [unique]; [split; [constructor|cbn [In]; tauto]|].
  destruct (mem y prior) eqn:E.
  - apply mem_iff in E. destruct (IH prior) as [N S]. split; [exact N|]. intro x. rewrite S. cbn [In]. split; [tauto|]. intros [[->|H] H']; tauto.
  - assert (E' : ~ In y prior) by (intro X; apply mem_iff in X; congruence). destruct (IH (y :: prior)) as [N S]. split.
    + constructor; [|exact N]. rewrite S. cbn [In]. tauto.
    + intro x. cbn [In]. rewrite S. cbn [In]. split.
      * intros [->|H]; tauto.
      * intros [[->|H] H']; [now left|]. destruct (chars_eqb x y) eqn:Exy; [apply chars_eqb_eq in Exy; subst; now left|].
        right. split; [exact H|]. intros [->|X]; [|tauto]. rewrite chars_eqb_refl in Exy. discriminate Exy.
Qed.
Lemma in_somes r failure : In r (somes failure) <-> In (Some r) failure.
Proof.
  rewrite in_concat. split.
  - intros [l [H1 H2]]. apply in_map_iff in H1. destruct H1 as [[s|] [<- H1]]; [|destruct H2]. destruct H2 as [->|[]]. exact H1.
  - intro H. exists [r]. split; [|now left]. apply in_map_iff. exists (Some r). now split.
Qed.
Lemma diagonal_ok failure v : diagonal V v (success_of failure) = Density V (enough "tab:blue" (of_outcome None failure v) ++ enough "tab:red" (failed failure v)).
Proof.
  unfold diagonal. cbn [map fst snd concat]. rewrite masked_ok, masked_bad, app_nil_r. unfold enough.
  destruct (of_outcome None failure v) as [|a [|b l]], (failed failure v) as [|a' [|b' l']]; reflexivity.
Qed.
Lemma offdiag_ok failure xs ys : length xs = length failure -> length ys = length failure ->
  offdiag V xs ys (success_of failure) failure =
  Scatter V (Layer V (str "tab:blue") (of_outcome None failure (combine xs ys)) ::
             map (fun r => Layer V (colour_of r) (of_outcome (Some r) failure (combine xs ys))) (unique (somes failure) [])).
Proof.
  intros Hx Hy. unfold offdiag. rewrite reasons_ok, !masked_ok, !masked_bad, combine_ok by assumption. do 2 f_equal. apply map_ext. intro r.
  cbv zeta. rewrite !reason_points, combine_ok by assumption. reflexivity.
Qed.
Definition available (d : draws V) : list (column V) :=
  filter (fun c => negb (chars_eqb (fst c) (str "success")))
    (filter (fun c => negb (constant (snd c))) (filter (fun c => negb (mem (fst c) meta_columns)) (columns V d))).
Lemma NoDup_filter_fst (g : column V -> bool) f : NoDup (map fst f) -> NoDup (map fst (filter g f)).
Proof.
  induction f as [|x f IH]; intro H; [constructor|]. cbn [map] in H. inversion H as [|? ? N1 N2]; subst. cbn [filter]. destruct (g x); [|now apply IH].
  cbn [map]. constructor; [|now apply IH]. intro X. apply N1. apply in_map_iff in X. destruct X as [y [E X]]. apply filter_In in X. rewrite <- E. now apply in_map.
Qed.
Lemma available_iff d name v : In (name, v) (available d) <-> plottable d name v.
Proof.
  unfold available, plottable. rewrite !filter_In. cbn [fst snd]. rewrite !negb_true_iff.
  assert (M : mem name meta_columns = false <-> ~ In name meta_columns). { rewrite <- mem_iff. destruct (mem name meta_columns); [split; [discriminate|tauto]|split; [discriminate|reflexivity]]. }
  assert (E : chars_eqb name (str "success") = false <-> name <> str "success").
  { split; [intros H ->; now rewrite chars_eqb_refl in H|]. intro H. destruct (chars_eqb name (str "success")) eqn:X; [apply chars_eqb_eq in X; contradiction|reflexivity]. }
  rewrite M, E. unfold meta_columns. generalize (str "failure_step") (str "norm_deterministic") (str "norm_stochastic") (str "success"). intros a b c s. cbn [In].
  split; [intros [[[H1 H2] H3] H4]; repeat split; try assumption; intros [X|[X|[X|[X|[]]]]]; [apply H2; tauto|apply H2; tauto|apply H2; tauto|now apply H4]
         |intros (H1 & H2 & H3); repeat split; try assumption; [intros [X|[X|[X|[]]]]; apply H3; tauto|intro X; apply H3; subst; tauto]].
Qed.
Lemma prepare_ok d failure : failure_step V d = Some failure -> prepare V constant d = Ok (available d, failure, success_of failure, map fst (available d)).
Proof. intro H. unfold prepare. rewrite H. reflexivity. Qed.
Lemma available_nodup d : NoDup (map fst (columns V d)) -> NoDup (map fst (available d)).
Proof. intro H. unfold available. now repeat apply NoDup_filter_fst. Qed.
Lemma panel_ok d failure names row c : table_of_draws d failure -> (forall n, In n names -> exists v, plottable d n v) -> row < length names -> c < length names ->
  exists p, solvability_panel V (available d) failure (success_of failure) names row c = Ok p /\ shows d failure names row c p.
Proof.
  intros (Hf & N & L) H Hr Hc. unfold solvability_panel. destruct (Nat.ltb_spec row c) as [Lt|Ge].
  - eexists. split; [reflexivity|]. now apply Shows_nothing.
  - assert (Last : (row =? length names - 1) = (S row =? length names)). { destruct (Nat.eqb_spec row (length names - 1)), (Nat.eqb_spec (S row) (length names)); lia || reflexivity. }
    rewrite Last. destruct (H (nth c names [])) as [xs Hx]; [now apply nth_In|].
    assert (Ex := col_in _ _ _ (available_nodup d N) (proj2 (available_iff d _ _) Hx)).
    destruct (Nat.eqb_spec row c) as [E|E].
    + rewrite Ex. cbn [bind]. eexists. split; [reflexivity|]. rewrite diagonal_ok. now apply Shows_densities.
    + destruct (H (nth row names [])) as [ys Hy]; [now apply nth_In|].
      assert (Ey := col_in _ _ _ (available_nodup d N) (proj2 (available_iff d _ _) Hy)). rewrite Ex, Ey. cbn [bind].
      rewrite offdiag_ok by (eapply L; apply Hx || apply Hy).
      eexists. split; [reflexivity|]. destruct (unique_spec (somes failure) []) as [U1 U2]. apply Shows_points; try assumption; [lia|].
      intro r. rewrite U2, in_somes. cbn [In]. tauto.
Qed.

(* ---- theorems ---- *)
(* the pair plot: the panel of a row and a column shows the draws by the column's parameter (across) and the row's (up) *)
Theorem C155_solvability d failure names : table_of_draws d failure -> names <> [] -> (forall n, In n names -> exists v, plottable d n v) ->
  exists fig, plot_solvability V constant d (Some names) = Ok fig /\ figure (length names) (shows d failure names) fig.
Proof.
  intros W Hn H. unfold plot_solvability. rewrite (prepare_ok d failure (proj1 W)). cbn [bind].
  assert (A : forallb (fun x => mem x (map fst (available d))) names = true).
  { apply forallb_forall. intros x Hx. apply mem_iff. destruct (H x Hx) as [v Hv]. apply available_iff in Hv. apply (in_map fst) in Hv. exact Hv. }
  rewrite A. cbn [negb]. destruct (Nat.eqb_spec (length names) 0) as [E|E]; [destruct names; [congruence|discriminate E]|].
  apply figure_ok. intros row c Hr Hc. now apply panel_ok.
Qed.
(* by default: every parameter that can be plotted, in the order of the table *)
Theorem C155_solvability_all d failure : table_of_draws d failure ->
  exists names, NoDup names /\ (forall n, In n names <-> exists v, plottable d n v) /\ (exists keep, names = map fst (filter keep (columns V d))) /\
    plot_solvability V constant d None = if length names =? 0 then Err ValueError else plot_solvability V constant d (Some names).
Proof.
  intro W. exists (map fst (available d)). split; [apply available_nodup, W|]. split; [|split].
  - intro n. rewrite in_map_iff. split.
    + intros [[n' v] [<- H]]. exists v. now apply available_iff.
    + intros [v H]. exists (n, v). split; [reflexivity|now apply available_iff].
  - unfold available. exists (fun c => (negb (chars_eqb (fst c) (str "success")) && (negb (constant (snd c)) && negb (mem (fst c) meta_columns)))%bool).
    f_equal. generalize (columns V d). induction l as [|x l IH]; [reflexivity|]. cbn [filter].
    destruct (negb (mem (fst x) meta_columns)); cbn [filter]; [|rewrite !andb_false_r; exact IH].
    destruct (negb (constant (snd x))); cbn [filter andb]; [|rewrite !andb_false_r; exact IH].
    destruct (negb (chars_eqb (fst x) (str "success"))); cbn [andb]; [now f_equal|exact IH].
  - unfold plot_solvability. rewrite (prepare_ok d failure (proj1 W)). cbn [bind forallb negb].
    assert (A : forallb (fun x => mem x (map fst (available d))) (map fst (available d)) = true).
    { apply forallb_forall. intros x Hx. now apply mem_iff. }
    rewrite A. cbn [negb]. destruct (length (map fst (available d)) =? 0); reflexivity.
Qed.
(* any other name, and an empty request, is refused *)
Theorem C155_solvability_refused d failure names : table_of_draws d failure -> names = [] \/ (exists n, In n names /\ forall v, ~ plottable d n v) ->
  plot_solvability V constant d (Some names) = Err ValueError.
Proof.
  intros W H. unfold plot_solvability. rewrite (prepare_ok d failure (proj1 W)). cbn [bind]. destruct H as [->|(n & Hn & H)]; [reflexivity|].
  destruct (forallb (fun x => mem x (map fst (available d))) names) eqn:E; [|reflexivity]. exfalso. rewrite forallb_forall in E. apply E, mem_iff in Hn.
  apply in_map_iff in Hn. destruct Hn as [[n' v] [En Hn]]. cbn [fst] in En. subst n'. apply available_iff in Hn. now apply (H v).
Qed.
(* in a panel of points every draw is there exactly once *)
Lemma outcome_cons {A} o o' failure (x : A) l : of_outcome o (o' :: failure) (x :: l) = if same o o' then x :: of_outcome o failure l else of_outcome o failure l.
Proof. unfold of_outcome. cbn [combine filter fst]. destruct (same o o'); reflexivity. Qed.
Lemma split_outcomes {A} reasons : NoDup reasons -> forall failure (l : list A), length l = length failure -> (forall r, In (Some r) failure -> In r reasons) ->
  Permutation (of_outcome None failure l ++ concat (map (fun r => of_outcome (Some r) failure l) reasons)) l.
Proof.
  intro N. induction failure as [|o failure IH]; intros [|x l] H C; cbn [length] in *; try discriminate.
  - unfold of_outcome. cbn [combine filter map app]. clear N C. induction reasons as [|r rs IHr]; [constructor|]. exact IHr.
  - assert (IH' := IH l ltac:(congruence) ltac:(intros r Hr; apply C; now right)). clear IH.
    rewrite outcome_cons. destruct o as [s|]; cbn [same].
    + assert (Hs : In s reasons) by (apply C; now left). apply in_split in Hs. destruct Hs as (a & b & ->).
      assert (Ha : forall rs, ~ In s rs -> map (fun r => of_outcome (Some r) (Some s :: failure) (x :: l)) rs = map (fun r => of_outcome (Some r) failure l) rs).
      { intros rs Hn. apply map_ext_in. intros r Hr. rewrite outcome_cons. cbn [same]. destruct (chars_eqb r s) eqn:E; [|reflexivity]. apply chars_eqb_eq in E. subst. contradiction. }
      assert (Hab := NoDup_remove_2 _ _ _ N). rewrite in_app_iff in Hab.
      rewrite !map_app, !concat_app in *. cbn [map concat] in *. rewrite (Ha a), (Ha b) by tauto. rewrite outcome_cons. cbn [same]. rewrite chars_eqb_refl. cbn [app].
      rewrite app_assoc. apply Permutation_sym, Permutation_cons_app, Permutation_sym. rewrite <- app_assoc. exact IH'.
    + assert (Ha : map (fun r => of_outcome (Some r) (None :: failure) (x :: l)) reasons = map (fun r => of_outcome (Some r) failure l) reasons).
      { apply map_ext. intro r. rewrite outcome_cons. reflexivity. }
      rewrite Ha. cbn [app]. constructor. exact IH'.
Qed.
Theorem C155_every_draw_once d failure names row c layers xl yl : table_of_draws d failure ->
  shows d failure names row c (Panel V (Scatter V layers) xl yl) ->
  exists xs ys, plottable d (nth c names []) xs /\ plottable d (nth row names []) ys /\ Permutation (concat (map (points V) layers)) (combine xs ys).
Proof.
  intros (_ & _ & L) S. inversion S as [| |xs ys reasons H1 Hx Hy N R]; subst. exists xs, ys. split; [exact Hx|]. split; [exact Hy|].
  cbn [map concat points]. rewrite map_map. cbn [points]. apply split_outcomes; [exact N| |intros r Hr; now apply R].
  rewrite combine_length, (L _ _ (proj1 Hx)), (L _ _ (proj1 Hy)). apply Nat.min_id.
Qed.

(* the summary *)
Definition known : list chars := [str "success"; str "steady_state"; str "perturbation"; str "blanchard-kahn"; str "deterministic_norm"; str "stochastic_norm"].
Definition outcome (r : option chars) : chars := match r with Some s => s | None => str "success" end.
Definition number_of (x : chars) (failure : list (option chars)) : nat := length (filter (fun r => chars_eqb x (outcome r)) failure).
Fixpoint touching (left : Q) (bs : list (chars * Q * Q)) (right : Q) : Prop :=
  match bs with [] => left == right | (_, l, w) :: r => l = left /\ touching (left + w) r right end%Q.
Lemma share_is failure x : share (map label_of failure) x = (inject_Z (Z.of_nat (number_of x failure)) / inject_Z (Z.of_nat (length failure)))%Q.
Proof.
  unfold share, number_of. rewrite map_length. do 3 f_equal. induction failure as [|r f IH]; [reflexivity|]. cbn [map filter].
  unfold label_of at 1, outcome at 1. destruct (chars_eqb x _); cbn [length]; now rewrite IH.
Qed.
Lemma div0 n t : 0 < t -> (inject_Z (Z.of_nat n) / inject_Z (Z.of_nat t) == 0)%Q <-> n = 0.
Proof.
  intro H. assert (T : (0 < inject_Z (Z.of_nat t))%Q) by (change 0%Q with (inject_Z 0); rewrite <- Zlt_Qlt; lia). split.
  - intro E. assert (E' : (inject_Z (Z.of_nat n) == 0)%Q).
    { rewrite <- (Qmult_div_r (inject_Z (Z.of_nat n)) (inject_Z (Z.of_nat t))), E; [ring|]. intro X. rewrite X in T. now apply Qlt_irrefl in T. }
    change 0%Q with (inject_Z 0) in E'. unfold Qeq in E'. cbn in E'. lia.
  - intros ->. unfold Qdiv. change (inject_Z (Z.of_nat 0)) with 0%Q. ring.
Qed.
Lemma bars_labels failure todo : 0 < length failure -> forall left, map (fun b => fst (fst b)) (bars (map label_of failure) left todo) = filter (fun x => negb (number_of x failure =? 0)) todo.
Proof.
  intro H. induction todo as [|x todo IH]; intro left; [reflexivity|]. cbn [bars filter]. rewrite share_is.
  destruct (Qeq_bool _ 0) eqn:E.
  - apply Qeq_bool_iff in E. apply div0 in E; [|exact H]. rewrite E. cbn [Nat.eqb negb]. apply IH.
  - destruct (Nat.eqb_spec (number_of x failure) 0) as [E'|E']; [|cbn [negb map fst]; now rewrite IH].
    apply (div0 _ (length failure) H) in E'. apply Qeq_bool_iff in E'. congruence.
Qed.
Lemma bars_width failure todo : forall left x l w, In (x, l, w) (bars (map label_of failure) left todo) ->
  w = (inject_Z (Z.of_nat (number_of x failure)) / inject_Z (Z.of_nat (length failure)))%Q.
Proof.
  induction todo as [|y todo IH]; intros left x l w H; [destruct H|]. cbn [bars] in H. destruct (Qeq_bool _ 0); [now apply IH in H|].
  destruct H as [H|H]; [|now apply IH in H]. injection H as -> _ <-. apply share_is.
Qed.
Fixpoint total (todo : list chars) (failure : list (option chars)) : nat := match todo with [] => 0 | x :: r => number_of x failure + total r failure end.
Lemma bars_touch failure todo : forall left,
  touching left (bars (map label_of failure) left todo) (left + inject_Z (Z.of_nat (total todo failure)) / inject_Z (Z.of_nat (length failure)))%Q.
Proof.
  induction todo as [|x todo IH]; intro left; cbn [bars total].
  - cbn [touching]. change (inject_Z (Z.of_nat 0)) with 0%Q. unfold Qdiv. ring.
  - assert (E0 : forall right right', (right == right')%Q -> forall bs l, touching l bs right -> touching l bs right').
    { intros right right' E. induction bs as [|[[a b] w] bs IHb]; intros l H; cbn [touching] in *; [now rewrite <- E|]. destruct H. split; [assumption|now apply IHb]. }
    assert (E0l : forall bs l l' right, (l == l')%Q -> bs = [] -> touching l bs right -> touching l' bs right).
    { intros bs l l' right E -> H. cbn [touching] in *. now rewrite <- E. }
    assert (A : (left + inject_Z (Z.of_nat (number_of x failure + total todo failure)) / inject_Z (Z.of_nat (length failure)) ==
                 left + share (map label_of failure) x + inject_Z (Z.of_nat (total todo failure)) / inject_Z (Z.of_nat (length failure)))%Q).
    { rewrite share_is, Nat2Z.inj_add, inject_Z_plus. unfold Qdiv. ring. }
    destruct (Qeq_bool (share (map label_of failure) x) 0) eqn:E.
    + apply Qeq_bool_iff in E. eapply E0; [|apply IH]. rewrite A, E. ring.
    + cbn [touching]. split; [reflexivity|]. eapply E0; [symmetry; exact A|]. apply IH.
Qed.
Lemma total_known failure todo : NoDup todo -> total todo failure = length (filter (fun r => mem (outcome r) todo) failure).
Proof.
  induction todo as [|x todo IH]; intro N.
  - cbn [total]. induction failure; [reflexivity|]. cbn [filter mem existsb]. exact IHfailure.
  - inversion N as [|? ? N1 N2]; subst. cbn [total]. rewrite IH by exact N2. clear IH. unfold number_of. induction failure as [|r f IH]; [reflexivity|].
    cbn [filter]. change (mem (outcome r) (x :: todo)) with (chars_eqb (outcome r) x || mem (outcome r) todo)%bool.
    replace (chars_eqb (outcome r) x) with (chars_eqb x (outcome r)).
    2:{ destruct (chars_eqb x (outcome r)) eqn:E; symmetry; [apply chars_eqb_eq in E; rewrite E; apply chars_eqb_refl|].
        destruct (chars_eqb (outcome r) x) eqn:E'; [|reflexivity]. apply chars_eqb_eq in E'. rewrite E', chars_eqb_refl in E. discriminate E. }
    destruct (chars_eqb x (outcome r)) eqn:E.
    + apply chars_eqb_eq in E. destruct (mem (outcome r) todo) eqn:M; [apply mem_iff in M; rewrite <- E in M; contradiction|]. cbn [orb length]. rewrite <- IH. reflexivity.
    + cbn [orb]. destruct (mem (outcome r) todo); cbn [length]; rewrite <- IH; lia.
Qed.
(* one bar for each outcome that occurs, in the fixed order, as wide as its share of the draws, each beginning where the one before ends *)
Theorem C155_summary d failure : failure_step V d = Some failure -> failure <> [] ->
  exists bs right, plot_solvability_summary V d = Ok bs /\
    map (fun b => fst (fst b)) bs = filter (fun x => negb (number_of x failure =? 0)) known /\
    (forall x l w, In (x, l, w) bs -> w = (inject_Z (Z.of_nat (number_of x failure)) / inject_Z (Z.of_nat (length failure)))%Q) /\
    touching 0 bs right /\
    ((forall r, In (Some r) failure -> In r known) -> right == 1)%Q.
Proof.
  intros Hf Hne. unfold plot_solvability_summary. rewrite Hf. assert (L : 0 < length failure) by (destruct failure; [congruence|cbn; lia]).
  eexists. eexists. split; [reflexivity|]. split; [apply (bars_labels failure known L)|]. split; [apply bars_width|]. split; [apply bars_touch|].
  intro K. fold known. change summary_labels with known.
  assert (N : NoDup known). { unfold known. repeat constructor; cbn [In]; intro X; repeat (destruct X as [X|X]; [vm_compute in X; discriminate X|]); exact X. }
  rewrite total_known by exact N.
  assert (A : filter (fun r => mem (outcome r) known) failure = failure).
  { clear L Hf Hne. induction failure as [|r f IH]; [reflexivity|]. cbn [filter].
    assert (M : mem (outcome r) known = true). { apply mem_iff. destruct r as [s|]; [apply K; now left|now left]. }
    rewrite M, IH; [reflexivity|]. intros s Hs. apply K. now right. }
  rewrite A. rewrite Qplus_0_l. unfold Qdiv. apply Qmult_inv_r. intro X. change 0%Q with (inject_Z 0) in X. unfold Qeq in X. cbn in X. lia.
Qed.

(* ---- plot_corner ---- *)
Inductive corner_shows (f : list (column V)) (names : list chars) (colours : option (list V)) (row c : nat) : corner_panel V -> Prop :=
| Corner_nothing : row < c -> corner_shows f names colours row c (CPanel V (CHidden V) None None)
| Corner_hist v : row = c -> In (nth c names [], v) f -> corner_shows f names colours row c (CPanel V (CHist V v) None None)
| Corner_joint xs ys : c < row -> In (nth c names [], xs) f -> In (nth row names [], ys) f ->
    corner_shows f names colours row c (CPanel V (CJoint V xs ys colours)
      (if S row =? length names then Some (nth c names []) else None) (if c =? 0 then Some (nth row names []) else None)).
Definition wanted (f : list (column V)) (var_names : option (list chars)) : list chars := match var_names with None | Some [] => map fst f | Some l => l end.
Theorem C155_corner f var_names colorby colours : NoDup (map fst f) -> (forall n, In n (wanted f var_names) -> In n (map fst f)) ->
  match colorby with None => colours = None | Some k => exists v, In (k, v) f /\ colours = Some v end -> 2 <= length (wanted f var_names) ->
  exists fig, plot_corner V (Some f) var_names colorby = Ok fig /\ figure (length (wanted f var_names)) (corner_shows f (wanted f var_names) colours) fig.
Proof.
  intros N H Hc L. unfold plot_corner, corner_inputs.
  change (match var_names with None | Some [] => map fst f | Some l => l end) with (wanted f var_names).
  assert (A : forallb (fun v => mem v (map fst f)) (wanted f var_names) = true) by (apply forallb_forall; intros x Hx; apply mem_iff; auto).
  rewrite A. cbn [negb].
  assert (E : (match colorby with None => Ok (wanted f var_names, None) | Some c => if negb (mem c (map fst f)) then Err ValueError else v <- col V c f ;; Ok (wanted f var_names, Some v) end) = Ok (wanted f var_names, colours)).
  { destruct colorby as [k|]; [|now subst]. destruct Hc as [v [Hv ->]]. assert (M : mem k (map fst f) = true) by (apply mem_iff; apply (in_map fst) in Hv; exact Hv).
    rewrite M. cbn [negb]. rewrite (col_in _ _ _ N Hv). reflexivity. }
  rewrite E. cbn [bind]. destruct (length (wanted f var_names)) as [|[|n]] eqn:En; [lia|lia|]. rewrite <- En.
  apply figure_ok. intros row c Hr Hcc. unfold corner_panel_of.
  assert (In' : forall i, i < length (wanted f var_names) -> exists v, In (nth i (wanted f var_names) [], v) f).
  { intros i Hi. assert (X := H _ (nth_In (wanted f var_names) [] Hi)). apply in_map_iff in X. destruct X as [[a v] [E1 X]]. cbn [fst] in E1. subst. now exists v. }
  destruct (Nat.ltb_spec row c); [eexists; split; [reflexivity|now constructor]|]. destruct (In' c Hcc) as [xs Hx].
  destruct (Nat.eqb_spec c row) as [E1|E1]; [rewrite (col_in _ _ _ N Hx); cbn [bind]; eexists; split; [reflexivity|now constructor]|].
  destruct (In' row Hr) as [ys Hy]. rewrite (col_in _ _ _ N Hx), (col_in _ _ _ N Hy). cbn [bind].
  replace (row =? length (wanted f var_names) - 1) with (S row =? length (wanted f var_names)).
  2:{ destruct (Nat.eqb_spec row (length (wanted f var_names) - 1)), (Nat.eqb_spec (S row) (length (wanted f var_names))); lia || reflexivity. }
  eexists. split; [reflexivity|]. constructor; [lia|assumption|assumption].
Qed.
(* a corner plot of one variable cannot be drawn *)
Theorem C155_corner_single_refuted f name v : In (name, v) f -> plot_corner V (Some f) (Some [name]) None = Err TypeError.
Proof.
  intro H. unfold plot_corner, corner_inputs. cbn [forallb]. assert (M : mem name (map fst f) = true) by (apply mem_iff; apply (in_map fst) in H; exact H).
  rewrite M. reflexivity.
Qed.
Theorem C155_corner_refused f var_names colorby : (exists n, In n (wanted f var_names) /\ ~ In n (map fst f)) \/ (exists k, colorby = Some k /\ ~ In k (map fst f)) \/ f = [] ->
  plot_corner V (Some f) var_names colorby = Err ValueError.
Proof.
  intro H. unfold plot_corner, corner_inputs.
  change (match var_names with None | Some [] => map fst f | Some l => l end) with (wanted f var_names).
  destruct (forallb (fun v => mem v (map fst f)) (wanted f var_names)) eqn:A; [|reflexivity]. cbn [negb]. rewrite forallb_forall in A.
  destruct H as [(n & H1 & H2)|[(k & -> & H2)| ->]].
  - apply A, mem_iff in H1. contradiction.
  - destruct (mem k (map fst f)) eqn:M; [apply mem_iff in M; contradiction|reflexivity].
  - destruct colorby as [k|]; [reflexivity|]. cbn [bind]. destruct (wanted [] var_names) as [|x l]; [reflexivity|]. specialize (A x (or_introl eq_refl)). discriminate A.
Qed.

(* ---- the heat map of a covariance matrix ---- *)
Definition value_at (t : table V) (r c : chars) (v : V) : Prop :=
  exists i j line, nth_error (index V t) i = Some r /\ nth_error (header V t) j = Some c /\ nth_error (cells V t) i = Some line /\ nth_error line j = Some v.
Definition square (t : table V) : Prop :=
  NoDup (index V t) /\ NoDup (header V t) /\ (forall x, In x (index V t) <-> In x (header V t)) /\
  length (cells V t) = length (index V t) /\ forall line, In line (cells V t) -> length line = length (header V t).
Lemma position_spec x l : In x l -> exists i, position x l = Ok i /\ nth_error l i = Some x.
Proof.
  induction l as [|y l IH]; [intros []|]. intro H. cbn [position]. destruct (chars_eqb x y) eqn:E; [apply chars_eqb_eq in E; subst; now exists 0|].
  destruct H as [->|H]; [rewrite chars_eqb_refl in E; discriminate E|]. destruct (IH H) as [i [E1 E2]]. rewrite E1. now exists (S i).
Qed.
Lemma position_none x l : ~ In x l -> position x l = Err KeyError.
Proof.
  induction l as [|y l IH]; intro H; [reflexivity|]. cbn [position]. destruct (chars_eqb x y) eqn:E; [apply chars_eqb_eq in E; subst; destruct H; now left|].
  rewrite IH; [reflexivity|]. intro X. apply H. now right.
Qed.
Lemma map_ok_nth {A B} (f : A -> result B) l : (forall x, In x l -> exists y, f x = Ok y) ->
  exists ys, map_ok f l = Ok ys /\ length ys = length l /\ forall i x, nth_error l i = Some x -> exists y, nth_error ys i = Some y /\ f x = Ok y.
Proof.
  induction l as [|a l IH]; intro H; cbn [map_ok]; [exists []; repeat split; intros [|i]; discriminate|].
  destruct (H a) as [y Hy]; [now left|]. destruct IH as (ys & E & L & N); [intros x Hx; apply H; now right|]. rewrite Hy. cbn [bind]. rewrite E. cbn [bind].
  exists (y :: ys). split; [reflexivity|]. split; [cbn [length]; congruence|]. intros [|i] x Hx; [injection Hx as <-; now exists y|]. now apply N.
Qed.
Lemma map_ok_err {A B} (f : A -> result B) l e : (exists x, In x l /\ f x = Err e) -> (forall x, In x l -> f x = Err e \/ exists y, f x = Ok y) -> map_ok f l = Err e.
Proof.
  induction l as [|a l IH]; [intros [x [[] _]]|]. intros (x & H & Hx) D. cbn [map_ok]. destruct (D a) as [E|[y E]]; [now left|now rewrite E|].
  rewrite E. cbn [bind]. rewrite IH; [reflexivity| |intros z Hz; apply D; now right]. destruct H as [->|H]; [congruence|]. now exists x.
Qed.
Lemma map_ok_length {A B} (f : A -> result B) l : forall ys, map_ok f l = Ok ys -> length ys = length l.
Proof.
  induction l as [|a l IH]; intros ys H; cbn [map_ok] in H; [now injection H as <-|]. destruct (f a); [|discriminate H]. cbn [bind] in H.
  destruct (map_ok f l) as [t|]; [|discriminate H]. injection H as <-. cbn [length]. now rewrite (IH t).
Qed.
Lemma nth_seq n i : i < n -> nth_error (seq 0 n) i = Some i.
Proof. intro H. rewrite (nth_error_nth' _ 0) by (now rewrite seq_length). now rewrite seq_nth. Qed.
Lemma value_unique t r c v w : square t -> value_at t r c v -> value_at t r c w -> v = w.
Proof.
  intros (N1 & N2 & _) (i & j & l & A1 & A2 & A3 & A4) (i' & j' & l' & B1 & B2 & B3 & B4).
  assert (i = i') by (rewrite NoDup_nth_error in N1; apply N1; [apply nth_error_Some; congruence|congruence]).
  assert (j = j') by (rewrite NoDup_nth_error in N2; apply N2; [apply nth_error_Some; congruence|congruence]). subst. congruence.
Qed.
(* the labels of both axes are the names in their order; in column j of row i is the covariance of the i-th and the j-th name, and nothing else *)
Theorem C155_covariance t names : square t -> (forall n, In n names -> In n (header V t)) ->
  exists h, plot_covariance_matrix V t (Some names) = Ok h /\
    xticks V h = combine (seq 0 (length names)) names /\ yticks V h = combine (seq 0 (length names)) names /\
    length (texts V h) = length names * length names /\
    forall j i v, In (j, i, v) (texts V h) <-> exists a b, nth_error names i = Some a /\ nth_error names j = Some b /\ value_at t a b v.
Proof.
  intros Sq Hn. assert (Sq' := Sq). destruct Sq' as (N1 & N2 & Same & Lc & Lr). unfold plot_covariance_matrix, loc.
  destruct (map_ok_nth (fun x => position x (index V t)) names) as (rows & E1 & L1 & R).
  { intros x Hx. destruct (position_spec x (index V t)) as [i [Hi _]]; [now apply Same, Hn|]. now exists i. }
  destruct (map_ok_nth (fun x => position x (header V t)) names) as (cols & E2 & L2 & C).
  { intros x Hx. destruct (position_spec x (header V t)) as [i [Hi _]]; [now apply Hn|]. now exists i. }
  rewrite E1, E2. cbn [bind].
  assert (P1 : forall i a, nth_error names i = Some a -> exists p, nth_error rows i = Some p /\ nth_error (index V t) p = Some a).
  { intros i a Ha. destruct (R i a Ha) as (p & H1 & H2). exists p. split; [exact H1|]. destruct (position_spec a (index V t)) as [q [Hq Hq']]; [apply Same, Hn, (nth_error_In _ _ Ha)|]. congruence. }
  assert (P2 : forall i a, nth_error names i = Some a -> exists p, nth_error cols i = Some p /\ nth_error (header V t) p = Some a).
  { intros i a Ha. destruct (C i a Ha) as (p & H1 & H2). exists p. split; [exact H1|]. destruct (position_spec a (header V t)) as [q [Hq Hq']]; [apply Hn, (nth_error_In _ _ Ha)|]. congruence. }
  assert (Q1 : forall p, In p rows -> p < length (index V t)).
  { intros p Hp. apply In_nth_error in Hp. destruct Hp as [i Hi]. assert (Li : i < length names) by (rewrite <- L1; apply nth_error_Some; congruence).
    destruct (nth_error names i) as [a|] eqn:Ea; [|apply nth_error_None in Ea; lia]. destruct (P1 i a Ea) as (p' & X1 & X2). assert (p' = p) by congruence. subst. apply nth_error_Some. congruence. }
  assert (Q2 : forall p, In p cols -> p < length (header V t)).
  { intros p Hp. apply In_nth_error in Hp. destruct Hp as [i Hi]. assert (Li : i < length names) by (rewrite <- L2; apply nth_error_Some; congruence).
    destruct (nth_error names i) as [a|] eqn:Ea; [|apply nth_error_None in Ea; lia]. destruct (P2 i a Ea) as (p' & X1 & X2). assert (p' = p) by congruence. subst. apply nth_error_Some. congruence. }
  assert (Cell : forall p q, In p rows -> In q cols -> exists line v, nth_error (cells V t) p = Some line /\ nth_error line q = Some v /\ cell V t p q = Ok v).
  { intros p q Hp Hq. unfold cell. destruct (nth_error (cells V t) p) as [line|] eqn:El; [|apply nth_error_None in El; specialize (Q1 p Hp); lia].
    destruct (nth_error line q) as [v|] eqn:Ev; [|apply nth_error_None in Ev; specialize (Q2 q Hq); rewrite (Lr line (nth_error_In _ _ El)) in Ev; lia]. now exists line, v. }
  destruct (map_ok_nth (fun i => map_ok (fun j => cell V t i j) cols) rows) as (cs & E3 & L3 & D).
  { intros p Hp. destruct (map_ok_nth (fun j => cell V t p j) cols) as (ys & E & _); [|now exists ys]. intros q Hq. destruct (Cell p q Hp Hq) as (line & v & _ & _ & Hv). now exists v. }
  rewrite E3. cbn [bind]. unfold plot_heatmap, ticks. cbn [cells header index]. rewrite L3, L1, Nat.eqb_refl. cbn [bind].
  set (n := length names).
  assert (Cell' : forall i j, i < n -> j < n -> exists a b v, nth_error names i = Some a /\ nth_error names j = Some b /\ value_at t a b v /\ cell V (Table V names names cs) i j = Ok v).
  { intros i j Hi Hj. destruct (nth_error names i) as [a|] eqn:Ea; [|apply nth_error_None in Ea; unfold n in Hi; lia]. destruct (nth_error names j) as [b|] eqn:Eb; [|apply nth_error_None in Eb; unfold n in Hj; lia].
    destruct (P1 i a Ea) as (p & Hp & Hp'). destruct (P2 j b Eb) as (q & Hq & Hq'). destruct (Cell p q (nth_error_In _ _ Hp) (nth_error_In _ _ Hq)) as (line & v & H1 & H2 & H3).
    exists a, b, v. split; [reflexivity|]. split; [reflexivity|]. split; [now exists p, q, line|]. unfold cell. cbn [cells].
    destruct (D i p Hp) as (ys & H4 & H5). rewrite H4.
    destruct (map_ok_nth (fun j => cell V t p j) cols) as (ys' & E & _ & D'). { intros q' Hq''. destruct (Cell p q' (nth_error_In _ _ Hp) Hq'') as (line' & v' & _ & _ & Hv). now exists v'. }
    rewrite E in H5. injection H5 as <-. destruct (D' j q Hq) as (w & H6 & H7). rewrite H6. congruence. }
  destruct (map_ok_nth (fun i => map_ok (fun j => v <- cell V (Table V names names cs) i j ;; Ok (j, i, v)) (seq 0 n)) (seq 0 n)) as (tx & E4 & L4 & D4).
  { intros i Hi. apply in_seq in Hi. destruct (map_ok_nth (fun j => v <- cell V (Table V names names cs) i j ;; Ok (j, i, v)) (seq 0 n)) as (ys & E & _); [|now exists ys].
    intros j Hj. apply in_seq in Hj. destruct (Cell' i j) as (a & b & v & _ & _ & _ & Hv); [lia|lia|]. rewrite Hv. now eexists. }
  rewrite E4. cbn [bind]. eexists. split; [reflexivity|]. cbn [xticks yticks texts]. split; [reflexivity|]. split; [reflexivity|].
  assert (Row : forall i line, nth_error tx i = Some line -> i < n /\ length line = n /\ forall x, In x line <-> exists j a b v, x = (j, i, v) /\ nth_error names i = Some a /\ nth_error names j = Some b /\ value_at t a b v).
  { intros i line Hl. assert (Hi : i < n) by (rewrite <- (seq_length n 0), <- L4; apply nth_error_Some; congruence). split; [exact Hi|].
    destruct (D4 i i (nth_seq n i Hi)) as (line' & H1 & H2). assert (line' = line) by congruence. subst line'.
    destruct (map_ok_nth (fun j => v <- cell V (Table V names names cs) i j ;; Ok (j, i, v)) (seq 0 n)) as (ys & E & Ly & Dy).
    { intros j Hj. apply in_seq in Hj. destruct (Cell' i j) as (a & b & v & _ & _ & _ & Hv); [lia|lia|]. rewrite Hv. now eexists. }
    rewrite E in H2. injection H2 as <-. split; [now rewrite Ly, seq_length|]. intro x. split.
    - intro Hx. apply In_nth_error in Hx. destruct Hx as [j Hj]. assert (Lj : j < n) by (rewrite <- (seq_length n 0), <- Ly; apply nth_error_Some; congruence).
      destruct (Dy j j (nth_seq n j Lj)) as (y & H3 & H4). destruct (Cell' i j Hi Lj) as (a & b & v & A1 & A2 & A3 & A4). rewrite A4 in H4. cbn [bind] in H4. injection H4 as <-.
      exists j, a, b, v. repeat split; try assumption. congruence.
    - intros (j & a & b & v & -> & A1 & A2 & A3). assert (Lj : j < n) by (apply nth_error_Some; congruence).
      destruct (Dy j j (nth_seq n j Lj)) as (y & H3 & H4). destruct (Cell' i j Hi Lj) as (a' & b' & w & B1 & B2 & B3 & B4).
      assert (a' = a) by congruence. assert (b' = b) by congruence. subst a' b'.
      assert (v = w) by (eapply (value_unique t a b); [exact Sq|exact A3|exact B3]). subst w. rewrite B4 in H4. cbn [bind] in H4. injection H4 as <-. exact (nth_error_In _ _ H3). }
  split.
  - assert (A : forall l : list (list (nat * nat * V)), (forall x, In x l -> length x = n) -> length (concat l) = length l * n).
    { induction l as [|x l IH]; intro H; [reflexivity|]. cbn [concat length]. rewrite app_length, IH, (H x) by (auto with datatypes). reflexivity. }
    rewrite A; [now rewrite L4, seq_length|]. intros x Hx. apply In_nth_error in Hx. destruct Hx as [i Hi]. now apply Row in Hi.
  - intros j i v. rewrite in_concat. split.
    + intros [line [H1 H2]]. apply In_nth_error in H1. destruct H1 as [i' Hi]. apply Row in Hi. destruct Hi as (_ & _ & Hi). apply Hi in H2.
      destruct H2 as (j' & a & b & v' & E & A1 & A2 & A3). injection E as -> -> ->. now exists a, b.
    + intros (a & b & A1 & A2 & A3). assert (Hi : i < n) by (apply nth_error_Some; congruence). destruct (nth_error tx i) as [line|] eqn:El; [|apply nth_error_None in El; rewrite L4, seq_length in El; lia].
      exists line. split; [exact (nth_error_In _ _ El)|]. apply (Row i line El). now exists j, a, b, v.
Qed.
Theorem C155_covariance_all t : plot_covariance_matrix V t None = plot_covariance_matrix V t (Some (header V t)).
Proof. reflexivity. Qed.
Theorem C155_covariance_unknown t names : (exists n, In n names /\ ~ In n (index V t)) -> plot_covariance_matrix V t (Some names) = Err KeyError.
Proof.
  intros (n & H & Hn). unfold plot_covariance_matrix, loc. rewrite (map_ok_err _ _ KeyError); [reflexivity| |].
  - exists n. split; [exact H|now apply position_none].
  - intros x _. destruct (in_dec (list_eq_dec ascii_dec) x (index V t)) as [X|X]; [right; destruct (position_spec x _ X) as [i [Hi _]]; now exists i|left; now apply position_none].
Qed.
(* a table that is not square cannot be drawn: the numbers of ticks are exchanged *)
Theorem C155_heatmap_refuted t : length (cells V t) <> length (header V t) -> plot_heatmap V t = Err ValueError.
Proof. intro H. unfold plot_heatmap, ticks. destruct (Nat.eqb_spec (length (cells V t)) (length (header V t))); [contradiction|reflexivity]. Qed.
End S.

(* ---- a case ---- *)
Definition demo_draws : draws nat :=
  Draws nat [(str "alpha", [1; 2; 3; 4]); (str "beta", [7; 7; 7; 7]); (str "rho", [5; 6; 7; 8]); (str "norm_stochastic", [0; 0; 1; 2])]
    (Some [None; Some (str "steady_state"); None; Some (str "perturbation")]).
Definition demo_constant (l : list nat) : bool := match l with x :: r => forallb (Nat.eqb x) r | [] => false end.
Ltac nd D := repeat (apply NoDup_cons; [cbn [In]; let X := fresh in intro X; repeat (destruct X as [X|X]; [apply D in X; [exact X|discriminate]|]); exact X|]); apply NoDup_nil.
Theorem C155_case :
  table_of_draws nat demo_draws [None; Some (str "steady_state"); None; Some (str "perturbation")] /\
  plottable nat demo_constant demo_draws (str "alpha") [1; 2; 3; 4] /\ plottable nat demo_constant demo_draws (str "rho") [5; 6; 7; 8] /\
  (forall v, ~ plottable nat demo_constant demo_draws (str "beta") v) /\
  plot_solvability nat demo_constant demo_draws None = Ok
    [[Panel nat (Density nat [(str "tab:blue", [1; 3]); (str "tab:red", [2; 4])]) None (Some (str "alpha")); Panel nat (Hidden nat) None None];
     [Panel nat (Scatter nat [Layer nat (str "tab:blue") [(1, 5); (3, 7)]; Layer nat (str "tab:red") [(2, 6)]; Layer nat (str "tab:orange") [(4, 8)]])
        (Some (str "alpha")) (Some (str "rho"));
      Panel nat (Density nat [(str "tab:blue", [5; 7]); (str "tab:red", [6; 8])]) (Some (str "rho")) None]] /\
  square nat (Table nat [str "y"; str "c"] [str "c"; str "y"] [[2; 1]; [3; 2]]).
Proof.
  assert (D : forall x y : string, x <> y -> str x <> str y).
  { intros x y H E. apply H. apply (f_equal string_of_list_ascii) in E. unfold str in E. now rewrite !string_of_list_ascii_of_string in E. }
  refine (conj _ (conj _ (conj _ (conj _ (conj _ _))))).
  - split; [reflexivity|]. split; [cbn [columns demo_draws map fst]; nd D|].
    cbn [columns demo_draws In]. intros n v H. repeat (destruct H as [H|H]; [injection H as _ <-; reflexivity|]). destruct H.
  - split; [now left|]. split; [reflexivity|]. cbn [In]. intro X. repeat (destruct X as [X|X]; [apply D in X; [exact X|discriminate]|]). exact X.
  - split; [right; right; now left|]. split; [reflexivity|]. cbn [In]. intro X. repeat (destruct X as [X|X]; [apply D in X; [exact X|discriminate]|]). exact X.
  - intros v (H & C & _). cbn [columns demo_draws In] in H.
    destruct H as [H|[H|[H|[H|[]]]]]; assert (E1 := f_equal fst H); assert (E2 := f_equal snd H); cbn [fst snd] in E1, E2; try (apply D in E1; [exact E1|discriminate]). subst v. discriminate C.
  - vm_compute. reflexivity.
  - split; [|split; [|split; [|split]]]; cbn [index header cells].
    + nd D.
    + nd D.
    + intro x. cbn [In]. tauto.
    + reflexivity.
    + intros line [<-|[<-|[]]]; reflexivity.
Qed.

(* the colour of a failure stage: known stages differ from each other and from the solvable draws *)
Theorem C155_colours :
  let table := [(str "steady_state", str "tab:red"); (str "perturbation", str "tab:orange"); (str "blanchard-kahn", str "tab:green");
                (str "deterministic_norm", str "tab:purple"); (str "stochastic_norm", str "tab:pink")] in
  (forall stage colour, In (stage, colour) table -> colour_of stage = colour) /\
  (forall stage, ~ In stage (map fst table) -> colour_of stage = str "tab:gray") /\
  (forall stage, colour_of stage <> str "tab:blue") /\
  (forall a b, In a (map fst table) -> a <> b -> colour_of a <> colour_of b).
Proof.
  assert (D : forall x, In x (map fst [(str "steady_state", str "tab:red"); (str "perturbation", str "tab:orange"); (str "blanchard-kahn", str "tab:green");
                (str "deterministic_norm", str "tab:purple"); (str "stochastic_norm", str "tab:pink")]) \/ colour_of x = str "tab:gray").
  { intro x. unfold colour_of. cbn [map fst In].
    repeat match goal with |- context [chars_eqb x ?y] => let E := fresh "E" in destruct (chars_eqb x y) eqn:E; [apply chars_eqb_eq in E; subst x; left; tauto|] end.
    right; reflexivity. }
  cbv zeta. refine (conj _ (conj _ (conj _ _))).
  - intros s c H. repeat (destruct H as [H|H]; [apply pair_equal_spec in H; destruct H as [<- <-]; vm_compute; reflexivity|]). destruct H.
  - intros s H. destruct (D s) as [I|E]; [destruct (H I)|exact E].
  - intros s. destruct (D s) as [I|E]; [|rewrite E; discriminate].
    cbn [map fst] in I. repeat (destruct I as [<-|I]; [vm_compute; discriminate|]). destruct I.
  - intros a b Ha Hne. destruct (D b) as [I|E].
    + cbn [map fst] in Ha, I.
      repeat (destruct Ha as [<-|Ha]; [revert Hne; repeat (destruct I as [<-|I]; [vm_compute; intros Hne X; (discriminate X || (now apply Hne))|]); destruct I|]). destruct Ha.
    + rewrite E. cbn [map fst] in Ha. repeat (destruct Ha as [<-|Ha]; [vm_compute; discriminate|]). destruct Ha.
Qed.
