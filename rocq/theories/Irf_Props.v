(* C162: figures of impulse responses, simulations and time series *)
From Verif Require Import Common Panel_Model Fig_Model Fig_Props Panel_Props Plots_Model Plots_Props Irf_Model.
From Coq Require Import QArith Lia.
Local Open Scope list_scope.
Local Open Scope nat_scope.

(* ---- specification ---- *)
(* the lines of a variable's panel: scenario after scenario, in each the shocks asked for; colour = the shock's, style = the scenario's *)
Definition lines_of {V} (m : list (chars * array V)) (v : chars) (ss : list chars) : list (nat * nat * V) :=
  flat_map (fun x : nat * (chars * array V) => map (fun js => (fst js, fst x mod 4, series (snd (snd x)) v (Some (snd js)))) (combine (seq 0 (length ss)) ss))
    (combine (seq 0 (length m)) m).
(* without shocks: one line per scenario *)
Definition lines_without {V} (m : list (chars * array V)) (v : chars) : list (nat * nat * V) :=
  map (fun x : nat * (chars * array V) => (0, fst x mod 4, series (snd (snd x)) v None)) (combine (seq 0 (length m)) m).
Definition as_drawn {V} (l : line V) : nat * nat * V := (colour l, style l, drawn l).
(* every scenario has the variables and the shocks *)
Definition have {V} (m : list (chars * array V)) (vs ss : list chars) : Prop :=
  forall n a, In (n, a) m -> (forall v, In v vs -> In v (a_variables a)) /\ exists own, a_shocks a = Some own /\ forall s, In s ss -> In s own.

(* ---- lemmas ---- *)
Lemma relabel_core {V} (ls : list (line V)) : forall ss, map as_drawn (relabel ls ss) = map as_drawn ls.
Proof. induction ls as [|l ls IH]; intros [|s ss]; cbn [relabel map]; try easy. now rewrite IH. Qed.
Lemma relabel_labels {V} (ls : list (line V)) : forall ss, length ss <= length ls -> map label (relabel ls ss) = map Some ss ++ skipn (length ss) (map label ls).
Proof.
  induction ls as [|l ls IH]; intros [|s ss] L.
  - reflexivity.
  - cbn [length] in L. lia.
  - reflexivity.
  - cbn [relabel map length skipn app label]. f_equal. apply IH. cbn [length] in L. lia.
Qed.
Lemma combine_length_seq {A} (l : list A) k : length (combine (seq k (length l)) l) = length l.
Proof. rewrite combine_length, seq_length. lia. Qed.
Lemma single_ok {V} (a : array V) v ss own sty ls : In v (a_variables a) -> a_shocks a = Some own -> (forall s, In s ss -> In s own) ->
  plot_single a v (Some ss) sty ls = Ok (relabel (ls ++ map (fun js => Line (fst js) sty (series a v (Some (snd js))) None) (combine (seq 0 (length ss)) ss)) ss).
Proof.
  intros Hv Ho Hs. unfold plot_single, selected. rewrite (proj2 (mem_iff _ _) Hv). cbn [negb]. rewrite Ho.
  replace (forallb (fun s => mem s own) ss) with true; [reflexivity|]. symmetry. apply forallb_forall. intros s I. apply mem_iff. auto.
Qed.
Lemma skipn_len {A} (a b : list A) n : n = length a -> skipn n (a ++ b) = b.
Proof. intros ->. now rewrite skipn_app, skipn_all, Nat.sub_diag. Qed.
Lemma panel_ok_from {V} v ss : forall (m : list (chars * array V)) i ls q, have m [v] ss -> map label ls = map Some ss ++ repeat None q ->
  exists ls', panel_lines m i v (Some ss) ls = Ok ls' /\
    map as_drawn ls' = map as_drawn ls ++ flat_map (fun x : nat * (chars * array V) => map (fun js => (fst js, fst x mod 4, series (snd (snd x)) v (Some (snd js)))) (combine (seq 0 (length ss)) ss)) (combine (seq i (length m)) m) /\
    map label ls' = map Some ss ++ repeat None (q + length m * length ss).
Proof.
  induction m as [|[n a] m IH]; intros i ls q H L.
  - exists ls. cbn [panel_lines length seq combine flat_map]. rewrite app_nil_r, Nat.add_0_r. auto.
  - cbn [panel_lines]. destruct (H n a (or_introl eq_refl)) as [Hv (own & Ho & Hs)]. rewrite (single_ok a v ss own) by (auto; apply Hv; now left). cbn [bind].
    set (new := map _ _). destruct (IH (S i) (relabel (ls ++ new) ss) (q + length ss)) as (ls' & E & C & B).
    + intros n' a' I. apply (H n' a'). now right.
    + rewrite relabel_labels.
      * rewrite map_app, L, <- app_assoc, skipn_len by (now rewrite map_length). f_equal. subst new. rewrite map_map. cbn [label]. rewrite repeat_app. f_equal.
        rewrite <- (combine_length_seq ss 0) at 2. generalize (combine (seq 0 (length ss)) ss). intro l. induction l as [|x l IHl]; [easy|]. cbn [map length repeat]. now f_equal.
      * rewrite app_length. apply (f_equal (@length _)) in L. rewrite app_length, !map_length in L. lia.
    + exists ls'. split; [exact E|]. split.
      * rewrite C, relabel_core, map_app, <- app_assoc. f_equal. cbn [length seq combine flat_map]. f_equal. subst new. now rewrite map_map.
      * rewrite B. cbn [length]. do 2 f_equal. lia.
Qed.
Lemma panel_ok {V} v ss (m : list (chars * array V)) n0 a0 r : m = (n0, a0) :: r -> have m [v] ss ->
  exists ls, panel_lines m 0 v (Some ss) [] = Ok ls /\ map as_drawn ls = lines_of m v ss /\ map label ls = map Some ss ++ repeat None (length r * length ss).
Proof.
  intros -> H. cbn [panel_lines]. destruct (H n0 a0 (or_introl eq_refl)) as [Hv (own & Ho & Hs)]. rewrite (single_ok a0 v ss own) by (auto; apply Hv; now left). cbn [bind app].
  set (new := map _ _). assert (length new = length ss) as Ln by (subst new; now rewrite map_length, combine_length_seq).
  destruct (panel_ok_from v ss r 1 (relabel new ss) 0) as (ls & E & C & B).
  - intros n a I. apply (H n a). now right.
  - rewrite relabel_labels by lia. rewrite skipn_all2; [reflexivity|]. rewrite map_length. lia.
  - exists ls. split; [exact E|]. split; [|exact B]. rewrite C, relabel_core. unfold lines_of. cbn [length seq combine flat_map]. f_equal. subst new. now rewrite map_map.
Qed.
Lemma panel_without_from {V} v : forall (m : list (chars * array V)) i ls, (forall n a, In (n, a) m -> In v (a_variables a) /\ a_shocks a = None) ->
  exists ls', panel_lines m i v None ls = Ok ls' /\ map as_drawn ls' = map as_drawn ls ++ map (fun x : nat * (chars * array V) => (0, fst x mod 4, series (snd (snd x)) v None)) (combine (seq i (length m)) m).
Proof.
  induction m as [|[n a] m IH]; intros i ls H.
  - exists ls. cbn. now rewrite app_nil_r.
  - cbn [panel_lines]. destruct (H n a (or_introl eq_refl)) as [Hv Ho]. unfold plot_single, selected. rewrite (proj2 (mem_iff _ _) Hv), Ho. cbn [negb bind].
    destruct (IH (S i) (ls ++ [Line 0 (i mod n_markers) (series a v None) None])) as (ls' & E & C); [intros n' a' I; apply (H n' a'); now right|].
    exists ls'. split; [exact E|]. rewrite C, map_app, <- app_assoc. reflexivity.
Qed.
Lemma request_of value available vs : resolve value available = Ok vs -> forall v, In v vs -> In v available.
Proof.
  destruct value as [|w|l|]; cbn [resolve]; [congruence| | |discriminate].
  - destruct (existsb (chars_eqb w) available) eqn:E; [|discriminate]. intro H. injection H as <-. intros v [<-|[]]. apply existsb_exists in E. destruct E as (y & Hy & Ey). apply chars_eqb_eq in Ey. now subst.
  - destruct (forallb (fun v => existsb (chars_eqb v) available) l) eqn:E; [|discriminate]. intro H. injection H as <-. intros v I. rewrite forallb_forall in E. specialize (E v I).
    apply existsb_exists in E. destruct E as (y & Hy & Ey). apply chars_eqb_eq in Ey. now subst.
Qed.
Lemma map_ok_titles {A B C} (f : A -> result B) (p : B -> C) (q : A -> C) (P : A -> B -> Prop) l : (forall x, In x l -> exists y, f x = Ok y /\ p y = q x /\ P x y) ->
  exists ys, map_ok f l = Ok ys /\ map p ys = map q l /\ Forall2 P l ys.
Proof.
  induction l as [|x l IH]; intro H; [exists []; split; [easy|split; [easy|constructor]]|]. destruct (H x (or_introl eq_refl)) as (y & E & Q & R).
  destruct IH as (ys & E1 & Q1 & R1); [intros z Z; apply H; now right|]. exists (y :: ys). cbn [map_ok]. rewrite E. cbn [bind]. rewrite E1. cbn [bind map]. split; [easy|]. split; [congruence|]. now constructor.
Qed.
Lemma map_ok_only {A B} (f : A -> result B) e l : (forall x e', f x = Err e' -> e' = e) -> (exists x, In x l /\ f x = Err e) -> map_ok f l = Err e.
Proof.
  intros H (x & I & E). induction l as [|a l IH]; [destruct I|]. cbn [map_ok]. destruct (f a) as [y|e'] eqn:Ea; cbn [bind]; [|f_equal; exact (H a e' Ea)].
  destruct I as [->|I]; [congruence|]. now rewrite (IH I).
Qed.
Lemma grid_exists (vs : list chars) n_cols : vs <> [] -> n_cols <> Some 0 -> exists locs rows last, irf_grid (length vs) n_cols = Ok (locs, rows, last) /\ length locs = length vs /\ length rows = length vs.
Proof.
  intros Hv Hn. destruct (proj2 (C138_irf_refused Everything vs n_cols) (conj Hn Hv)) as (panels & E). unfold plot_irf in E. cbn [resolve bind] in E.
  destruct (irf_grid (length vs) n_cols) as [[[locs rows] last]|] eqn:G; [|discriminate E]. exists locs, rows, last. split; [reflexivity|].
  destruct (irf_grid_shape _ _ _ _ _ G) as (nc & nr & g & _ & Ep & _ & _ & -> & _). split; [now destruct (C138_panels _ _ _ _ Ep)|now rewrite map_length, seq_length].
Qed.
Lemma combine_map_snd {A B} (l : list B) k (f : B -> A) : map (fun x : nat * B => f (snd x)) (combine (seq k (length l)) l) = map f l.
Proof. revert k. induction l as [|b l IH]; intro k; [easy|]. cbn. now rewrite IH. Qed.

(* ---- theorems: impulse responses ---- *)
(* how the scenarios are called *)
Theorem C162_scenarios {V} (a : array V) (l : list (array V)) (d : list (chars * array V)) :
  irf_to_mapping (Single a) = Ok [([], a)] /\ irf_to_mapping (Named d) = Ok d /\ irf_to_mapping (@OtherType V) = Err ValueError /\
  exists m, irf_to_mapping (Listed l) = Ok m /\ map snd m = l /\ forall i n, nth_error (map fst m) i = Some n -> n = str "Scenario " ++ dec (N.of_nat i).
Proof.
  refine (conj eq_refl (conj eq_refl (conj eq_refl _))). eexists. split; [reflexivity|]. split.
  - generalize 0. induction l as [|x l IH]; intro k; [easy|]. cbn. now rewrite IH.
  - intros i n. assert (forall (l : list (array V)) k, map fst (combine (map (fun i => str "Scenario " ++ dec (N.of_nat i)) (seq k (length l))) l) = map (fun i => str "Scenario " ++ dec (N.of_nat i)) (seq k (length l))) as X.
    { clear. induction l as [|x l IH]; intro k; [easy|]. cbn [length seq map combine fst]. now rewrite IH. }
    rewrite X. intro H. rewrite nth_error_map in H. destruct (nth_error (seq 0 (length l)) i) as [j|] eqn:E; [|discriminate H]. injection H as <-. do 3 f_equal.
    assert (i < length (seq 0 (length l))) as L by (apply nth_error_Some; congruence). rewrite seq_length in L. apply nth_error_nth with (d := 0) in E. rewrite seq_nth in E by exact L. cbn in E. now subst j.
Qed.
(* every panel shows its own variable: all scenarios in order, in each the shocks asked for, in their colours; the panels are those of C138;
   the legend's texts belong to the lines they stand beside, and so to every line of that colour *)
Theorem C162_irf {V} (x : irf V) m n0 a0 r vars shocks available vs ss n_cols legend :
  irf_to_mapping x = Ok m -> m = (n0, a0) :: r -> a_shocks a0 = Some available -> resolve vars (a_variables a0) = Ok vs -> resolve shocks available = Ok ss ->
  vs <> [] -> n_cols <> Some 0 -> have m vs ss ->
  exists panels texts, draw_irf x vars shocks n_cols legend = Ok (panels, texts) /\
    plot_irf vars (a_variables a0) n_cols = Ok (map (fun p => (p_title p, p_place p, p_ticks p)) panels) /\
    map p_title panels = vs /\
    Forall (fun p => map as_drawn (p_lines p) = lines_of m (p_title p) ss /\ map label (p_lines p) = map Some ss ++ repeat None (length r * length ss)) panels /\
    texts = (if legend then combine ss (firstn (length ss) (match panels with p :: _ => p_lines p | [] => [] end)) else []).
Proof.
  intros Hm Em Ha Hvs Hss Nv Nc H. destruct (grid_exists vs n_cols Nv Nc) as (locs & rows & last & G & Ll & Lr).
  unfold draw_irf, plot_irf. rewrite Hm, Hvs. cbn [bind]. unfold resolve_vars_and_shocks. rewrite Em, Hvs. cbn [bind]. rewrite Ha, Hss. cbn [bind fst snd]. rewrite G. cbn [bind]. rewrite <- Em.
  set (f := fun iv : nat * (chars * (loc * nat)) => _). set (xs := combine vs (combine locs rows)).
  assert (length xs = length vs) as Lx by (unfold xs; rewrite !combine_length; lia).
  destruct (map_ok_titles f (fun p => (p_title p, p_place p, p_ticks p)) (fun iv => (fst (snd iv), fst (snd (snd iv)), existsb (Nat.eqb (snd (snd (snd iv)))) last))
    (fun iv p => map as_drawn (p_lines p) = lines_of m (p_title p) ss /\ map label (p_lines p) = map Some ss ++ repeat None (length r * length ss)) (combine (seq 0 (length vs)) xs)) as (panels & E & T & F).
  { intros [i [v [place row]]] I. apply in_combine_r in I. assert (In v vs) as Iv by (now apply in_combine_l in I).
    destruct (panel_ok v ss m n0 a0 r Em) as (ls & El & C & B).
    - intros n a X. destruct (H n a X) as [H1 H2]. split; [|exact H2]. intros w [<-|[]]. auto.
    - unfold f. rewrite El. cbn [bind]. eexists. split; [reflexivity|]. split; [reflexivity|]. cbn [p_lines p_title]. auto. }
  rewrite E. cbn [bind]. eexists _, _. split; [reflexivity|].
  assert (map (fun iv : nat * (chars * (loc * nat)) => (fst (snd iv), fst (snd (snd iv)), existsb (Nat.eqb (snd (snd (snd iv)))) last)) (combine (seq 0 (length vs)) xs) =
          map (fun x => (fst x, fst (snd x), existsb (Nat.eqb (snd (snd x))) last)) xs) as T2.
  { rewrite <- Lx. apply (combine_map_snd xs 0 (fun x => (fst x, fst (snd x), existsb (Nat.eqb (snd (snd x))) last))). }
  rewrite T2 in T. split; [now rewrite T|]. split; [|split; [|reflexivity]].
  - transitivity (map (fun t => fst (fst t)) (map (fun p : irf_panel V => (p_title p, p_place p, p_ticks p)) panels)); [now rewrite map_map|]. rewrite T, map_map. cbn [fst]. unfold xs.
    assert (length (combine locs rows) = length vs) as X by (rewrite combine_length; lia). revert X. generalize (combine locs rows). clear. induction vs as [|v vs IH]; intros [|y ys] X; try easy. cbn. f_equal. apply IH. now injection X.
  - clear -F. induction F; constructor; auto.
Qed.
(* the scenario's own line style, in the first panel only *)
Theorem C162_scenario_legend {V} (m : list (chars * array V)) n0 a0 second r : m = (n0, a0) :: second :: r -> n0 <> [] ->
  scenario_legend m false = [] /\ map fst (scenario_legend m true) = map fst m /\ forall i n s, nth_error (scenario_legend m true) i = Some (n, s) -> s = i mod 4.
Proof.
  intros -> N. unfold scenario_legend. destruct (chars_eqb n0 []) eqn:E; [apply chars_eqb_eq in E; contradiction|]. split; [reflexivity|]. cbn [andb negb].
  set (m := (n0, a0) :: second :: r). split.
  - generalize 0. generalize m. clear. induction m as [|x m IH]; intro k; [easy|]. cbn [length seq map combine fst]. now rewrite IH.
  - intros i n s H. assert (i < length m) as L.
    { assert (nth_error (combine (map fst m) (map (fun i => i mod n_markers) (seq 0 (length m)))) i <> None) as X by congruence. apply nth_error_Some in X. rewrite combine_length, !map_length, seq_length in X. lia. }
    apply nth_error_In in H as I. destruct (nth_error (map (fun i => i mod n_markers) (seq 0 (length m))) i) as [s'|] eqn:Es.
    + destruct (nth_error (map fst m) i) as [n'|] eqn:En; [|apply nth_error_None in En; rewrite map_length in En; lia].
      rewrite (nth_combine _ _ i n' s' En Es) in H. injection H as _ <-. rewrite nth_error_map in Es. destruct (nth_error (seq 0 (length m)) i) as [j|] eqn:Ej; [|discriminate Es].
      injection Es as <-. apply nth_error_nth with (d := 0) in Ej. rewrite seq_nth in Ej by exact L. cbn in Ej. now subst j.
    + apply nth_error_None in Es. rewrite map_length, seq_length in Es. lia.
Qed.
(* from the fifth scenario on the styles repeat: the lines of two scenarios look the same *)
Theorem C162_five_scenarios_refuted {V} (m : list (chars * array V)) v ss j s a0 a4 :
  nth_error (map snd m) 0 = Some a0 -> nth_error (map snd m) 4 = Some a4 -> nth_error ss j = Some s ->
  In (j, 0, series a0 v (Some s)) (lines_of m v ss) /\ In (j, 0, series a4 v (Some s)) (lines_of m v ss).
Proof.
  assert (forall i a, nth_error (map snd m) i = Some a -> nth_error ss j = Some s -> i mod 4 = 0 -> In (j, 0, series a v (Some s)) (lines_of m v ss)) as X.
  { intros i a Hi Hj Z. unfold lines_of. apply in_flat_map. rewrite nth_error_map in Hi. destruct (nth_error m i) as [x|] eqn:Ex; [|discriminate Hi]. injection Hi as <-.
    assert (i < length m) as L by (apply nth_error_Some; congruence). assert (j < length ss) as Lj by (apply nth_error_Some; congruence).
    exists (i, x). split.
    - apply nth_error_In with (n := i). apply nth_combine; [|exact Ex]. rewrite nth_error_nth' with (d := 0) by (now rewrite seq_length). now rewrite seq_nth.
    - apply in_map_iff. exists (j, s). cbn [fst snd]. rewrite Z. split; [easy|]. apply nth_error_In with (n := j). apply nth_combine; [|exact Hj].
      rewrite nth_error_nth' with (d := 0) by (now rewrite seq_length). now rewrite seq_nth. }
  intros H0 H4 Hj. split; [now apply (X 0)|now apply (X 4)].
Qed.
Lemma lines_error {V} v shocks : forall (m : list (chars * array V)) i ls e, panel_lines m i v shocks ls = Err e -> e = KeyError.
Proof.
  induction m as [|[n a] m IH]; intros i ls e; cbn [panel_lines]; [discriminate|]. destruct (plot_single a v shocks (i mod n_markers) ls) as [l|e'] eqn:E; cbn [bind]; [apply IH|].
  intro H. injection H as <-. unfold plot_single in E. destruct (selected a v shocks) as [o|e''] eqn:S; [discriminate E|]. cbn [bind] in E. injection E as ->. unfold selected in S.
  destruct (negb (mem v (a_variables a))); [congruence|]. destruct shocks as [ss|], (a_shocks a) as [own|]; try congruence. destruct (forallb (fun s => mem s own) ss); congruence.
Qed.
Lemma lines_missing {V} v shocks n a : forall (m : list (chars * array V)) i ls, In (n, a) m ->
  (forall sty before_it, plot_single a v shocks sty before_it = Err KeyError) -> panel_lines m i v shocks ls = Err KeyError.
Proof.
  induction m as [|[n' a'] m IH]; intros i ls I H; [destruct I|]. cbn [panel_lines]. destruct (plot_single a' v shocks (i mod n_markers) ls) as [l|e] eqn:E; cbn [bind].
  - destruct I as [I|I]; [injection I as -> ->; now rewrite H in E|]. now apply IH.
  - f_equal. apply (lines_error v shocks [(n', a')] i ls). cbn [panel_lines]. now rewrite E.
Qed.
(* the first scenario decides what can be asked for: a variable or a shock that another one lacks raises KeyError *)
Theorem C162_missing_refuted {V} (x : irf V) m n0 a0 r vars shocks available vs ss n_cols legend n a v :
  irf_to_mapping x = Ok m -> m = (n0, a0) :: r -> a_shocks a0 = Some available -> resolve vars (a_variables a0) = Ok vs -> resolve shocks available = Ok ss ->
  n_cols <> Some 0 -> In (n, a) m -> In v vs -> ~ In v (a_variables a) \/ a_shocks a = None \/ (exists own s, a_shocks a = Some own /\ In s ss /\ ~ In s own) ->
  draw_irf x vars shocks n_cols legend = Err KeyError.
Proof.
  intros Hm Em Ha Hvs Hss Nc Ia Iv H. assert (vs <> []) as Nv by (intros ->; destruct Iv). destruct (grid_exists vs n_cols Nv Nc) as (locs & rows & last & G & Ll & Lr).
  assert (forall sty before_it, plot_single a v (Some ss) sty before_it = Err KeyError) as P.
  { intros sty b. unfold plot_single, selected. destruct H as [H|[H|(own & s & Ho & Is & Hs)]].
    - destruct (mem v (a_variables a)) eqn:E; [apply mem_iff in E; contradiction|reflexivity].
    - destruct (negb (mem v (a_variables a))); [reflexivity|]. now rewrite H.
    - destruct (negb (mem v (a_variables a))); [reflexivity|]. rewrite Ho. destruct (forallb (fun s => mem s own) ss) eqn:E; [|reflexivity]. exfalso. rewrite forallb_forall in E. apply Hs, mem_iff. auto. }
  unfold draw_irf. rewrite Hm. cbn [bind]. unfold resolve_vars_and_shocks. rewrite Em, Hvs. cbn [bind]. rewrite Ha, Hss. cbn [bind fst snd]. rewrite G. cbn [bind]. rewrite <- Em.
  match goal with |- context [map_ok ?f ?l] => rewrite (map_ok_only f KeyError l) end; [reflexivity| |].
  - intros [i [w [place row]]] e'. destruct (panel_lines m 0 w (Some ss) []) as [ls|e] eqn:E; cbn [bind]; [discriminate|]. intro X. injection X as <-. exact (lines_error _ _ _ _ _ _ E).
  - apply In_nth_error in Iv. destruct Iv as [k Hk]. assert (k < length vs) as L by (apply nth_error_Some; congruence).
    destruct (nth_error (combine locs rows) k) as [[place row]|] eqn:Ek; [|apply nth_error_None in Ek; rewrite combine_length in Ek; lia].
    exists (k, (v, (place, row))). split.
    + apply nth_error_In with (n := k). apply nth_combine; [rewrite nth_error_nth' with (d := 0) by (now rewrite seq_length); now rewrite seq_nth|]. now apply nth_combine.
    + rewrite (lines_missing v (Some ss) n a m 0 [] Ia P). reflexivity.
Qed.
(* nothing to draw *)
Theorem C162_empty_refuted {V} vars shocks n_cols legend : draw_irf (@Listed V []) vars shocks n_cols legend = Err StopIteration /\ draw_irf (@OtherType V) vars shocks n_cols legend = Err ValueError.
Proof. now split. Qed.
(* responses without shocks (to a path of shocks): one line per scenario *)
Theorem C162_without_shocks {V} v (m : list (chars * array V)) : (forall n a, In (n, a) m -> In v (a_variables a) /\ a_shocks a = None) ->
  exists ls, panel_lines m 0 v None [] = Ok ls /\ map as_drawn ls = lines_without m v.
Proof. intro H. destruct (panel_without_from v m 0 [] H) as (ls & E & C). exists ls. now split. Qed.

(* and the whole figure: the shocks asked for do not matter, and there is no legend of shocks *)
Theorem C162_irf_without {V} (x : irf V) m n0 a0 r vars shocks vs n_cols legend :
  irf_to_mapping x = Ok m -> m = (n0, a0) :: r -> resolve vars (a_variables a0) = Ok vs ->
  (forall n a, In (n, a) m -> a_shocks a = None /\ forall v, In v vs -> In v (a_variables a)) -> vs <> [] -> n_cols <> Some 0 ->
  exists panels, draw_irf x vars shocks n_cols legend = Ok (panels, []) /\
    plot_irf vars (a_variables a0) n_cols = Ok (map (fun p => (p_title p, p_place p, p_ticks p)) panels) /\
    map p_title panels = vs /\
    Forall (fun p => map as_drawn (p_lines p) = lines_without m (p_title p)) panels.
Proof.
  intros Hm Em Hvs H Nv Nc. destruct (grid_exists vs n_cols Nv Nc) as (locs & rows & last & G & Ll & Lr).
  assert (a_shocks a0 = None) as Ha by (apply (H n0); rewrite Em; now left).
  unfold draw_irf, plot_irf. rewrite Hm, Hvs. cbn [bind]. unfold resolve_vars_and_shocks. rewrite Em, Hvs. cbn [bind]. rewrite Ha. cbn [bind fst snd]. rewrite G. cbn [bind]. rewrite <- Em.
  set (f := fun iv : nat * (chars * (loc * nat)) => _). set (xs := combine vs (combine locs rows)).
  assert (length xs = length vs) as Lx by (unfold xs; rewrite !combine_length; lia).
  destruct (map_ok_titles f (fun p => (p_title p, p_place p, p_ticks p)) (fun iv => (fst (snd iv), fst (snd (snd iv)), existsb (Nat.eqb (snd (snd (snd iv)))) last))
    (fun iv p => map as_drawn (p_lines p) = lines_without m (p_title p)) (combine (seq 0 (length vs)) xs)) as (panels & E & T & F).
  { intros [i [v [place row]]] I. apply in_combine_r in I. assert (In v vs) as Iv by (now apply in_combine_l in I).
    destruct (C162_without_shocks v m) as (ls & El & C).
    - intros n a X. destruct (H n a X) as [H1 H2]. auto.
    - unfold f. rewrite El. cbn [bind]. eexists. split; [reflexivity|]. split; [reflexivity|]. cbn [p_lines p_title]. auto. }
  rewrite E. cbn [bind]. eexists. split; [reflexivity|].
  assert (map (fun iv : nat * (chars * (loc * nat)) => (fst (snd iv), fst (snd (snd iv)), existsb (Nat.eqb (snd (snd (snd iv)))) last)) (combine (seq 0 (length vs)) xs) =
          map (fun x => (fst x, fst (snd x), existsb (Nat.eqb (snd (snd x))) last)) xs) as T2.
  { rewrite <- Lx. apply (combine_map_snd xs 0 (fun x => (fst x, fst (snd x), existsb (Nat.eqb (snd (snd x))) last))). }
  rewrite T2 in T. split; [now rewrite T|]. split.
  - transitivity (map (fun t => fst (fst t)) (map (fun p : irf_panel V => (p_title p, p_place p, p_ticks p)) panels)); [now rewrite map_map|]. rewrite T, map_map. cbn [fst]. unfold xs.
    assert (length (combine locs rows) = length vs) as X by (rewrite combine_length; lia). revert X. generalize (combine locs rows). clear. induction vs as [|v vs IH]; intros [|y ys] X; try easy. cbn. f_equal. apply IH. now injection X.
  - clear -F. induction F; constructor; auto.
Qed.

Theorem C162_case_without : let a k := Arr [str "C"; str "Y"] None (fun v _ => (k, v)) in
  exists panels, draw_irf (Listed [a 1; a 2]) (Several [str "Y"; str "C"]) (One (str "e")) (Some 2) true = Ok (panels, []) /\
    map p_title panels = [str "Y"; str "C"] /\
    map (fun p => map as_drawn (p_lines p)) panels = [[(0, 0, (1, str "Y")); (0, 1, (2, str "Y"))]; [(0, 0, (1, str "C")); (0, 1, (2, str "C"))]].
Proof.
  cbv zeta. edestruct (C162_irf_without (Listed [Arr [str "C"; str "Y"] None (fun v _ => (1, v)); Arr [str "C"; str "Y"] None (fun v _ => (2, v))]) _ _ _ _ (Several [str "Y"; str "C"]) (One (str "e")) _ (Some 2) true eq_refl eq_refl eq_refl) as (panels & E & _ & T & F);
    [| | |exists panels].
  - intros n a [H|[H|[]]]; apply pair_equal_spec in H; destruct H as [_ <-]; (split; [reflexivity|]); intros v [<-|[<-|[]]]; cbn; auto.
  - discriminate.
  - discriminate.
  - split; [exact E|]. split; [exact T|]. destruct panels as [|p [|q [|]]]; cbn [map] in T; try discriminate T.
    assert (p_title p = str "Y") as Hp by congruence. assert (p_title q = str "C") as Hq by congruence.
    inversion F as [|? ? F1 F2]; subst. inversion F2 as [|? ? F3 _]; subst. cbn [map]. rewrite F1, F3, Hp, Hq. reflexivity.
Qed.

(* ---- theorems: time series and simulations ---- *)
Lemma lookup_ok {A} (d : list (chars * A)) v : In v (map fst d) -> exists y, lookup v d = Ok y /\ In (v, y) d.
Proof.
  intro I. destruct (lookup v d) as [y|e] eqn:E; [exists y; split; [easy|]; now apply lookup_found|]. exfalso. assert (e = KeyError) as -> by (revert E; clear; induction d as [|[n w] d IH]; cbn [lookup]; [congruence|]; destruct (chars_eqb v n); [discriminate|exact IH]).
  apply lookup_absent in E. contradiction.
Qed.
Definition requested (n : names) (all l : list chars) : Prop := match n with Default => l = all | These k => l = k | Text s => map (fun c => [c]) s = l end.
(* a panel for each variable asked for, in order and in the places of the grid, showing its own column *)
Theorem C162_timeseries {V} (df : list (chars * V)) vars n_cols vs :
  NoDup (map fst df) -> requested vars (map fst df) vs -> vs <> [] -> n_cols <> Some 0 -> (forall v, In v vs -> In v (map fst df)) ->
  exists fig g locs, plot_timeseries df vars n_cols = Ok fig /\ prepare_gridspec_figure (match n_cols with Some c => c | None => Nat.min 4 (length df) end) (length vs) = Ok (g, locs) /\
    map fst fig = combine vs locs /\ length fig = length vs /\ Forall (fun p => In (fst (fst p), snd p) df) fig.
Proof.
  intros N R Nv Nc H. assert (listed vars (map fst df) = vs) as E by (destruct vars; cbn in *; congruence).
  assert (0 < length vs) as Lv by (destruct vs; [easy|cbn; lia]). assert (0 < length df) as Ld by (destruct vs as [|v vs']; [easy|]; specialize (H v (or_introl eq_refl)); destruct df; [destruct H|cbn; lia]).
  destruct (prepared (match n_cols with Some c => c | None => Nat.min 4 (length df) end) (length vs)) as (g & locs & P & Ll); [destruct n_cols as [[|c]|]; [congruence|lia|lia]|exact Lv|].
  unfold plot_timeseries. cbv zeta. rewrite E, P. cbn [bind fst snd].
  destruct (map_ok_titles (fun vl : chars * loc => d <- lookup (fst vl) df ;; Ok (vl, d)) fst (fun x => x) (fun vl p => In (fst (fst p), snd p) df) (combine vs locs)) as (ys & E1 & E2 & E3).
  { intros [v l] I. apply in_combine_l in I. destruct (lookup_ok df v (H v I)) as (y & Ey & Iy). cbn [fst]. rewrite Ey. cbn [bind]. exists ((v, l), y). auto. }
  rewrite map_id in E2. exists ys, g, locs. rewrite E1. split; [easy|]. split; [easy|]. split; [exact E2|]. split.
  - apply (f_equal (@length _)) in E2. rewrite map_length, combine_length in E2. lia.
  - clear -E3. induction E3; constructor; auto.
Qed.
(* the name of one variable is taken for a list of names of one letter *)
Theorem C162_one_name_refuted {V} (df : list (chars * V)) s n_cols : s <> [] -> df <> [] -> n_cols <> Some 0 -> (forall c, ~ In [c] (map fst df)) ->
  plot_timeseries df (Text s) n_cols = Err KeyError.
Proof.
  intros Ns Nd Nc H. unfold plot_timeseries. cbv zeta. set (vs := listed (Text s) (map fst df)).
  destruct (prepared (match n_cols with Some c => c | None => Nat.min 4 (length df) end) (length vs)) as (g & locs & P & Ll);
    [destruct n_cols as [[|c]|]; [congruence|lia|destruct df; [easy|cbn; lia]]|subst vs; cbn [listed]; rewrite map_length; destruct s; [easy|cbn; lia]|].
  rewrite P. cbn [bind fst snd]. destruct s as [|c s]; [easy|]. cbn [map listed] in vs. subst vs. destruct locs as [|l locs]; [discriminate Ll|]. cbn [combine map_ok fst].
  rewrite (proj1 (lookup_absent [c] df)) by apply H. reflexivity.
Qed.
(* simulations: the same with the mean between the quantiles that cut off equal parts on both sides *)
Theorem C162_simulation {V} (sim : list (chars * V)) vars ci n_cols vs :
  NoDup (map fst sim) -> requested vars (map fst sim) vs -> vs <> [] -> n_cols <> Some 0 -> (forall v, In v vs -> In v (map fst sim)) ->
  exists fig g locs, plot_simulation sim vars ci n_cols = Ok fig /\ prepare_gridspec_figure (match n_cols with Some c => c | None => Nat.min 4 (length vs) end) (length vs) = Ok (g, locs) /\
    map fst fig = combine vs locs /\ length fig = length vs /\
    Forall (fun p => exists d, In (fst (fst p), d) sim /\ match ci with None => snd p = Lines d | Some c => exists lo hi, snd p = Band d lo hi /\ (hi - lo == c)%Q /\ (lo == 1 - hi)%Q end) fig.
Proof.
  intros N R Nv Nc H. assert (listed vars (map fst sim) = vs) as E by (destruct vars; cbn in *; congruence).
  assert (0 < length vs) as Lv by (destruct vs; [easy|cbn; lia]).
  destruct (prepared (match n_cols with Some c => c | None => Nat.min 4 (length vs) end) (length vs)) as (g & locs & P & Ll); [destruct n_cols as [[|c]|]; [congruence|lia|lia]|exact Lv|].
  unfold plot_simulation. cbv zeta. rewrite E, P. cbn [bind fst snd].
  match goal with |- context [map_ok ?f (combine vs locs)] => destruct (map_ok_titles f fst (fun x => x)
    (fun vl p => exists d, In (fst (fst p), d) sim /\ match ci with None => snd p = Lines d | Some c => exists lo hi, snd p = Band d lo hi /\ (hi - lo == c)%Q /\ (lo == 1 - hi)%Q end) (combine vs locs)) as (ys & E1 & E2 & E3) end.
  { intros [v l] I. apply in_combine_l in I. destruct (lookup_ok sim v (H v I)) as (y & Ey & Iy). cbn [fst]. rewrite Ey. eexists. split; [reflexivity|]. split; [reflexivity|].
    cbn [fst snd]. exists y. split; [exact Iy|]. destruct ci as [c|]; [|reflexivity]. eexists _, _. split; [reflexivity|]. split; field. }
  rewrite map_id in E2. exists ys, g, locs. rewrite E1. split; [easy|]. split; [easy|]. split; [exact E2|]. split.
  - apply (f_equal (@length _)) in E2. rewrite map_length, combine_length in E2. lia.
  - clear -E3. induction E3; constructor; auto.
Qed.
Theorem C162_simulation_refused {V} (sim : list (chars * V)) vs ci n_cols v : In v vs -> ~ In v (map fst sim) -> n_cols <> Some 0 -> plot_simulation sim (These vs) ci n_cols = Err ValueError.
Proof.
  intros Iv N Nc. assert (0 < length vs) as Lv by (destruct vs; [destruct Iv|cbn; lia]). unfold plot_simulation. cbv zeta. cbn [listed].
  destruct (prepared (match n_cols with Some c => c | None => Nat.min 4 (length vs) end) (length vs)) as (g & locs & P & Ll); [destruct n_cols as [[|c]|]; [congruence|lia|lia]|exact Lv|].
  rewrite P. cbn [bind fst snd]. apply map_ok_only.
  - intros [w l] e. cbn [fst]. destruct (lookup w sim); [discriminate|congruence].
  - apply In_nth_error in Iv. destruct Iv as [k Hk]. assert (k < length vs) as L by (apply nth_error_Some; congruence).
    destruct (nth_error locs k) as [l|] eqn:El; [|apply nth_error_None in El; lia]. exists (v, l). split; [apply nth_error_In with (n := k); now apply nth_combine|].
    cbn [fst]. now rewrite (proj1 (lookup_absent v sim) N).
Qed.

(* ---- two scenarios with two shocks ---- *)
Definition arr (k : nat) : array nat := Arr [str "Y"; str "C"] (Some [str "eA"; str "eB"]) (fun v s => k + (if chars_eqb v (str "Y") then 0 else 10) + match s with Some s => if chars_eqb s (str "eA") then 1 else 2 | None => 0 end).
Theorem C162_case : exists locC locY,
  draw_irf (Listed [arr 100; arr 200]) (Several [str "C"; str "Y"]) (Several [str "eB"; str "eA"]) None true =
    Ok ([IrfPanel (str "C") locC true [Line 0 0 112 (Some (str "eB")); Line 1 0 111 (Some (str "eA")); Line 0 1 212 None; Line 1 1 211 None] [(str "Scenario 0", 0); (str "Scenario 1", 1)];
         IrfPanel (str "Y") locY true [Line 0 0 102 (Some (str "eB")); Line 1 0 101 (Some (str "eA")); Line 0 1 202 None; Line 1 1 201 None] []],
        [(str "eB", Line 0 0 112 (Some (str "eB"))); (str "eA", Line 1 0 111 (Some (str "eA")))]) /\
  plot_timeseries [(str "GDP", 1); (str "CPI", 2)] (These [str "CPI"]) None = Ok [(str "CPI", ((0, 2), (1, 3)), 2)] /\
  plot_timeseries [(str "GDP", 1); (str "CPI", 2)] (Text (str "CPI")) None = Err KeyError.
Proof. eexists _, _. repeat split; reflexivity. Qed.
