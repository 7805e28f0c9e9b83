(* C138.  Panels of a figure. *)
From Verif Require Import Common Fig_Model.
From Coq Require Import Lia.
Local Open Scope list_scope.
Local Open Scope nat_scope.

(* ---- specification ---- *)
(* the cells of the grid a panel covers *)
Definition covers (l : loc) (r c : nat) : Prop := fst (fst l) <= r < snd (fst l) /\ fst (snd l) <= c < snd (snd l).
(* panel b is right below panel a: the rows that follow, the same columns *)
Definition below (a b : loc) : Prop := fst (fst b) = snd (fst a) /\ snd b = snd a.

(* ---- the k-th place ---- *)
Definition place (n_cols n_plots k : nat) : loc :=
  let i := k / n_cols in let j := k mod n_cols in
  let pad := if k <? n_plots / n_cols * n_cols then 0 else n_cols - n_plots mod n_cols in
  ((i * 2, (i + 1) * 2), (pad + j * 2, pad + (j + 1) * 2)).

Lemma product_seq b : 0 < b -> forall a, product a b = map (fun k => (k / b, k mod b)) (seq 0 (a * b)).
Proof.
  intros Hb a. unfold product. assert (forall s, flat_map (fun i => map (fun j => (i, j)) (seq 0 b)) (seq s a) = map (fun k => (k / b, k mod b)) (seq (s * b) (a * b))) as Q.
  { induction a as [|a IH]; intros s; [easy|]. cbn [seq flat_map]. rewrite IH. replace (S a * b) with (b + a * b) by lia. rewrite seq_app, map_app. f_equal.
    - rewrite <- (Nat.add_0_r (s * b)) at 1. clear IH. 
      assert (forall n o, o + n <= b -> map (fun j => (s, j)) (seq o n) = map (fun k => (k / b, k mod b)) (seq (s * b + o) n)) as P.
      { induction n as [|n IHn]; intros o Ho; [easy|]. cbn [seq map]. rewrite (IHn (S o)) by lia. f_equal.
        - rewrite Nat.add_comm, Nat.div_add, Nat.mod_add, Nat.div_small, Nat.mod_small by lia. reflexivity.
        - now replace (s * b + S o) with (S (s * b + o)) by lia. }
      apply P. lia.
    - f_equal. f_equal. lia. }
  apply (Q 0).
Qed.

Lemma locs_place n_cols n_plots g locs : prepare_gridspec_figure n_cols n_plots = Ok (g, locs) ->
  0 < n_cols /\ 0 < n_plots /\ locs = map (place n_cols n_plots) (seq 0 n_plots) /\
  g = GS (2 * (n_plots / n_cols + if 0 <? n_plots mod n_cols then 1 else 0)) (2 * n_cols).
Proof.
  unfold prepare_gridspec_figure. destruct (n_cols =? 0) eqn:E0; [discriminate|]. apply Nat.eqb_neq in E0.
  set (hr := if 0 <? n_plots mod n_cols then 1 else 0). destruct (n_plots / n_cols + hr =? 0) eqn:E1; [discriminate|]. apply Nat.eqb_neq in E1.
  intros H. injection H as <- <-.
  assert (n_plots = n_plots / n_cols * n_cols + n_plots mod n_cols) as Hdm by (rewrite Nat.mul_comm; now apply Nat.div_mod).
  assert (n_plots mod n_cols < n_cols) as Hlt by now apply Nat.mod_upper_bound.
  refine (conj _ (conj _ (conj _ eq_refl))); [lia| |].
  { destruct n_plots; [|lia]. exfalso. apply E1. unfold hr. rewrite Nat.div_0_l, Nat.mod_0_l by auto. reflexivity. }
  replace (n_plots / n_cols + hr - hr) with (n_plots / n_cols) by lia.
  rewrite product_seq by lia. rewrite map_map.
  replace (seq 0 n_plots) with (seq 0 (n_plots / n_cols * n_cols + n_plots mod n_cols)) by (f_equal; lia). rewrite seq_app, map_app. f_equal.
  - apply map_ext_in. intros k Hk. apply in_seq in Hk. unfold place. cbn [fst snd]. destruct (k <? _) eqn:E; [|apply Nat.ltb_ge in E; lia]. f_equal.
  - unfold hr. destruct (0 <? n_plots mod n_cols) eqn:E.
    + cbn [Nat.add]. apply Nat.ltb_lt in E. rewrite <- (Nat.add_0_r (n_plots / n_cols * n_cols)).
      assert (forall n o, o + n <= n_plots mod n_cols ->
        map (fun j => (((n_plots / n_cols + 1 - 1) * 2, (n_plots / n_cols + 1) * 2), (n_cols - n_plots mod n_cols + j * 2, n_cols - n_plots mod n_cols + (j + 1) * 2))) (seq o n)
        = map (place n_cols n_plots) (seq (n_plots / n_cols * n_cols + o) n)) as P.
      { induction n as [|n IHn]; intros o Ho; [easy|]. cbn [seq map]. rewrite (IHn (S o)) by lia. replace (n_plots / n_cols * n_cols + S o) with (S (n_plots / n_cols * n_cols + o)) by lia. f_equal.
        unfold place. assert ((n_plots / n_cols * n_cols + o) / n_cols = n_plots / n_cols) as -> by (rewrite Nat.add_comm, Nat.div_add, Nat.div_small by lia; lia).
        assert ((n_plots / n_cols * n_cols + o) mod n_cols = o) as -> by (rewrite Nat.add_comm, Nat.mod_add, Nat.mod_small by lia; lia).
        destruct (_ <? _) eqn:El; [apply Nat.ltb_lt in El; lia|]. f_equal. f_equal; lia. }
      rewrite <- P by lia. reflexivity.
    + apply Nat.ltb_ge in E. replace (n_plots mod n_cols) with 0 by lia. reflexivity.
Qed.
Lemma nth_place n_cols n_plots locs k d : locs = map (place n_cols n_plots) (seq 0 n_plots) -> k < n_plots -> nth k locs d = place n_cols n_plots k.
Proof. intros -> Hk. erewrite nth_indep by (rewrite map_length, seq_length; exact Hk). rewrite map_nth with (d := 0). now rewrite seq_nth. Qed.

(* There is exactly one panel per plot, each two cells high and wide, inside a grid with as few rows as possible. *)
Theorem C138_panels n_cols n_plots g locs : prepare_gridspec_figure n_cols n_plots = Ok (g, locs) ->
  length locs = n_plots /\
  g_cols g = 2 * n_cols /\ n_plots * 2 <= g_rows g * n_cols < (n_plots + n_cols) * 2 /\
  forall l, In l locs -> snd (fst l) = fst (fst l) + 2 /\ snd (snd l) = fst (snd l) + 2 /\ snd (fst l) <= g_rows g /\ snd (snd l) <= g_cols g.
Proof.
  intros H. destruct (locs_place _ _ _ _ H) as (Hc & Hp & -> & ->). cbn [g_rows g_cols].
  pose proof (Nat.div_mod n_plots n_cols ltac:(lia)) as Hdm. pose proof (Nat.mod_upper_bound n_plots n_cols ltac:(lia)) as Hlt.
  refine (conj _ (conj eq_refl (conj _ _))).
  - now rewrite map_length, seq_length.
  - destruct (0 <? n_plots mod n_cols) eqn:E; [apply Nat.ltb_lt in E|apply Nat.ltb_ge in E]; nia.
  - intros l Hl. apply in_map_iff in Hl. destruct Hl as (k & <- & Hk). apply in_seq in Hk. unfold place. cbn [fst snd].
    pose proof (Nat.div_mod k n_cols ltac:(lia)) as Hk2. pose proof (Nat.mod_upper_bound k n_cols ltac:(lia)) as Hk3.
    refine (conj _ (conj _ (conj _ _))); [lia|destruct (_ <? _); lia| |].
    + assert (k / n_cols <= n_plots / n_cols) by (apply Nat.div_le_mono; lia).
      destruct (0 <? n_plots mod n_cols) eqn:E; [lia|]. apply Nat.ltb_ge in E. assert (k / n_cols <> n_plots / n_cols) by nia. lia.
    + destruct (k <? n_plots / n_cols * n_cols) eqn:E; [lia|]. apply Nat.ltb_ge in E.
      assert (k / n_cols = n_plots / n_cols). { apply Nat.le_antisymm; [apply Nat.div_le_mono; lia|]. apply Nat.div_le_lower_bound; lia. }
      assert (k mod n_cols < n_plots mod n_cols) by nia. lia.
Qed.

(* No two panels overlap, and they follow reading order: along a row from left to right, then the next row. *)
Theorem C138_disjoint n_cols n_plots g locs i j d : prepare_gridspec_figure n_cols n_plots = Ok (g, locs) ->
  i < j < n_plots ->
  (snd (fst (nth i locs d)) <= fst (fst (nth j locs d)) \/
   (fst (nth i locs d) = fst (nth j locs d) /\ snd (snd (nth i locs d)) <= fst (snd (nth j locs d)))) /\
  forall r c, ~ (covers (nth i locs d) r c /\ covers (nth j locs d) r c).
Proof.
  intros H Hij. destruct (locs_place _ _ _ _ H) as (Hc & Hp & E & _). rewrite !(nth_place _ _ _ _ _ E) by lia.
  assert (snd (fst (place n_cols n_plots i)) <= fst (fst (place n_cols n_plots j)) \/
   (fst (place n_cols n_plots i) = fst (place n_cols n_plots j) /\ snd (snd (place n_cols n_plots i)) <= fst (snd (place n_cols n_plots j)))) as Q.
  { unfold place. cbn [fst snd]. pose proof (Nat.div_mod i n_cols ltac:(lia)) as Hi. pose proof (Nat.div_mod j n_cols ltac:(lia)) as Hj.
    pose proof (Nat.mod_upper_bound i n_cols ltac:(lia)). pose proof (Nat.mod_upper_bound j n_cols ltac:(lia)).
    assert (i / n_cols <= j / n_cols) by (apply Nat.div_le_mono; lia).
    destruct (Nat.eq_dec (i / n_cols) (j / n_cols)) as [Eq|Ne]; [right|left; lia]. split; [now rewrite Eq|].
    assert (i mod n_cols < j mod n_cols) by nia.
    assert ((i <? n_plots / n_cols * n_cols) = (j <? n_plots / n_cols * n_cols)) as ->; [|destruct (_ <? _); lia].
    apply Bool.eq_iff_eq_true. rewrite !Nat.ltb_lt. split; intros Hl.
    - assert (i / n_cols < n_plots / n_cols) by (apply Nat.div_lt_upper_bound; lia). nia.
    - lia. }
  split; [exact Q|]. intros r c [[A1 A2] [B1 B2]]. destruct Q as [Q|[Q1 Q2]]; [lia|]. rewrite Q1 in *. lia.
Qed.

(* The last row is centred: as much room to its left as to its right. *)
Theorem C138_last_row_centred n_cols n_plots g locs d : prepare_gridspec_figure n_cols n_plots = Ok (g, locs) ->
  forall first, first < n_plots -> fst (fst (nth first locs d)) + 2 = g_rows g ->
    (forall k, k < first -> fst (fst (nth k locs d)) + 2 <> g_rows g) ->
    fst (snd (nth first locs d)) + snd (snd (nth (n_plots - 1) locs d)) = g_cols g /\
    snd (fst (nth (n_plots - 1) locs d)) = g_rows g.
Proof.
  intros H first Hf Hrow Hmin. destruct (locs_place _ _ _ _ H) as (Hc & Hp & E & ->). cbn [g_rows g_cols] in *.
  rewrite (nth_place _ _ _ _ _ E) in Hrow by lia. rewrite !(nth_place _ _ _ _ _ E) by lia.
  pose proof (Nat.div_mod n_plots n_cols ltac:(lia)) as Hdm. pose proof (Nat.mod_upper_bound n_plots n_cols ltac:(lia)) as Hlt.
  pose proof (Nat.div_mod first n_cols ltac:(lia)) as Hd1. pose proof (Nat.mod_upper_bound first n_cols ltac:(lia)) as Hl1.
  pose proof (Nat.div_mod (n_plots - 1) n_cols ltac:(lia)) as Hd2. pose proof (Nat.mod_upper_bound (n_plots - 1) n_cols ltac:(lia)) as Hl2.
  unfold place in *. cbn [fst snd] in *.
  assert (first mod n_cols = 0) as Hz.
  { destruct (Nat.eq_dec (first mod n_cols) 0) as [|Hne]; [auto|]. exfalso. apply (Hmin (first - 1)); [lia|].
    rewrite (nth_place _ _ _ _ _ E) by lia. unfold place. cbn [fst snd].
    assert ((first - 1) / n_cols = first / n_cols) as -> by (symmetry; apply (Nat.div_unique _ _ _ (first mod n_cols - 1)); lia). exact Hrow. }
  destruct (0 <? n_plots mod n_cols) eqn:Er.
  - apply Nat.ltb_lt in Er. assert (first / n_cols = n_plots / n_cols) as Hq by lia.
    assert ((n_plots - 1) / n_cols = n_plots / n_cols) as Hq2 by (symmetry; apply (Nat.div_unique _ _ _ (n_plots mod n_cols - 1)); lia).
    assert ((n_plots - 1) mod n_cols = n_plots mod n_cols - 1) as Hm by nia.
    rewrite Hz, Hm, Hq2. destruct (first <? _) eqn:E1; [apply Nat.ltb_lt in E1; nia|]. destruct (n_plots - 1 <? _) eqn:E2; [apply Nat.ltb_lt in E2; nia|]. lia.
  - apply Nat.ltb_ge in Er. assert (first / n_cols = n_plots / n_cols - 1) as Hq by lia.
    assert (0 < n_plots / n_cols) as Hpos by nia.
    assert ((n_plots - 1) / n_cols = n_plots / n_cols - 1) as Hq2 by (symmetry; apply (Nat.div_unique _ _ _ (n_cols - 1)); nia).
    assert ((n_plots - 1) mod n_cols = n_cols - 1) as Hm by nia.
    rewrite Hz, Hm, Hq2. destruct (first <? _) eqn:E1; [|apply Nat.ltb_ge in E1; nia]. destruct (n_plots - 1 <? _) eqn:E2; [|apply Nat.ltb_ge in E2; nia]. lia.
Qed.

(* A grid is refused exactly when there are no columns or no panels. *)
Theorem C138_refused n_cols n_plots : (exists g locs, prepare_gridspec_figure n_cols n_plots = Ok (g, locs)) <-> 0 < n_cols /\ 0 < n_plots.
Proof.
  split. { intros (g & locs & H). destruct (locs_place _ _ _ _ H) as (A & B & _). auto. }
  intros [A B]. unfold prepare_gridspec_figure. destruct (n_cols =? 0) eqn:E; [apply Nat.eqb_eq in E; lia|].
  destruct (_ + _ =? 0) eqn:E1; [|eauto]. apply Nat.eqb_eq in E1. exfalso.
  pose proof (Nat.div_mod n_plots n_cols ltac:(lia)). destruct (0 <? n_plots mod n_cols) eqn:E2; [lia|]. apply Nat.ltb_ge in E2. nia.
Qed.

Lemma filter_id {A} (p : A -> bool) l : (forall x, In x l -> p x = true) -> filter p l = l.
Proof. induction l as [|x l IH]; cbn; intros H; [easy|]. rewrite H by auto. f_equal. auto. Qed.
Lemma filter_empty {A} (p : A -> bool) l : (forall x, In x l -> p x = false) -> filter p l = [].
Proof. induction l as [|x l IH]; cbn; intros H; [easy|]. rewrite H by auto. auto. Qed.
Lemma rev_seq n : rev (seq 0 (S n)) = n :: rev (seq 0 n).
Proof. rewrite seq_S, rev_app_distr. reflexivity. Qed.
Lemma count_le (l : list nat) x : count_occ Nat.eq_dec l x <= length l.
Proof. induction l as [|y l IH]; cbn; [lia|]. destruct (Nat.eq_dec y x); lia. Qed.

Lemma irf_grid_shape n_plots nc locs rows last : irf_grid n_plots nc = Ok (locs, rows, last) ->
  exists n_cols n_rows g, n_cols = match nc with None => Nat.min 4 n_plots | Some c => c end /\
    prepare_gridspec_figure n_cols n_plots = Ok (g, locs) /\ g_rows g = 2 * n_rows /\ 0 < n_rows /\
    rows = map (fun k => k / n_cols) (seq 0 n_plots) /\
    (forall i, i < n_rows -> ~ In i last -> S i < n_rows /\ (n_plots mod n_cols = 0 \/ S (S i) < n_rows)).
Proof.
  unfold irf_grid. set (n_cols := match nc with None => Nat.min 4 n_plots | Some c => c end).
  destruct (prepare_gridspec_figure n_cols n_plots) as [[g ls]|] eqn:E; [|discriminate]. cbn [bind fst snd].
  destruct (locs_place _ _ _ _ E) as (Hc & Hp & -> & Eg).
  assert (map (fun l : loc => snd (fst l) / 2 - 1) (map (place n_cols n_plots) (seq 0 n_plots)) = map (fun k => k / n_cols) (seq 0 n_plots)) as ->.
  { rewrite map_map. apply map_ext. intros k. unfold place. cbn [fst snd]. rewrite Nat.div_mul by lia. lia. }
  set (ridx := map (fun k => k / n_cols) (seq 0 n_plots)).
  set (nr := n_plots / n_cols + (if 0 <? n_plots mod n_cols then 1 else 0)) in *.
  pose proof (Nat.div_mod n_plots n_cols ltac:(lia)) as Hdm. pose proof (Nat.mod_upper_bound n_plots n_cols ltac:(lia)) as Hlt.
  assert (forall i, In i ridx <-> i < nr) as Hin.
  { intros i. unfold ridx, nr. rewrite in_map_iff. split.
    - intros (k & <- & Hk). apply in_seq in Hk. pose proof (Nat.div_mod k n_cols ltac:(lia)). pose proof (Nat.mod_upper_bound k n_cols ltac:(lia)).
      assert (k / n_cols <= n_plots / n_cols) by (apply Nat.div_le_mono; lia).
      destruct (0 <? n_plots mod n_cols) eqn:Er; [lia|]. apply Nat.ltb_ge in Er. assert (k / n_cols <> n_plots / n_cols) by nia. lia.
    - intros Hi. exists (i * n_cols). split; [apply Nat.div_mul; lia|]. apply in_seq. destruct (0 <? n_plots mod n_cols) eqn:Er; [apply Nat.ltb_lt in Er|apply Nat.ltb_ge in Er]; nia. }
  assert (filter (fun i => existsb (Nat.eqb i) ridx) (seq 0 (g_rows g)) = seq 0 nr) as ->.
  { rewrite Eg. cbn [g_rows]. replace (2 * nr) with (nr + nr) by lia. rewrite seq_app, filter_app, filter_id, filter_empty, app_nil_r; [easy| |].
    - intros i Hi. apply in_seq in Hi. destruct (existsb _ _) eqn:Ex; [|easy]. apply existsb_exists in Ex. destruct Ex as (y & Hy & Ey).
      apply Nat.eqb_eq in Ey. subst y. apply Hin in Hy. lia.
    - intros i Hi. apply in_seq in Hi. apply existsb_exists. exists i. split; [apply Hin; lia|apply Nat.eqb_refl]. }
  set (sq := forallb (fun i => count_occ Nat.eq_dec ridx i =? n_cols) (seq 0 nr)).
  assert (sq = true -> n_plots mod n_cols = 0) as Hsq.
  { unfold sq. rewrite forallb_forall. intros Hs. destruct (Nat.eq_dec (n_plots mod n_cols) 0) as [|Hne]; [auto|exfalso].
    assert (nr = n_plots / n_cols + 1) as Enr by (unfold nr; destruct (0 <? n_plots mod n_cols) eqn:Er; [easy|apply Nat.ltb_ge in Er; lia]).
    specialize (Hs (n_plots / n_cols)). rewrite Nat.eqb_eq in Hs. assert (count_occ Nat.eq_dec ridx (n_plots / n_cols) = n_cols) as Hcnt by (apply Hs, in_seq; lia).
    revert Hcnt. unfold ridx. replace (seq 0 n_plots) with (seq 0 (n_plots / n_cols * n_cols + n_plots mod n_cols)) by (f_equal; lia).
    rewrite seq_app, map_app, count_occ_app.
    assert (count_occ Nat.eq_dec (map (fun k => k / n_cols) (seq 0 (n_plots / n_cols * n_cols))) (n_plots / n_cols) = 0) as ->.
    { apply count_occ_not_In. rewrite in_map_iff. intros (k & Ek & Hk). apply in_seq in Hk.
      assert (k / n_cols < n_plots / n_cols) by (apply Nat.div_lt_upper_bound; lia). lia. }
    pose proof (count_le (map (fun k => k / n_cols) (seq (0 + n_plots / n_cols * n_cols) (n_plots mod n_cols))) (n_plots / n_cols)) as Hle.
    rewrite map_length, seq_length in Hle. lia. }
  assert (0 < nr) as Hnr by (apply Nat.neq_0_lt_0; intros Z; specialize (proj1 (Hin 0)); intros Q; assert (In 0 ridx) as H0; [unfold ridx; apply in_map_iff; exists 0; split; [apply Nat.div_small; lia|apply in_seq; lia]|apply Q in H0; lia]).
  destruct nr as [|n] eqn:En; [lia|]. rewrite rev_seq. intros H. injection H as <- <- <-.
  exists n_cols, (S n), g. refine (conj eq_refl (conj E (conj _ (conj _ (conj eq_refl _))))); [now rewrite Eg|lia|].
  intros i Hi Hn. destruct sq eqn:Es.
  - assert (i <> n) by (intros ->; apply Hn; now left). split; [lia|]. left. now apply Hsq.
  - destruct n as [|n'].
    + cbn [seq rev] in Hn. exfalso. apply Hn. left. lia.
    + rewrite rev_seq in Hn. cbn [In] in Hn. split; [lia|right; lia].
Qed.

(* plot_irf draws one panel per requested variable, in the order asked for, each in its own place; a panel without tick
   labels on its time axis has another panel right below it. *)
Theorem C138_irf value variables n_cols panels : plot_irf value variables n_cols = Ok panels ->
  map (fun x => fst (fst x)) panels = match value with Everything => variables | One v => [v] | Several l => l | Other => [] end /\
  NoDup (map (fun x => snd (fst x)) panels) /\
  (forall v l, In (v, l, false) panels -> exists v' l' s, In (v', l', s) panels /\ below l l').
Proof.
  unfold plot_irf. destruct (resolve value variables) as [vs|] eqn:Ev; [|discriminate]. cbn [bind].
  destruct (irf_grid (length vs) n_cols) as [[[locs rows] last]|] eqn:Eg; [|discriminate]. cbn [bind]. intros H. injection H as <-.
  destruct (irf_grid_shape _ _ _ _ _ Eg) as (nc & nr & g & _ & Ep & Hg & Hnr & -> & Hlast).
  destruct (locs_place _ _ _ _ Ep) as (Hc & Hp & El & Eg2). set (n := length vs) in *.
  assert (length locs = n) as Hll by (rewrite El, map_length, seq_length; easy).
  assert (combine locs (map (fun k => k / nc) (seq 0 n)) = map (fun k => (place nc n k, k / nc)) (seq 0 n)) as Ec.
  { rewrite El. generalize (seq 0 n). intros l. induction l as [|x l IH]; [easy|]. cbn. now rewrite IH. }
  rewrite Ec. clear Ec.
  refine (conj _ (conj _ _)).
  - rewrite map_map. cbn [fst snd]. assert (forall (B : Type) (a : list chars) (b : list B), length a = length b -> map (fun x => fst x) (combine a b) = a) as Q.
    { intros B a. induction a as [|x a IH]; intros [|y b]; cbn; try easy. intros Hl. f_equal. apply IH. lia. }
    rewrite Q by (rewrite map_length, seq_length; easy). destruct value; cbn in Ev.
    + now injection Ev.
    + destruct (existsb _ _); [now injection Ev|discriminate].
    + destruct (forallb _ _); [now injection Ev|discriminate].
    + discriminate.
  - rewrite map_map. cbn [fst snd].
    assert (forall (a : list chars) (b : list (loc * nat)), length a = length b -> map (fun x => fst (snd x)) (combine a b) = map fst b) as Q.
    { intros a. induction a as [|x a IH]; intros [|y b]; cbn; try easy. intros Hl. f_equal. apply IH. lia. }
    rewrite Q by (rewrite map_length, seq_length; easy). rewrite map_map. cbn [fst].
    apply (NoDup_nth _ (place nc n 0)). rewrite map_length, seq_length. intros i j Hi Hj E.
    assert (map (fun x => place nc n x) (seq 0 n) = locs) as El' by (symmetry; exact El). rewrite El' in E. destruct (Nat.lt_trichotomy i j) as [Hlt|[->|Hlt]]; [exfalso|easy|exfalso].
    + destruct (C138_disjoint nc n g locs i j (place nc n 0) Ep ltac:(lia)) as [_ Q2].
      destruct (C138_panels _ _ _ _ Ep) as (_ & _ & _ & Q3).
      destruct (Q3 (nth i locs (place nc n 0)) (nth_In locs (place nc n 0) (n := i) ltac:(lia))) as (A1 & A2 & _).
      apply (Q2 (fst (fst (nth i locs (place nc n 0)))) (fst (snd (nth i locs (place nc n 0))))). rewrite <- E. split; split; lia.
    + destruct (C138_disjoint nc n g locs j i (place nc n 0) Ep ltac:(lia)) as [_ Q2].
      destruct (C138_panels _ _ _ _ Ep) as (_ & _ & _ & Q3).
      destruct (Q3 (nth i locs (place nc n 0)) (nth_In locs (place nc n 0) (n := i) ltac:(lia))) as (A1 & A2 & _).
      apply (Q2 (fst (fst (nth i locs (place nc n 0)))) (fst (snd (nth i locs (place nc n 0))))). rewrite <- E. split; split; lia.
  - intros v l Hin. apply in_map_iff in Hin. destruct Hin as ((v0 & pl) & E & Hin). cbn [fst snd] in E. injection E as -> <- Es.
    pose proof (in_combine_r _ _ _ _ Hin) as Hk. apply in_map_iff in Hk. destruct Hk as (k & <- & Hk). cbn [fst snd] in *. apply in_seq in Hk.
    pose proof (Nat.div_mod k nc ltac:(lia)) as Hdk. pose proof (Nat.mod_upper_bound k nc ltac:(lia)) as Hmk.
    pose proof (Nat.div_mod n nc ltac:(lia)) as Hdn. pose proof (Nat.mod_upper_bound n nc ltac:(lia)) as Hmn.
    rewrite Eg2 in Hg. cbn [g_rows] in Hg.
    assert (k / nc < nr) as Hrow.
    { assert (k / nc <= n / nc) by (apply Nat.div_le_mono; lia). destruct (0 <? n mod nc) eqn:Er; [lia|]. apply Nat.ltb_ge in Er. assert (k / nc <> n / nc) by nia. lia. }
    assert (~ In (k / nc) last) as Hnl.
    { intros Hl. assert (existsb (Nat.eqb (k / nc)) last = true) as Ht; [|congruence]. apply existsb_exists. exists (k / nc). split; [auto|apply Nat.eqb_refl]. }
    destruct (Hlast _ Hrow Hnl) as [H1 H2].
    assert (k + nc < n / nc * nc) as Hfull.
    { destruct (0 <? n mod nc) eqn:Er; [apply Nat.ltb_lt in Er|apply Nat.ltb_ge in Er]; [|nia]. destruct H2 as [H2|H2]; [lia|]. nia. }
    assert (k + nc < n) as Hkn by lia.
    exists (nth (k + nc) vs []), (place nc n (k + nc)), (existsb (Nat.eqb ((k + nc) / nc)) last). split.
    + apply in_map_iff. exists (nth (k + nc) vs [], (place nc n (k + nc), (k + nc) / nc)). split; [easy|].
      assert (nth (k + nc) (combine vs (map (fun k0 => (place nc n k0, k0 / nc)) (seq 0 n))) ([], (place nc n 0, 0 / nc)) = (nth (k + nc) vs [], (place nc n (k + nc), (k + nc) / nc))) as <-.
      { rewrite combine_nth by (rewrite map_length, seq_length; easy). f_equal.
        rewrite (map_nth (fun k0 => (place nc n k0, k0 / nc)) (seq 0 n) 0 (k + nc)). now rewrite seq_nth by lia. }
      apply nth_In. rewrite combine_length, map_length, seq_length. fold n. lia.
    + unfold below, place. cbn [fst snd]. replace ((k + nc) / nc) with (k / nc + 1) by (replace (k + nc) with (k + 1 * nc) by lia; rewrite Nat.div_add by lia; lia).
      replace ((k + nc) mod nc) with (k mod nc) by (replace (k + nc) with (k + 1 * nc) by lia; now rewrite Nat.mod_add by lia).
      destruct (k + nc <? _) eqn:Ea; [|apply Nat.ltb_ge in Ea; lia]. destruct (k <? _) eqn:Eb; [|apply Nat.ltb_ge in Eb; lia]. split; lia || reflexivity.
Qed.

(* Which requests are refused: a name the responses do not have, an empty list, no columns. *)
Theorem C138_irf_refused value variables n_cols :
  (exists panels, plot_irf value variables n_cols = Ok panels) <->
  n_cols <> Some 0 /\
  match value with
  | Everything => variables <> []
  | One v => In v variables
  | Several l => l <> [] /\ forall v, In v l -> In v variables
  | Other => False
  end.
Proof.
  assert (forall vs, (exists r, irf_grid (length vs) n_cols = Ok r) <-> n_cols <> Some 0 /\ vs <> ([] : list chars)) as Q.
  { intros vs. split.
    - intros ([[locs rows] last] & H). destruct (irf_grid_shape _ _ _ _ _ H) as (nc & nr & g & En & Ep & _). destruct (locs_place _ _ _ _ Ep) as (A & B & _).
      split; [intros ->; lia|intros ->; cbn in B; lia].
    - intros [A B]. unfold irf_grid. set (nc := match n_cols with None => Nat.min 4 (length vs) | Some c => c end).
      assert (0 < length vs) as Hp by (destruct vs; [congruence|cbn; lia]).
      assert (0 < nc) as Hc by (unfold nc; destruct n_cols as [[|c]|]; [congruence|lia|lia]).
      destruct (proj2 (C138_refused nc (length vs)) (conj Hc Hp)) as (g & locs & E). rewrite E. cbn [bind fst snd].
      destruct (locs_place _ _ _ _ E) as (_ & _ & El & Eg).
      match goal with |- context [rev ?l] => destruct (rev l) as [|x t] eqn:Er end; [|eauto]. exfalso.
      assert (forall A (l : list A), rev l = [] -> l = []) as Hrev by (intros T l Hl; rewrite <- (rev_involutive l), Hl; reflexivity).
      apply Hrev in Er. assert (In 0 (filter (fun i => existsb (Nat.eqb i) (map (fun l : loc => snd (fst l) / 2 - 1) locs)) (seq 0 (g_rows g)))) as Hin; [|rewrite Er in Hin; easy].
      apply filter_In. split.
      + apply in_seq. rewrite Eg. cbn [g_rows]. pose proof (Nat.div_mod (length vs) nc ltac:(lia)). destruct (0 <? length vs mod nc) eqn:E0; [lia|]. apply Nat.ltb_ge in E0. nia.
      + apply existsb_exists. exists 0. split; [|easy]. rewrite El, map_map. apply in_map_iff. exists 0. split; [|apply in_seq; lia].
        unfold place. cbn [fst snd]. rewrite Nat.div_mul by lia. rewrite Nat.div_small by lia. reflexivity. }
  assert (forall v, existsb (chars_eqb v) variables = true <-> In v variables) as M.
  { intros v. rewrite existsb_exists. split; [intros (y & Hy & E); apply chars_eqb_eq in E; now subst|intros H; exists v; split; [auto|apply chars_eqb_refl]]. }
  unfold plot_irf. split.
  - intros (panels & H). destruct (resolve value variables) as [vs|] eqn:Ev; [|discriminate]. cbn [bind] in H.
    destruct (irf_grid (length vs) n_cols) as [r|] eqn:Eg; [|discriminate]. destruct (proj1 (Q vs) (ex_intro _ r Eg)) as [A B]. split; [auto|].
    destruct value; cbn in Ev.
    + injection Ev as <-. auto.
    + destruct (existsb _ _) eqn:E; [|discriminate]. now apply M.
    + destruct (forallb _ _) eqn:E; [|discriminate]. injection Ev as <-. split; [auto|]. intros v Hv. rewrite forallb_forall in E. apply M. auto.
    + discriminate.
  - intros [A B]. assert (exists vs, resolve value variables = Ok vs /\ vs <> []) as (vs & -> & Hne).
    { destruct value; cbn.
      - eauto.
      - rewrite (proj2 (M v) B). exists [v]. split; [easy|congruence].
      - destruct B as [B1 B2]. exists l. split; [|auto]. replace (forallb _ _) with true; [easy|]. symmetry. apply forallb_forall. intros v Hv. apply M. auto.
      - easy. }
    cbn [bind]. destruct (proj2 (Q vs) (conj A Hne)) as ([[locs rows] last] & ->). cbn [bind]. eauto.
Qed.

(* seven variables, four columns: the last row has three panels, shifted by one cell; the first row has no panel below
   its own columns but shows its labels *)
Theorem C138_case : exists g locs, prepare_gridspec_figure 4 7 = Ok (g, locs) /\ g = GS 4 8 /\
  nth 4 locs ((0,0),(0,0)) = ((2, 4), (1, 3)) /\
  (exists locs' rows, irf_grid 7 None = Ok (locs', rows, [0; 1])) /\ (exists locs' rows, irf_grid 12 None = Ok (locs', rows, [2])).
Proof. eexists _, _. refine (conj eq_refl (conj eq_refl (conj eq_refl (conj _ _)))); eexists _, _; reflexivity. Qed.
