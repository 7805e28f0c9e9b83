From Verif Require Import Common Sym_Model Sym_Spec Sym_Proofs Sym_Flatten SymDict_Model SymDict_More Sort_Lib Build_Model Build_Spec.
From Coq Require Import Permutation Sorted.
Local Open Scope list_scope.

Lemma dget_In {V} k (d : list (sym * V)) v : dget sym_eqb k d = Some v -> In (k, v) d.
Proof.
  induction d as [|[k' v'] d IH]; cbn; [discriminate|]. destruct (sym_eqb k k') eqn:E; [|auto].
  apply sym_eqb_eq in E as ->. intro H. injection H as ->. auto.
Qed.
Lemma dget_None {V} k (d : list (sym * V)) : dget sym_eqb k d = None <-> ~ In k (map fst d).
Proof.
  induction d as [|[k' v'] d IH]; cbn; [tauto|]. destruct (sym_eqb k k') eqn:E.
  - apply sym_eqb_eq in E as ->. split; [discriminate|]. intro H. exfalso. auto.
  - apply sym_eqb_neq in E. rewrite IH. intuition congruence.
Qed.
Lemma dget_NoDup {V} k (d : list (sym * V)) v : NoDup (map fst d) -> In (k, v) d -> dget sym_eqb k d = Some v.
Proof.
  intros Hn Hi. destruct (dget sym_eqb k d) as [w|] eqn:E.
  - apply dget_In in E. f_equal. clear -Hn Hi E. induction d as [|[a b] d IH]; [destruct Hi|]. cbn in Hn. inversion Hn; subst.
    destruct Hi as [Hi|Hi], E as [E|E]; try congruence; auto.
    + injection Hi as -> ->. exfalso. apply H1. now apply (in_map fst) in E.
    + injection E as -> ->. exfalso. apply H1. now apply (in_map fst) in Hi.
  - apply dget_None in E. exfalso. apply E. now apply (in_map fst) in Hi.
Qed.
Lemma dget_iff {V} k (d : list (sym * V)) v : NoDup (map fst d) -> dget sym_eqb k d = Some v <-> In (k, v) d.
Proof. intro H. split; [apply dget_In|now apply dget_NoDup]. Qed.
Lemma dupd_get {V} (d2 : list (sym * V)) : forall d k, NoDup (map fst d2) ->
  dget sym_eqb k (dupd sym_eqb d d2) = match dget sym_eqb k d2 with Some v => Some v | None => dget sym_eqb k d end.
Proof.
  induction d2 as [|[a b] d2 IH]; intros d k Hn; [reflexivity|]. cbn in Hn. inversion Hn; subst.
  change (dupd sym_eqb d ((a, b) :: d2)) with (dupd sym_eqb (dset sym_eqb a b d) d2). rewrite IH by assumption.
  rewrite (dget_dset sym_eqb sym_eqb_eq). cbn [dget]. destruct (sym_eqb k a) eqn:E; [|reflexivity].
  apply sym_eqb_eq in E as ->. rewrite (proj2 (dget_None a d2)) by assumption. reflexivity.
Qed.
Lemma NoDup_app {A} (l1 l2 : list A) : NoDup (l1 ++ l2) <-> NoDup l1 /\ NoDup l2 /\ forall x, In x l1 -> ~ In x l2.
Proof.
  induction l1 as [|a l1 IH]; cbn; [split; [intro; repeat split; auto; constructor|tauto]|].
  rewrite !NoDup_cons_iff, IH, in_app_iff. split.
  - intros (H1 & H2 & H3 & H4). repeat split; auto. intros x [<-|Hx]; auto.
  - intros ((H1 & H2) & H3 & H4). repeat split; auto.
    + intros [H|H]; [auto|]. apply (H4 a); auto.
Qed.

Lemma filter_fst_nodup {V} (q : sym * V -> bool) (u : list (sym * V)) : NoDup (map fst u) -> NoDup (map fst (filter q u)).
Proof.
  induction u as [|[a b] u IH]; cbn; intro H; [constructor|]. inversion H; subst. destruct (q (a, b)); cbn; [|auto]. constructor; [|auto].
  intro C. apply H2. apply in_map_iff in C as ((x & y) & <- & C). apply filter_In in C as [C _]. now apply (in_map fst) in C.
Qed.

(* ---- merging ---- *)
Lemma merge_fold ds : forall d0 dups d r, (forall x, In x ds -> NoDup (map fst x)) ->
  fold_left merge_step ds (d0, dups) = (d, r) ->
  (r = [] <-> dups = [] /\ (forall x, In x (map fst d0) -> ~ In x (map fst (concat ds))) /\ once ds) /\
  (r = [] -> d = d0 ++ concat ds).
Proof.
  unfold once. induction ds as [|x ds IH]; intros d0 dups d r Hn H; cbn [fold_left concat map] in *.
  - injection H as <- <-. rewrite app_nil_r. split; [|auto]. split; [intros ->; repeat split; auto; constructor|tauto].
  - assert (Hx : NoDup (map fst x)) by (apply Hn; now left).
    unfold merge_step at 2 in H. cbn [fst snd] in H. apply IH in H; [|intros; apply Hn; now right]. destruct H as [H1 H2].
    rewrite map_app. set (F := filter _ _) in *.
    assert (EF : F = [] <-> forall y, In y (map fst d0) -> ~ In y (map fst x)).
    { unfold F. split.
      - intros E y Hy Hyx. assert (I : In y (filter (fun k => smem k (map fst d0)) (map fst x))) by (apply filter_In; split; [auto|now apply smem_In]).
        rewrite E in I. destruct I.
      - intro E. destruct (filter _ _) as [|y l] eqn:Ef; [reflexivity|]. exfalso.
        assert (I : In y (filter (fun k => smem k (map fst d0)) (map fst x))) by (rewrite Ef; now left).
        apply filter_In in I as [I1 I2]. apply smem_In in I2. exact (E y I2 I1). }
    assert (K : r = [] -> F = []).
    { intro Hr. apply (proj1 H1) in Hr as [Hr _]. apply app_eq_nil in Hr. apply Hr. }
    assert (K2 : F = [] -> dupd sym_eqb d0 x = d0 ++ x).
    { intro E. apply (dupd_fresh sym_eqb sym_eqb_eq); [assumption|]. intros y Hy. now apply (proj1 EF E). }
    split.
    + split.
      * intro Hr. pose proof (K Hr) as HF. apply (proj1 H1) in Hr as (Ha & Hb & Hc). apply app_eq_nil in Ha as [Ha _].
        rewrite (K2 HF), map_app in Hb. split; [exact Ha|]. split.
        -- intros y Hy. rewrite in_app_iff. intros [C|C]; [exact (proj1 EF HF y Hy C)|]. apply (Hb y); [apply in_app_iff; auto|exact C].
        -- apply NoDup_app. repeat split; auto. intros y Hy. apply Hb, in_app_iff. auto.
      * intros (Ha & Hb & Hc). apply NoDup_app in Hc as (Hc1 & Hc2 & Hc3).
        assert (HF : F = []) by (apply EF; intros y Hy C; apply (Hb y Hy), in_app_iff; auto).
        apply H1. rewrite HF, Ha, (K2 HF), map_app. repeat split; auto.
        intros y Hy C. apply in_app_or in Hy as [Hy|Hy]; [apply (Hb y Hy), in_app_iff; auto|exact (Hc3 y Hy C)].
    + intro Hr. rewrite (H2 Hr), (K2 (K Hr)), app_assoc. reflexivity.
Qed.

Definition entry_le (a b : sym * sx) : Prop := chars_leb (par_name (fst a)) (par_name (fst b)) = true.
Lemma by_name_tot {V} (x y : sym * V) : by_name x y = true \/ by_name y x = true.
Proof. apply chars_leb_total. Qed.
Lemma by_name_tr {V} (x y z : sym * V) : by_name x y = true -> by_name y z = true -> by_name x z = true.
Proof. apply chars_leb_trans. Qed.
Theorem merge_spec ds : (forall d, In d ds -> NoDup (map fst d)) ->
  (once ds -> exists d, merge_params ds = Ok d /\ Permutation d (concat ds) /\ StronglySorted entry_le d) /\
  (~ once ds -> merge_params ds = Err (GEconError 40)).
Proof.
  intro Hn. unfold merge_params. destruct (fold_left merge_step ds ([], [])) as [d r] eqn:E.
  apply merge_fold in E; [|assumption]. destruct E as [E1 E2]. split.
  - intro Ho. assert (Hr : r = []) by (apply E1; repeat split; auto). rewrite Hr. eexists. split; [reflexivity|].
    rewrite (E2 Hr). cbn [app]. split; [symmetry; apply isort_perm|]. apply (isort_sorted by_name by_name_tot by_name_tr).
  - intro Ho. destruct r; [|reflexivity]. exfalso. apply Ho. apply E1. reflexivity.
Qed.
Lemma chars_leb_antisym a : forall b, chars_leb a b = true -> chars_leb b a = true -> a = b.
Proof.
  induction a as [|x a IH]; intros [|y b]; cbn; auto; try discriminate. destruct (Ascii.eqb_spec x y) as [->|Hn].
  - rewrite Ascii.eqb_refl. intros H1 H2. f_equal. auto.
  - assert (Hyx : Ascii.eqb y x = false) by (apply Ascii.eqb_neq; auto). rewrite Hyx. rewrite !N.ltb_lt. lia.
Qed.
Lemma chars_leb_refl a : chars_leb a a = true.
Proof. destruct (chars_leb_total a a); assumption. Qed.

Theorem merge_order ds ds' : (forall d, In d ds -> NoDup (map fst d)) -> (forall k, In k (map fst (concat ds)) -> exists n, k = SPar n) ->
  Permutation ds ds' -> merge_params ds = merge_params ds'.
Proof.
  intros Hn Hp Hpm.
  assert (Hc : Permutation (concat ds) (concat ds')) by (clear -Hpm; induction Hpm; cbn; auto;
    [now apply Permutation_app_head|rewrite !app_assoc; apply Permutation_app_tail, Permutation_app_comm|etransitivity; eassumption]).
  assert (Hn' : forall d, In d ds' -> NoDup (map fst d)) by (intros d Hd; apply Hn; eapply Permutation_in; [symmetry; exact Hpm|exact Hd]).
  assert (Ho : once ds <-> once ds').
  { unfold once. split; apply Permutation_NoDup; [|symmetry]; now apply Permutation_map. }
  destruct (merge_spec ds Hn) as [A1 A2], (merge_spec ds' Hn') as [B1 B2].
  destruct (ListDec.NoDup_dec sym_eq_dec (map fst (concat ds))) as [D|D].
  - destruct (A1 D) as (d & Ed & Pd & Sd). destruct (B1 (proj1 Ho D)) as (d' & Ed' & Pd' & Sd'). rewrite Ed, Ed'. f_equal.
    apply (sorted_unique by_name); auto.
    + rewrite Pd, Hc. now symmetry.
    + intros [k v] [k2 v2] Hx Hy L1 L2. unfold by_name in L1, L2. cbn in L1, L2.
      pose proof (chars_leb_antisym _ _ L1 L2) as En. apply (Permutation_in _ Pd) in Hx, Hy.
      destruct (Hp k) as (n & ->); [now apply (in_map fst) in Hx|]. destruct (Hp k2) as (n2 & ->); [now apply (in_map fst) in Hy|].
      cbn in En. subst n2. f_equal. apply (dget_NoDup _ _ _ D) in Hx, Hy. congruence.
  - rewrite A2, B2; auto. rewrite <- Ho. exact D.
Qed.

(* ---- hyper-parameters ---- *)
Lemma split_fold {V} (params : list (sym * V)) : NoDup (map fst params) -> forall names cur hyp,
  (forall k v, In (k, v) cur -> In (k, v) params) -> NoDup (map fst cur) -> NoDup (map fst hyp) ->
  (forall k, In k (map fst hyp) -> ~ In k (map fst cur)) ->
  let r := fold_left (hyper_step params) names (cur, hyp) in
  (forall k v, In (k, v) (fst r) <-> In (k, v) cur /\ ~ In k names) /\
  (forall k v, In (k, v) (snd r) <-> In (k, v) hyp \/ (In (k, v) cur /\ In k names)) /\
  NoDup (map fst (fst r)) /\ NoDup (map fst (snd r)).
Proof.
  intro Hp. induction names as [|p names IH]; intros cur hyp Hsub Hc Hh Hd; cbn [fold_left].
  - cbn. repeat split; auto; try tauto.
  - destruct (dget sym_eqb p cur) as [v0|] eqn:E.
    + assert (Es : hyper_step params (cur, hyp) p = (ddel p cur, dset sym_eqb p v0 hyp)).
      { unfold hyper_step. cbn [fst snd]. rewrite E. apply dget_In in E. rewrite (dget_NoDup p params v0 Hp (Hsub _ _ E)). reflexivity. }
      rewrite Es. clear Es. apply dget_In in E.
      assert (Hdel : forall k v, In (k, v) (ddel p cur) <-> In (k, v) cur /\ k <> p).
      { intros k v. unfold ddel. rewrite filter_In. cbn. rewrite negb_true_iff, sym_eqb_neq. intuition congruence. }
      assert (Hfr : dset sym_eqb p v0 hyp = hyp ++ [(p, v0)]).
      { apply (dset_fresh sym_eqb sym_eqb_eq). intro C. apply (Hd p C). now apply (in_map fst) in E. }
      destruct (IH (ddel p cur) (dset sym_eqb p v0 hyp)) as (I1 & I2 & I3 & I4).
      * intros k v Hk. apply Hdel in Hk as [Hk _]. auto.
      * unfold ddel. clear -Hc. induction cur as [|[a b] cur IH]; cbn; [constructor|]. cbn in Hc. inversion Hc; subst.
        destruct (negb (sym_eqb p a)); cbn; [|auto]. constructor; [|auto]. intro C. apply H1.
        apply in_map_iff in C as ((x & y) & <- & C). apply filter_In in C as [C _]. now apply (in_map fst) in C.
      * now apply (dset_nodup sym_eqb sym_eqb_eq).
      * intros k Hk C. rewrite Hfr, map_app, in_app_iff in Hk. apply in_map_iff in C as ((a & b) & Ea & C). cbn in Ea. subst a.
        apply Hdel in C as [C1 C2]. destruct Hk as [Hk|[Hk|[]]]; [|cbn in Hk; congruence]. apply (Hd k Hk). now apply (in_map fst) in C1.
      * split; [|split; [|split; [exact I3|exact I4]]].
        -- intros k v. rewrite I1, Hdel. cbn. intuition congruence.
        -- intros k v. rewrite I2, Hdel, Hfr, in_app_iff. cbn. split.
           ++ intros [[H|[H|[]]]|[[H1 H2] H3]]; auto. injection H as <- <-. auto.
           ++ intros [H|[H1 [<-|H2]]]; auto.
              ** left. right. left. f_equal. apply (dget_NoDup _ _ _ Hc) in H1, E. congruence.
              ** destruct (sym_eq_dec k p) as [->|Hne]; [|tauto]. left. right. left. f_equal.
                 apply (dget_NoDup _ _ _ Hc) in H1, E. congruence.
    + assert (Es : hyper_step params (cur, hyp) p = (cur, hyp)) by (unfold hyper_step; cbn [fst snd]; rewrite E; reflexivity).
      rewrite Es. clear Es. apply dget_None in E. destruct (IH cur hyp) as (I1 & I2 & I3 & I4); auto. split; [|split; [|split; [exact I3|exact I4]]].
      * intros k v. rewrite I1. cbn. split; [|tauto]. intros [H1 H2]. split; [auto|]. intros [<-|H]; [|auto]. apply E. now apply (in_map fst) in H1.
      * intros k v. rewrite I2. cbn. split; [tauto|]. intros [H|[H1 [<-|H2]]]; auto. exfalso. apply E. now apply (in_map fst) in H1.
Qed.
Theorem split_spec {V} (params : list (sym * V)) names free hyper : NoDup (map fst params) ->
  split_out_hyper params names = (free, hyper) ->
  (forall k v, In (k, v) free <-> In (k, v) params /\ ~ In k names) /\
  (forall k v, In (k, v) hyper <-> In (k, v) params /\ In k names) /\
  NoDup (map fst free) /\ NoDup (map fst hyper).
Proof.
  intros Hp E.
  destruct (split_fold params Hp names params [] (fun k v H => H) Hp (NoDup_nil _) (fun k H => False_ind _ H)) as (A1 & A2 & A3 & A4).
  unfold split_out_hyper in E. rewrite E in *. cbn [fst snd] in *. split; [exact A1|]. split; [|auto].
  intros k v. rewrite A2. cbn. tauto.
Qed.

(* ---- deterministic parameters ---- *)
Lemma mentioned_used eqs rels p : used_in eqs rels p = true <-> mentioned eqs rels p.
Proof.
  unfold used_in, mentioned. rewrite orb_true_iff, !existsb_exists. split; (intros [(x & H1 & H2)|(x & H1 & H2)]; [left|right]); exists x; (split; [exact H1|]);
    unfold rel_atoms in *; rewrite ?smem_In in *; rewrite ?in_app_iff in *; auto.
Qed.
Lemma mentioned_flat eqs rels s : In s (flat_map atoms eqs ++ flat_map rel_atoms rels) <-> mentioned eqs rels s.
Proof.
  unfold mentioned. rewrite in_app_iff, !in_flat_map. unfold rel_atoms.
  split; (intros [(x & H1 & H2)|(x & H1 & H2)]; [left|right]); exists x; (split; [exact H1|]); rewrite ?in_app_iff in *; auto.
Qed.
Section O.
Variables ord sord : set_order.
Hypothesis Ho : set_order_ok ord.
Hypothesis Hs : set_order_ok sord.
Lemma resolve_det_spec det eqs rels r : NoDup (map fst det) -> NoSelf det -> resolve_deterministic ord sord det eqs rels = Ok r ->
  (forall k, In k (map fst (fst r)) <-> In k (map fst det) /\ mentioned eqs rels k) /\
  (forall k w s, In (k, w) (fst r) -> In s (atoms w) -> ~ In s (map fst det)) /\
  (forall V (A : alg V) env, model_of A env det -> model_of A env (fst r)) /\ NoDup (map fst (fst r)).
Proof.
  intros Hn Hself H. unfold resolve_deterministic in H. destruct (flatten ord sord det) as [flat|e] eqn:E; [|discriminate]. cbn [bind] in H.
  injection H as <-. cbn [fst]. set (look := fun kv : sym * sx => match slookup (fst kv) flat with Some v => v | None => snd kv end).
  destruct (flatten_values ord sord Ho Hs det Hn Hself flat E) as (P1 & P2 & P3 & P4).
  assert (Hmap : map fst (map (fun kv => (fst kv, look kv)) det) = map fst det) by (rewrite map_map; reflexivity).
  assert (Hin : forall k w, In (k, w) (map (fun kv => (fst kv, look kv)) det) -> In (k, w) flat).
  { intros k w Hk. apply in_map_iff in Hk as ((a & b) & Ea & Hk). cbn in Ea. injection Ea as <- <-.
    unfold look. cbn [fst snd]. rewrite (P3 a b Hk). apply slookup_In, P3, Hk. }
  split; [|split; [|split]].
  - intro k. rewrite <- Hmap. split.
    + intro Hk. apply in_map_iff in Hk as ((a & b) & <- & Hk). apply filter_In in Hk as [Hk Hu]. split; [now apply (in_map fst) in Hk|].
      now apply mentioned_used.
    + intros [Hk Hu]. apply in_map_iff in Hk as ((a & b) & <- & Hk). apply in_map_iff. exists (a, b). split; [reflexivity|].
      apply filter_In. split; [exact Hk|]. now apply mentioned_used.
  - intros k w s Hk. apply filter_In in Hk as [Hk _]. eapply P2, Hin, Hk.
  - intros V A env Hm k w Hk. apply filter_In in Hk as [Hk _]. apply (proj1 (P4 V A env) Hm). apply Hin, Hk.
  - apply filter_fst_nodup. rewrite map_map. exact Hn.
Qed.

(* ---- validation ---- *)
Definition joint (p : params) : sdict := dupd sym_eqb (dupd sym_eqb (pr_free p) (pr_calib p)) (pr_det p).
Lemma joint_spec p : NoDup (map fst (pr_free p)) -> NoDup (map fst (pr_calib p)) -> NoDup (map fst (pr_det p)) ->
  (forall k, In k (map fst (joint p)) <-> declared p k) /\ (forall k e, In (k, e) (joint p) <-> expression_of p k e).
Proof.
  intros H1 H2 H3. unfold joint. split.
  - intro k. rewrite !(dupd_keys sym_eqb sym_eqb_eq). unfold declared. tauto.
  - intros k e. rewrite <- (dget_iff k _ e) by (apply (dupd_nodup sym_eqb sym_eqb_eq); now apply (dupd_nodup sym_eqb sym_eqb_eq)).
    rewrite !dupd_get by assumption. unfold expression_of. destruct (dget sym_eqb k (pr_det p)) as [v|] eqn:E1.
    + pose proof (dget_In _ _ _ E1) as I. pose proof (in_map fst _ _ I) as I'. cbn in I'. rewrite <- (dget_iff k (pr_det p) e H3), E1. tauto.
    + pose proof (proj1 (dget_None _ _) E1) as N1. rewrite <- (dget_iff k (pr_det p) e H3), E1.
      destruct (dget sym_eqb k (pr_calib p)) as [v|] eqn:E2.
      * pose proof (dget_In _ _ _ E2) as I. pose proof (in_map fst _ _ I) as I'. cbn in I'. rewrite <- (dget_iff k (pr_calib p) e H2), E2.
        intuition congruence.
      * pose proof (proj1 (dget_None _ _) E2) as N2. rewrite <- (dget_iff k (pr_calib p) e H2), E2, <- (dget_iff k (pr_free p) e H1).
        intuition congruence.
Qed.
Lemma filter_nil {A} (f : A -> bool) l : filter f l = [] <-> forall x, In x l -> f x = false.
Proof.
  induction l as [|a l IH]; cbn; [split; [intros _ x []|auto]|]. destruct (f a) eqn:E.
  - split; [discriminate|]. intro H. rewrite (H a (or_introl eq_refl)) in E. discriminate.
  - rewrite IH. split; [intros H x [<-|Hx]; auto|auto].
Qed.
Lemma in_joint p s : NoDup (map fst (pr_free p)) -> NoDup (map fst (pr_calib p)) -> NoDup (map fst (pr_det p)) ->
  existsb (fun kv => smem s (atoms (snd kv))) (joint p) = true <-> in_expression p s.
Proof.
  intros H1 H2 H3. destruct (joint_spec p H1 H2 H3) as [_ J]. rewrite existsb_exists. unfold in_expression. split.
  - intros ((k & e) & Hi & Hm). exists k, e. rewrite <- J. apply smem_In in Hm. auto.
  - intros (k & e & Hi & Hm). exists (k, e). rewrite J. split; [exact Hi|]. now apply smem_In.
Qed.
Lemma orphans_spec eqs rels p s : NoDup (map fst (pr_free p)) -> NoDup (map fst (pr_calib p)) -> NoDup (map fst (pr_det p)) ->
  In s (orphans eqs rels (joint p)) <-> orphan eqs rels p s.
Proof.
  intros H1 H2 H3. unfold orphans, orphan. rewrite filter_In, mentioned_flat, !andb_true_iff, !negb_true_iff.
  destruct (joint_spec p H1 H2 H3) as [JK _]. pose proof (in_joint p s H1 H2 H3) as JE.
  assert (P : is_par s = true <-> exists n, s = SPar n) by (destruct s; cbn; split; intro X; try discriminate; eauto; destruct X; discriminate).
  assert (K : smem s (map fst (joint p)) = false <-> ~ declared p s) by (rewrite <- JK, <- smem_In; destruct (smem s (map fst (joint p))); intuition congruence).
  rewrite P, K, <- JE. destruct (existsb _ (joint p)); intuition congruence.
Qed.
Lemma extras_spec eqs rels p da s : NoDup (map fst (pr_free p)) -> NoDup (map fst (pr_calib p)) -> NoDup (map fst (pr_det p)) ->
  In s (extras eqs rels (joint p) da) <-> unused eqs rels da p s.
Proof.
  intros H1 H2 H3. unfold extras, unused. rewrite filter_In, negb_true_iff.
  destruct (joint_spec p H1 H2 H3) as [JK _]. pose proof (in_joint p s H1 H2 H3) as JE. rewrite JK.
  set (L := flat_map atoms eqs ++ _). assert (EL : In s L <-> mentioned eqs rels s \/ in_expression p s \/ In s da).
  { unfold L. rewrite app_assoc, !in_app_iff, <- in_app_iff, mentioned_flat, <- JE.
    assert (Z : In s (flat_map (fun kv => atoms (snd kv)) (joint p)) <-> existsb (fun kv => smem s (atoms (snd kv))) (joint p) = true).
    { rewrite in_flat_map, existsb_exists. split; intros (x & Hx & Hy); exists x; (split; [exact Hx|]); now apply smem_In. }
    rewrite Z. tauto. }
  assert (N : smem s L = false <-> ~ In s L) by (rewrite <- smem_In; destruct (smem s L); intuition congruence).
  rewrite N, EL. tauto.
Qed.
Lemma orphan_dec_nil eqs rels p : NoDup (map fst (pr_free p)) -> NoDup (map fst (pr_calib p)) -> NoDup (map fst (pr_det p)) ->
  orphans eqs rels (joint p) = [] <-> forall s, ~ orphan eqs rels p s.
Proof.
  intros H1 H2 H3. split.
  - intros E s. rewrite <- orphans_spec, E by assumption. intros [].
  - intro H. destruct (orphans eqs rels (joint p)) as [|s l] eqn:E; [reflexivity|]. exfalso. apply (H s). apply orphans_spec; auto. rewrite E. now left.
Qed.

Theorem build_spec frees calibs dets hyper eqs rels mode da :
  (forall d, In d (frees ++ calibs ++ dets) -> NoDup (map fst d)) -> NoSelf (concat dets) ->
  match build_params ord sord frees calibs dets hyper eqs rels mode da with
  | Ok p => once frees /\ once calibs /\ once dets /\ acyclic (concat dets) /\ grouped frees calibs dets hyper eqs rels p /\
      (forall s, ~ orphan eqs rels p s) /\ (mode = URaise -> forall s, ~ unused eqs rels da p s)
  | Err e =>
      (e = GEconError 40 /\ ~ (once frees /\ once calibs /\ once dets)) \/
      (e = ValueError /\ ~ acyclic (concat dets)) \/
      exists p, grouped frees calibs dets hyper eqs rels p /\
        ((e = GEconError 41 /\ exists s, orphan eqs rels p s) \/
         (e = GEconError 42 /\ mode = URaise /\ (forall s, ~ orphan eqs rels p s) /\ exists s, unused eqs rels da p s))
  end.
Proof.
  intros Hn Hself. unfold build_params.
  assert (N1 : forall d, In d frees -> NoDup (map fst d)) by (intros; apply Hn; rewrite !in_app_iff; auto).
  assert (N2 : forall d, In d calibs -> NoDup (map fst d)) by (intros; apply Hn; rewrite !in_app_iff; auto).
  assert (N3 : forall d, In d dets -> NoDup (map fst d)) by (intros; apply Hn; rewrite !in_app_iff; auto).
  destruct (merge_spec frees N1) as [A1 A2], (merge_spec calibs N2) as [B1 B2], (merge_spec dets N3) as [C1 C2].
  destruct (ListDec.NoDup_dec sym_eq_dec (map fst (concat frees))) as [D1|D1];
    [|rewrite A2 by exact D1; cbn; left; split; [reflexivity|]; intros (X & _); exact (D1 X)].
  destruct (A1 D1) as (free0 & E1 & P1 & _). rewrite E1. cbn [bind].
  destruct (ListDec.NoDup_dec sym_eq_dec (map fst (concat calibs))) as [D2|D2];
    [|rewrite B2 by exact D2; cbn; left; split; [reflexivity|]; intros (_ & X & _); exact (D2 X)].
  destruct (B1 D2) as (calib & E2 & P2 & _). rewrite E2. cbn [bind].
  destruct (ListDec.NoDup_dec sym_eq_dec (map fst (concat dets))) as [D3|D3];
    [|rewrite C2 by exact D3; cbn; left; split; [reflexivity|]; intros (_ & _ & X); exact (D3 X)].
  destruct (C1 D3) as (det0 & E3 & P3 & _). rewrite E3. cbn [bind].
  destruct (split_out_hyper free0 hyper) as [free hyp] eqn:E4.
  assert (M1 : NoDup (map fst free0)) by (eapply Permutation_NoDup; [apply Permutation_map; symmetry; exact P1|exact D1]).
  assert (M2 : NoDup (map fst calib)) by (eapply Permutation_NoDup; [apply Permutation_map; symmetry; exact P2|exact D2]).
  assert (M3 : NoDup (map fst det0)) by (eapply Permutation_NoDup; [apply Permutation_map; symmetry; exact P3|exact D3]).
  destruct (split_spec free0 hyper free hyp M1 E4) as (S1 & S2 & S3 & S4).
  assert (IF : forall kv, In kv free0 <-> In kv (concat frees)) by (intro; split; apply Permutation_in; [|symmetry]; exact P1).
  assert (IC : forall kv, In kv calib <-> In kv (concat calibs)) by (intro; split; apply Permutation_in; [|symmetry]; exact P2).
  assert (ID : forall kv, In kv det0 <-> In kv (concat dets)) by (intro; split; apply Permutation_in; [|symmetry]; exact P3).
  assert (IDk : forall k, In k (map fst det0) <-> In k (map fst (concat dets))) by (intro; split; apply Permutation_in; apply Permutation_map; [|symmetry]; exact P3).
  assert (Hself0 : NoSelf det0) by (intros k v Hk; apply Hself, ID, Hk).
  assert (Hac : acyclic det0 <-> acyclic (concat dets)).
  { unfold acyclic. split; intros (rank & H); exists rank; intros k v s Hk Hs' Hsk; apply (H k v s); auto; try (now apply ID); now apply IDk. }
  destruct (resolve_deterministic ord sord det0 eqs rels) as [r|e] eqn:E5; cbn [bind].
  2:{ right. left. unfold resolve_deterministic in E5. destruct (flatten ord sord det0) as [f|e'] eqn:Ef; [discriminate|]. cbn [bind] in E5. injection E5 as <-.
      split; [exact (flatten_err ord sord Ho det0 e' Ef)|]. rewrite <- Hac, <- (flatten_succeeds_iff ord sord Ho det0 M3). intros (f & Hf). congruence. }
  destruct (resolve_det_spec det0 eqs rels r M3 Hself0 E5) as (R1 & R2 & R3 & R4).
  set (p := Params free hyp (fst r) calib).
  assert (G : grouped frees calibs dets hyper eqs rels p).
  { constructor; cbn.
    - intros k v. rewrite S1, IF. reflexivity.
    - intros k v. rewrite S2, IF. reflexivity.
    - intros k v. apply IC.
    - intro k. rewrite R1, IDk. reflexivity.
    - intros k w s Hk Hsk. rewrite <- IDk. eapply R2; eassumption.
    - intros V A env Hm. apply R3. intros k v Hk. apply Hm, ID, Hk.
    - auto. }
  unfold validate_results. change (dupd sym_eqb (dupd sym_eqb free calib) (fst r)) with (joint p).
  destruct (orphans eqs rels (joint p)) as [|s l] eqn:Eo.
  - pose proof (proj1 (orphan_dec_nil eqs rels p S3 M2 R4) Eo) as No.
    assert (Hac' : acyclic (concat dets)).
    { apply Hac. apply (flatten_succeeds_iff ord sord Ho det0 M3). unfold resolve_deterministic in E5.
      destruct (flatten ord sord det0) as [f|]; [eauto|discriminate]. }
    destruct (extras eqs rels (joint p) da) as [|x xs] eqn:Ee; [|destruct mode]; cbn [bind];
      try (repeat (split; [assumption|])); try (intros; discriminate).
    + intros _ y Hy. apply extras_spec in Hy; auto. rewrite Ee in Hy. destruct Hy.
    + right. right. exists p. split; [exact G|]. right. repeat split; auto. exists x. apply extras_spec; auto. rewrite Ee. now left.
  - cbn [bind]. right. right. exists p. split; [exact G|]. left. split; [reflexivity|]. exists s. apply orphans_spec; auto. rewrite Eo. now left.
Qed.
End O.

(* ---- Model.parameters ---- *)
Section P.
Context {V : Type} (A : alg V).
Lemma ev_ext_in (env1 env2 : sym -> V) e : (forall s, In s (atoms e) -> env1 s = env2 s) -> ev A env1 e = ev A env2 e.
Proof. intro H. apply ev_ext. exact H. Qed.
Section Q.
Variables (defaults : list (sym * V)) (det : sdict) (f : list (sym * V) -> list (sym * V)).
Hypothesis Hd : NoDup (map fst defaults ++ map fst det).
Hypothesis Hf : compile_params A defaults det = Ok f.
Lemma f_is : f = fun given => map (fun kv => (fst kv, env_of A given (fst kv))) defaults ++ map (fun kv => (fst kv, ev A (env_of A given) (snd kv))) det.
Proof. unfold compile_params in Hf. destruct (forallb _ det); [|discriminate]. injection Hf as <-. reflexivity. Qed.
Lemma det_closed k e s : In (k, e) det -> In s (atoms e) -> In s (map fst defaults).
Proof.
  intros Hk Hs. unfold compile_params in Hf. destruct (forallb _ det) eqn:E; [|discriminate]. rewrite forallb_forall in E.
  specialize (E (k, e) Hk). rewrite forallb_forall in E. apply smem_In. exact (E s Hs).
Qed.
Lemma f_keys g : map fst (f g) = map fst defaults ++ map fst det.
Proof. rewrite f_is, map_app, !map_map. reflexivity. Qed.
Lemma f_free g k : In k (map fst defaults) -> dget sym_eqb k (f g) = Some (env_of A g k).
Proof.
  intro H. apply dget_NoDup; [rewrite f_keys; exact Hd|]. rewrite f_is. apply in_app_iff. left. apply in_map_iff in H as ((a & b) & <- & H).
  apply in_map_iff. exists (a, b). auto.
Qed.
Lemma f_det g k e : In (k, e) det -> dget sym_eqb k (f g) = Some (ev A (env_of A g) e).
Proof.
  intro H. apply dget_NoDup; [rewrite f_keys; exact Hd|]. rewrite f_is. apply in_app_iff. right. apply in_map_iff. exists (k, e). auto.
Qed.
Definition upd_value (u : list (sym * V)) (k : sym) (v : V) : Prop :=
  In (k, v) u \/ (~ In k (map fst u) /\ In (k, v) defaults).
Theorem parameters_spec u : NoDup (map fst u) ->
  match parameters defaults det f u with
  | Ok r =>
      (forall k, In k (map fst u) -> In k (map fst defaults) \/ In k (map fst det)) /\
      map fst r = map fst defaults ++ map fst det /\
      (forall k v, In k (map fst defaults) -> (In (k, v) r <-> upd_value u k v)) /\
      (forall k e, In (k, e) det -> In (k, ev A (env_of A r) e) r)
  | Err e => e = GEconError 43 /\ exists k, In k (map fst u) /\ ~ In k (map fst defaults) /\ ~ In k (map fst det)
  end.
Proof.
  intro Hu. unfold parameters. set (u1 := filter (fun kv => negb (smem (fst kv) (map fst det))) u).
  assert (I1 : forall k v, In (k, v) u1 <-> In (k, v) u /\ ~ In k (map fst det)).
  { intros k v. unfold u1. rewrite filter_In. cbn. rewrite negb_true_iff. rewrite <- smem_In. destruct (smem k (map fst det)); intuition congruence. }
  assert (Hu1 : NoDup (map fst u1)) by (apply filter_fst_nodup, Hu).
  destruct (filter (fun kv => negb (smem (fst kv) (map fst defaults))) u1) as [|[k v] l] eqn:E.
  - rewrite filter_nil in E.
    assert (K : forall k, In k (map fst u1) -> In k (map fst defaults)).
    { intros k Hk. apply in_map_iff in Hk as ((a & b) & <- & Hk). specialize (E _ Hk). cbn in E. apply negb_false_iff, smem_In in E. exact E. }
    apply NoDup_app in Hd as Hd'. destruct Hd' as (Hd1 & Hd2 & Hd3).
    assert (Kd : forall k, In k (map fst (dupd sym_eqb defaults u1)) <-> In k (map fst defaults)).
    { intro k. rewrite (dupd_keys sym_eqb sym_eqb_eq). split; [intros [H|H]; auto|auto]. }
    assert (Val : forall k v, In k (map fst defaults) -> dget sym_eqb k (dupd sym_eqb defaults u1) = Some v <-> upd_value u k v).
    { intros k v Hk. rewrite dupd_get by exact Hu1. unfold upd_value.
      assert (Nd : ~ In k (map fst det)) by (apply Hd3, Hk).
      destruct (dget sym_eqb k u1) as [w|] eqn:Ew.
      - apply dget_In in Ew. apply I1 in Ew as [Ew _]. split.
        + intro X. injection X as <-. auto.
        + intros [X|[X _]]; [|exfalso; apply X; now apply (in_map fst) in Ew].
          apply (dget_NoDup _ _ _ Hu) in X, Ew. congruence.
      - apply dget_None in Ew. assert (Nu : ~ In k (map fst u)).
        { intro C. apply in_map_iff in C as ((a & b) & Ea & C). cbn in Ea. subst a. apply Ew.
          assert (X : In (k, b) u1) by (apply I1; auto). now apply (in_map fst) in X. }
        rewrite (dget_iff k defaults v Hd1). split; [auto|]. intros [X|[_ X]]; [|exact X]. exfalso. apply Nu. now apply (in_map fst) in X. }
    split; [|split; [apply f_keys|split]].
    + intros k Hk. destruct (in_dec sym_eq_dec k (map fst det)) as [|Nd]; [auto|]. left. apply K.
      apply in_map_iff in Hk as ((a & b) & <- & Hk). assert (X : In (a, b) u1) by (apply I1; auto). now apply (in_map fst) in X.
    + intros k v Hk. rewrite <- (dget_iff k (f (dupd sym_eqb defaults u1)) v) by (rewrite f_keys; exact Hd). rewrite f_free by exact Hk. rewrite <- Val by exact Hk. unfold env_of.
      destruct (dget sym_eqb k (dupd sym_eqb defaults u1)) as [w|] eqn:Ew; [tauto|]. apply dget_None in Ew. exfalso. apply Ew, Kd, Hk.
    + intros k e Hk. apply dget_In. rewrite (f_det _ k e Hk). f_equal. apply ev_ext_in. intros s Hs.
      pose proof (det_closed k e s Hk Hs) as Hsd. unfold env_of at 2. rewrite f_free by exact Hsd. reflexivity.
  - assert (I : In (k, v) (filter (fun kv => negb (smem (fst kv) (map fst defaults))) u1)) by (rewrite E; now left).
    apply filter_In in I as [I I2]. cbn in I2. apply I1 in I as [I I3]. split; [reflexivity|]. exists k. split; [now apply (in_map fst) in I|].
    split; [|exact I3]. intro C. apply smem_In in C. rewrite C in I2. discriminate.
Qed.
(* two successful answers with the same free values are equal *)
Lemma same_answer r1 r2 : map fst r1 = map fst defaults ++ map fst det -> map fst r2 = map fst defaults ++ map fst det ->
  (forall k v, In k (map fst defaults) -> In (k, v) r1 <-> In (k, v) r2) ->
  (forall k e, In (k, e) det -> In (k, ev A (env_of A r1) e) r1) -> (forall k e, In (k, e) det -> In (k, ev A (env_of A r2) e) r2) -> r1 = r2.
Proof.
  intros K1 K2 Hfree D1 D2.
  assert (N1 : NoDup (map fst r1)) by (rewrite K1; exact Hd). assert (N2 : NoDup (map fst r2)) by (rewrite K2; exact Hd).
  assert (Env : forall k, In k (map fst defaults) -> dget sym_eqb k r1 = dget sym_eqb k r2).
  { intros k Hk. destruct (dget sym_eqb k r1) as [v|] eqn:E.
    - apply dget_In, Hfree in E; [|exact Hk]. symmetry. now apply dget_NoDup.
    - destruct (dget sym_eqb k r2) as [v|] eqn:E2; [|reflexivity]. apply dget_In, Hfree in E2; [|exact Hk]. apply (dget_NoDup _ _ _ N1) in E2. congruence. }
  assert (All : forall k, dget sym_eqb k r1 = dget sym_eqb k r2).
  { intro k. destruct (in_dec sym_eq_dec k (map fst defaults)) as [Hk|Hk]; [auto|].
    destruct (in_dec sym_eq_dec k (map fst det)) as [Hk2|Hk2].
    - apply in_map_iff in Hk2 as ((a & e) & Ea & Hk2). cbn in Ea. subst a.
      rewrite (dget_NoDup _ _ _ N1 (D1 k e Hk2)), (dget_NoDup _ _ _ N2 (D2 k e Hk2)). f_equal. apply ev_ext_in. intros s Hs. unfold env_of.
      rewrite (Env s); [reflexivity|]. eapply det_closed; eassumption.
    - rewrite (proj2 (dget_None k r1)), (proj2 (dget_None k r2)); [reflexivity| |]; rewrite ?K1, ?K2, in_app_iff; tauto. }
  clear -K1 K2 N1 N2 All. assert (K : map fst r1 = map fst r2) by congruence. clear K1 K2. revert r2 K N2 All.
  induction r1 as [|[k v] r1 IH]; intros [|[k2 v2] r2] K N2 All; try discriminate; [reflexivity|].
  cbn in K. injection K as <- K. cbn in N1, N2. inversion N1; inversion N2; subst.
  f_equal.
  - specialize (All k). cbn in All. rewrite (proj2 (sym_eqb_eq k k) eq_refl) in All. congruence.
  - apply IH; auto. intro x. specialize (All x). cbn in All. destruct (sym_eqb x k) eqn:E; [|exact All].
    apply sym_eqb_eq in E. subst x. transitivity (@None V); [|symmetry]; apply dget_None; [assumption|now rewrite <- ?K].
Qed.
Theorem parameters_idempotent u r : NoDup (map fst u) -> parameters defaults det f u = Ok r -> parameters defaults det f r = Ok r.
Proof.
  intros Hu E. pose proof (parameters_spec u Hu) as S. rewrite E in S. destruct S as (S1 & S2 & S3 & S4).
  assert (Nr : NoDup (map fst r)) by (rewrite S2; exact Hd).
  pose proof (parameters_spec r Nr) as S. destruct (parameters defaults det f r) as [r'|e].
  - destruct S as (T1 & T2 & T3 & T4). f_equal. apply same_answer; auto. intros k v Hk. rewrite T3 by exact Hk. unfold upd_value. split; [|auto].
    intros [X|[X _]]; [exact X|]. exfalso. apply X. rewrite S2. apply in_app_iff. auto.
  - destruct S as (_ & k & Hk & H1 & H2). exfalso. rewrite S2 in Hk. apply in_app_or in Hk. tauto.
Qed.
Theorem parameters_order u u' : NoDup (map fst u) -> Permutation u u' -> parameters defaults det f u = parameters defaults det f u'.
Proof.
  intros Hu Hp. assert (Hu' : NoDup (map fst u')) by (eapply Permutation_NoDup; [apply Permutation_map; exact Hp|exact Hu]).
  assert (I : forall kv, In kv u <-> In kv u') by (intro; split; apply Permutation_in; [|symmetry]; exact Hp).
  assert (Ik : forall k, In k (map fst u) <-> In k (map fst u')) by (intro; split; apply Permutation_in; apply Permutation_map; [|symmetry]; exact Hp).
  pose proof (parameters_spec u Hu) as S. pose proof (parameters_spec u' Hu') as S'.
  destruct (parameters defaults det f u) as [r|e], (parameters defaults det f u') as [r'|e'].
  - destruct S as (S1 & S2 & S3 & S4), S' as (T1 & T2 & T3 & T4). f_equal. apply same_answer; auto.
    intros k v Hk. rewrite S3, T3 by exact Hk. unfold upd_value. rewrite I, Ik. reflexivity.
  - exfalso. destruct S as (S1 & _), S' as (_ & k & Hk & H1 & H2). apply Ik, S1 in Hk. tauto.
  - exfalso. destruct S' as (S1 & _), S as (_ & k & Hk & H1 & H2). apply Ik, S1 in Hk. tauto.
  - destruct S as [-> _], S' as [-> _]. reflexivity.
Qed.
End Q.
End P.
