From Coq Require Import Permutation Sorted.
From Verif Require Import Common Expr_Model Expr_RoundTrip SymDict_Model SymDict_More Sort_Lib Val_Model Val_Spec.
Local Open Scope list_scope.

Lemma mem_In x l : mem x l = true <-> In x l.
Proof.
  unfold mem. rewrite existsb_exists. split.
  - intros (y & Hy & He). apply chars_eqb_eq in He. now subst.
  - intro H. exists x. split; [exact H|apply chars_eqb_refl].
Qed.
Lemma mem_false x l : mem x l = false <-> ~ In x l.
Proof. rewrite <- mem_In. destruct (mem x l); intuition congruence. Qed.

Lemma repeats_count l : forall seen n,
  count_occ chars_dec (repeats seen l) n = if mem n seen then count_occ chars_dec l n else pred (count_occ chars_dec l n).
Proof.
  induction l as [|x l IH]; intros seen n; cbn [repeats count_occ]; [destruct (mem n seen); reflexivity|].
  rewrite count_occ_app, IH.
  assert (Hm : mem n (x :: seen) = (chars_eqb n x || mem n seen)%bool) by reflexivity. rewrite Hm.
  destruct (chars_dec x n) as [->|Hne].
  - rewrite chars_eqb_refl. cbn [orb]. destruct (mem n seen); cbn [count_occ]; [|lia].
    destruct (chars_dec n n); [lia|congruence].
  - assert (Hf : chars_eqb n x = false) by (apply chars_eqb_neq; congruence). rewrite Hf. cbn [orb].
    destruct (mem x seen); cbn [count_occ]; [|reflexivity]. destruct (chars_dec x n); [congruence|reflexivity].
Qed.
Lemma repeats_nodup l : repeats [] l = [] <-> NoDup l.
Proof.
  rewrite (NoDup_count_occ chars_dec). split.
  - intros H x. assert (Hc := repeats_count l [] x). rewrite H in Hc. cbn in Hc. lia.
  - intro H. destruct (repeats [] l) as [|y r] eqn:E; [reflexivity|]. exfalso.
    assert (Hc := repeats_count l [] y). rewrite E in Hc. cbn [count_occ mem existsb] in Hc.
    destruct (chars_dec y y); [|congruence]. specialize (H y). lia.
Qed.

(* names inside expressions *)
Section N.
Context {F : Type}.
Lemma var_names_within (e : expr F) n : In n (var_names e) <-> exists t, within (Var n t) e.
Proof.
  split.
  - induction e as [v|p|p t|a IH|o a b IHa IHb|f args IH|a IH] using expr_ind'; cbn [var_names]; intro H.
    + destruct H.
    + destruct H.
    + destruct H as [->|[]]. eexists. constructor.
    + destruct (IH H) as (t & Ht). exists t. now constructor.
    + apply in_app_iff in H as [H|H]; [destruct (IHa H) as (t & Ht)|destruct (IHb H) as (t & Ht)]; exists t; [now apply w_left|now apply w_right].
    + apply in_flat_map in H as (a & Ha & Hn). rewrite Forall_forall in IH. destruct (IH a Ha Hn) as (t & Ht). exists t. eapply w_arg; eauto.
    + destruct (IH H) as (t & Ht). exists t. now constructor.
  - intros (t & H). remember (Var n t) as x. induction H; subst; cbn [var_names]; try now intuition.
    apply in_flat_map. eauto.
Qed.
Lemma par_names_within (e : expr F) n : In n (par_names e) <-> within (Par n) e.
Proof.
  split.
  - induction e as [v|p|p t|a IH|o a b IHa IHb|f args IH|a IH] using expr_ind'; cbn [par_names]; intro H.
    + destruct H.
    + destruct H as [->|[]]. constructor.
    + destruct H.
    + now constructor; apply IH.
    + apply in_app_iff in H as [H|H]; [apply w_left|apply w_right]; auto.
    + apply in_flat_map in H as (a & Ha & Hn). rewrite Forall_forall in IH. eapply w_arg; eauto.
    + now constructor; apply IH.
  - intro H. remember (Par n) as x. induction H; subst; cbn [par_names]; try now intuition.
    apply in_flat_map. eauto.
Qed.

Lemma item_name_gives (i : calibration_item F) p : In p (item_name i) <-> gives i p.
Proof.
  unfold gives. destruct i as [e|q]; cbn [item_name].
  - destruct (lhs e) eqn:E; cbn [In]; split; intro H;
      try solve [destruct H | destruct H as [H|(e' & He & Hl)]; [discriminate|injection He as <-; congruence]].
    + destruct H as [->|[]]. right. eauto.
    + destruct H as [H|(e' & He & Hl)]; [discriminate|]. injection He as <-. left. congruence.
  - split; [intros [->|[]]; now left|]. intros [H|(e & H & _)]; [injection H as ->; now left|discriminate].
Qed.
Lemma item_name_short (i : calibration_item F) : item_name i = [] \/ exists p, item_name i = [p].
Proof. destruct i as [e|q]; cbn; [destruct (lhs e); eauto|eauto]. Qed.

Lemma names_nodup (l : list (calibration_item F)) :
  NoDup (flat_map item_name l) <->
  (forall i j x y p, nth_error l i = Some x -> nth_error l j = Some y -> gives x p -> gives y p -> i = j).
Proof.
  induction l as [|a l IH]; cbn [flat_map].
  - split; [|constructor]. intros _ [|i] j x y p H; discriminate.
  - split.
    + intros Hn [|i] [|j] x y p Hx Hy Gx Gy; cbn [nth_error] in Hx, Hy.
      * reflexivity.
      * injection Hx as <-. apply item_name_gives in Gx, Gy. exfalso.
        destruct (item_name_short a) as [E|(q & E)]; rewrite E in *; [destruct Gx|]. destruct Gx as [->|[]].
        inversion Hn; subst. apply H1. apply in_flat_map. exists y. split; [eapply nth_error_In; eauto|exact Gy].
      * injection Hy as <-. apply item_name_gives in Gx, Gy. exfalso.
        destruct (item_name_short a) as [E|(q & E)]; rewrite E in *; [destruct Gy|]. destruct Gy as [->|[]].
        inversion Hn; subst. apply H1. apply in_flat_map. exists x. split; [eapply nth_error_In; eauto|exact Gx].
      * f_equal. assert (Hn' : NoDup (flat_map item_name l)) by (destruct (item_name_short a) as [E|(q & E)]; rewrite E in Hn; [exact Hn|now inversion Hn]).
        exact (proj1 IH Hn' i j x y p Hx Hy Gx Gy).
    + intro H. assert (Hn' : NoDup (flat_map item_name l)).
      { apply (proj2 IH). intros i j x y p Hx Hy Gx Gy. apply eq_add_S. exact (H (S i) (S j) x y p Hx Hy Gx Gy). }
      destruct (item_name_short a) as [E|(q & E)]; rewrite E; [exact Hn'|]. cbn [app]. constructor; [|exact Hn'].
      intro Hq. apply in_flat_map in Hq as (y & Hy & Gy). apply item_name_gives in Gy.
      apply In_nth_error in Hy as (j & Hj). assert (Ga : gives a q) by (apply item_name_gives; rewrite E; now left).
      specialize (H 0 (S j) a y q eq_refl Hj Ga Gy). discriminate.
Qed.
Lemma flat_map_flat_map {A B C} (f : A -> list B) (g : B -> list C) l : flat_map g (flat_map f l) = flat_map (fun x => flat_map g (f x)) l.
Proof. induction l; cbn; [reflexivity|]. now rewrite flat_map_app, IHl. Qed.
Lemma calibrated_items (m : model F) : flat_map calibrated m = flat_map item_name (items m).
Proof. unfold items. now rewrite flat_map_flat_map. Qed.
End N.

(* the dict of definitions *)
Definition pairs_of (p : chars) (l : list (chars * chars)) : list chars := map snd (filter (fun kv => chars_eqb (fst kv) p) l).
Lemma add_keys d p b : map fst (add_definition d p b) = if mem p (map fst d) then map fst d else map fst d ++ [p].
Proof.
  unfold add_definition. destruct (mem p (map fst d)); [|now rewrite map_app].
  rewrite map_map. apply map_ext. intros [k v]. cbn. now destruct (chars_eqb k p).
Qed.
Lemma add_in d p b k v : NoDup (map fst d) ->
  In (k, v) (add_definition d p b) <->
  (k <> p /\ In (k, v) d) \/ (k = p /\ ((exists v', In (p, v') d /\ v = v' ++ [b]) \/ (~ In p (map fst d) /\ v = [b]))).
Proof.
  intro Hn. unfold add_definition. destruct (mem p (map fst d)) eqn:E.
  - apply mem_In in E. rewrite in_map_iff. split.
    + intros ([k' v'] & H & Hin). cbn [fst snd] in H. destruct (chars_eqb k' p) eqn:Ek.
      * apply chars_eqb_eq in Ek as ->. injection H as <- <-. right. split; [reflexivity|]. left. eauto.
      * injection H as <- <-. apply chars_eqb_neq in Ek. left. auto.
    + intros [[Hne Hin]|[-> [(v' & Hin & ->)|[Hni _]]]]; [| |contradiction].
      * exists (k, v). cbn. apply chars_eqb_neq in Hne. rewrite Hne. auto.
      * exists (p, v'). cbn. rewrite chars_eqb_refl. auto.
  - apply mem_false in E. rewrite in_app_iff. split.
    + intros [Hin|[H|[]]].
      * left. split; [|exact Hin]. intros ->. apply E. apply in_map_iff. now exists (p, v).
      * injection H as <- <-. right. auto.
    + intros [[Hne Hin]|[-> [(v' & Hin & ->)|[_ ->]]]]; [now left| |right; now left].
      exfalso. apply E. apply in_map_iff. now exists (p, v').
Qed.
Lemma fold_definitions l : forall d, NoDup (map fst d) ->
  let r := fold_left (fun d pb => add_definition d (fst pb) (snd pb)) l d in
  NoDup (map fst r) /\
  (forall k v, In (k, v) r <->
     (exists v', In (k, v') d /\ v = v' ++ pairs_of k l) \/ (~ In k (map fst d) /\ v = pairs_of k l /\ v <> [])).
Proof.
  induction l as [|[p b] l IH]; intros d Hn; cbn [fold_left].
  - split; [exact Hn|]. intros k v. cbn [pairs_of filter map]. split.
    + intro H. left. exists v. split; [exact H|]. unfold pairs_of. cbn. now rewrite app_nil_r.
    + intros [(v' & H & ->)|(_ & -> & H)]; [unfold pairs_of; cbn; now rewrite app_nil_r|now destruct H].
  - assert (Hn' : NoDup (map fst (add_definition d p b))).
    { rewrite add_keys. destruct (mem p (map fst d)) eqn:E; [exact Hn|]. apply mem_false in E.
      apply Permutation_NoDup with (p :: map fst d); [apply Permutation_cons_append|]. now constructor. }
    specialize (IH _ Hn'). cbn zeta in IH. destruct IH as [I1 I2]. split; [exact I1|]. intros k v. rewrite I2.
    assert (Hkeys : In k (map fst (add_definition d p b)) <-> In k (map fst d) \/ k = p).
    { rewrite add_keys. destruct (mem p (map fst d)) eqn:E; [apply mem_In in E|]; [intuition congruence|]. rewrite in_app_iff. cbn. intuition. }
    rewrite Hkeys. cbn [fst snd].
    assert (Hpk : pairs_of k ((p, b) :: l) = (if chars_eqb p k then [b] else []) ++ pairs_of k l).
    { unfold pairs_of. cbn [filter fst]. now destruct (chars_eqb p k). }
    rewrite Hpk. destruct (chars_eqb p k) eqn:Ek.
    + apply chars_eqb_eq in Ek as ->. split.
      * intros [(v' & Hin & ->)|(Hni & _)]; [|exfalso; tauto]. apply add_in in Hin; [|exact Hn].
        destruct Hin as [[Hne _]|[_ [(w & Hw & ->)|[Hni ->]]]]; [congruence| |].
        -- left. exists w. split; [exact Hw|]. now rewrite <- app_assoc.
        -- right. split; [exact Hni|]. split; [reflexivity|]. cbn. discriminate.
      * intros [(v' & Hin & ->)|(Hni & -> & _)]; left.
        -- exists (v' ++ [b]). split; [|now rewrite <- app_assoc]. apply add_in; [exact Hn|]. right. split; [reflexivity|]. left. eauto.
        -- exists [b]. split; [|reflexivity]. apply add_in; [exact Hn|]. right. auto.
    + apply chars_eqb_neq in Ek. cbn [app]. split.
      * intros [(v' & Hin & ->)|(Hni & -> & Hv)].
        -- apply add_in in Hin; [|exact Hn]. destruct Hin as [[_ Hin]|[-> _]]; [|congruence]. left. eauto.
        -- right. tauto.
      * intros [(v' & Hin & ->)|(Hni & -> & Hv)].
        -- left. exists v'. split; [|reflexivity]. apply add_in; [exact Hn|]. left. split; [congruence|exact Hin].
        -- right. split; [|auto]. intros [H|H]; [tauto|congruence].
Qed.

Lemma nodup_parts {A} (a b : list A) : NoDup (a ++ b) -> NoDup a /\ NoDup b.
Proof.
  induction a as [|x a IH]; cbn [app]; intro H; [split; [constructor|exact H]|]. inversion H; subst. destruct (IH H3).
  split; [constructor; [|assumption]|assumption]. intro Hx. apply H2. apply in_app_iff. now left.
Qed.
Section M.
Context {F : Type}.
Definition def_pairs (m : model F) := flat_map (fun b => map (fun p => (p, b_name b)) (calibrated b)) m.
Lemma param_definitions_spec (m : model F) :
  NoDup (map fst (param_definitions m)) /\
  (forall k v, In (k, v) (param_definitions m) <-> v = pairs_of k (def_pairs m) /\ v <> []).
Proof.
  destruct (fold_definitions (def_pairs m) [] (NoDup_nil _)) as [H1 H2]. cbn zeta in *. split; [exact H1|].
  intros k v. unfold param_definitions. fold (def_pairs m). rewrite H2. cbn. split.
  - intros [(v' & [] & _)|(_ & H)]. exact H.
  - intro H. right. split; [tauto|exact H].
Qed.
Lemma pairs_count k (l : list (chars * chars)) : length (pairs_of k l) = count_occ chars_dec (map fst l) k.
Proof.
  unfold pairs_of. rewrite map_length. induction l as [|[p b] l IH]; cbn [filter map count_occ fst]; [reflexivity|].
  destruct (chars_dec p k) as [->|Hne].
  - rewrite chars_eqb_refl. cbn [length]. now rewrite IH.
  - apply chars_eqb_neq in Hne. now rewrite Hne.
Qed.
Lemma def_pairs_names (m : model F) : map fst (def_pairs m) = flat_map item_name (items m).
Proof.
  rewrite <- calibrated_items. unfold def_pairs. induction m as [|b m IH]; cbn [flat_map]; [reflexivity|].
  rewrite map_app, IH, map_map. cbn. now rewrite map_id.
Qed.
Lemma two_or_more_length {A} (l : list A) : two_or_more l = true <-> 2 <= length l.
Proof. destruct l as [|a [|b l]]; cbn; split; intro H; try discriminate; try lia; reflexivity. Qed.

Lemma existsb_app' {A} (f : A -> bool) a b : existsb f (a ++ b) = (existsb f a || existsb f b)%bool.
Proof. apply existsb_app. Qed.
Lemma existsb_map {A B} (g : A -> B) (f : B -> bool) l : existsb f (map g l) = existsb (fun x => f (g x)) l.
Proof. induction l; cbn; congruence. Qed.
Lemma existsb_true {A} (l : list A) : existsb (fun _ => true) l = false <-> l = [].
Proof. destruct l; cbn; split; congruence. Qed.
Lemma existsb_false {A} (l : list A) : existsb (fun _ => false) l = false.
Proof. induction l; cbn; auto. Qed.

Lemma block_errors (b : block F) : has_errors (validate_block b) = false <-> NoDup (controls b) /\ NoDup (shocks b) /\ NoDup (calibrated b).
Proof.
  unfold has_errors, validate_block. rewrite !existsb_app', !existsb_map. cbn [is_error].
  rewrite !orb_false_iff, !existsb_true, !repeats_nodup.
  assert (H1 : existsb is_error (match controls b, objective b with _ :: _, [] => [NoObjective (b_name b)] | _, _ => [] end) = false)
    by (destruct (controls b), (objective b); reflexivity).
  assert (H2 : existsb is_error (match objective b, constraints b with _ :: _, [] => [NoConstraints (b_name b)] | _, _ => [] end) = false)
    by (destruct (constraints b), (objective b); reflexivity).
  rewrite H1, H2. tauto.
Qed.
Lemma model_errors (m : model F) ev ep : has_errors (full_validation m ev ep) = false <-> no_repetition m.
Proof.
  unfold full_validation, check_undefined_variables, check_undefined_parameters, validate_model, has_errors.
  rewrite !existsb_app', !existsb_map. cbn [is_error]. rewrite !existsb_false, !orb_false_iff, !existsb_true, repeats_nodup.
  assert (Hb : existsb is_error (flat_map validate_block m) = false <->
               forall b, In b m -> NoDup (controls b) /\ NoDup (shocks b) /\ NoDup (calibrated b)).
  { induction m as [|b m IH]; cbn [flat_map]; [split; [intros _ b []|reflexivity]|].
    rewrite existsb_app', orb_false_iff, IH. fold (has_errors (validate_block b)). rewrite block_errors. cbn [In]. split.
    - intros [H1 H2] b' [<-|Hb']; auto.
    - intro H. split; [apply H; now left|]. intros b' Hb'. apply H. now right. }
  rewrite Hb. unfold no_repetition. rewrite <- names_nodup.
  assert (Hf : filter (fun kv : chars * list chars => two_or_more (snd kv)) (param_definitions m) = [] <-> NoDup (flat_map item_name (items m))).
  { rewrite (NoDup_count_occ chars_dec). rewrite <- def_pairs_names. destruct (param_definitions_spec m) as [_ Hs]. split.
    - intros H x. rewrite <- pairs_count. destruct (pairs_of x (def_pairs m)) as [|a [|a' r]] eqn:E; cbn [length]; try lia. exfalso.
      assert (Hin : In (x, a :: a' :: r) (param_definitions m)) by (apply Hs; split; [now symmetry|discriminate]).
      assert (Hin2 : In (x, a :: a' :: r) (filter (fun kv : chars * list chars => two_or_more (snd kv)) (param_definitions m))) by (apply filter_In; auto).
      rewrite H in Hin2. destruct Hin2.
    - intro H. destruct (filter _ (param_definitions m)) as [|[k v] r] eqn:E; [reflexivity|]. exfalso.
      assert (Hin : In (k, v) ((k, v) :: r)) by now left. rewrite <- E in Hin. apply filter_In in Hin as [Hin Ht]. cbn [snd] in Ht.
      apply Hs in Hin as [Hv _]. apply two_or_more_length in Ht. specialize (H k). rewrite <- pairs_count, <- Hv in H. lia. }
  rewrite Hf. split.
  - intros ((H1 & H2 & H3) & _). split; [|split; [exact H2|exact H3]]. intros b Hb'. destruct (H1 b Hb') as (? & ? & _). auto.
  - intros (H1 & H2 & H3). split; [split; [|split; [exact H2|exact H3]]|split; reflexivity].
    intros b Hb'. destruct (H1 b Hb'). split; [auto|]. split; [auto|].
    rewrite <- calibrated_items in H3. clear - Hb' H3. induction m as [|b' m IH]; [destruct Hb'|]. cbn [flat_map] in H3.
    apply nodup_parts in H3 as [H3 H4]. destruct Hb' as [->|Hb']; [exact H3|now apply IH].
Qed.

Lemma defined_vars_spec (m : model F) n : In n (defined_vars m) <-> variable_defined m n.
Proof.
  unfold defined_vars, variable_defined. rewrite in_flat_map. split.
  - intros (b & Hb & H). exists b. split; [exact Hb|]. rewrite !in_app_iff, !in_flat_map in H.
    destruct H as [H|[H|[H|H]]]; auto; right; right; destruct H as (e & He & Hl); unfold lhs_variable in Hl;
      destruct (lhs e) eqn:E; try destruct Hl; try contradiction; subst; exists e, t; (split; [|exact E]).
    + apply in_app_iff in He. tauto.
    + tauto.
  - intros (b & Hb & H). exists b. split; [exact Hb|]. rewrite !in_app_iff, !in_flat_map.
    destruct H as [H|[H|(e & t & He & Hl)]]; auto. right. right.
    assert (Hin : In n (lhs_variable e)) by (unfold lhs_variable; rewrite Hl; now left).
    destruct He as [He|[He|He]]; [left|left|right]; exists e; rewrite ?in_app_iff; auto.
Qed.
Lemma used_vars_spec (m : model F) n : In n (used_vars m) <-> variable_used m n.
Proof.
  unfold used_vars, variable_used, system_equation. rewrite in_flat_map. split.
  - intros (b & Hb & H). rewrite in_app_iff, !in_flat_map in H.
    destruct H as [(e & He & Hn)|(e & He & Hn)]; apply var_names_within in Hn as (t & Ht); exists b, e, t; rewrite ?in_app_iff in He; tauto.
  - intros (b & e & t & Hb & He & Ht). exists b. split; [exact Hb|]. rewrite in_app_iff, !in_flat_map.
    assert (Hn : In n (var_names (rhs e))) by (apply var_names_within; eauto).
    destruct He as [He|[He|[He|He]]]; [left|right|left|left]; exists e; rewrite ?in_app_iff; auto.
Qed.
Lemma used_pars_spec (m : model F) n : In n (used_pars m) <-> parameter_used m n.
Proof.
  unfold used_pars, parameter_used, system_equation. rewrite in_flat_map. split.
  - intros (b & Hb & H). rewrite in_app_iff, !in_flat_map in H.
    destruct H as [(e & He & Hn)|(e & He & Hn)]; rewrite in_app_iff, !par_names_within in Hn; exists b, e; rewrite ?in_app_iff in He; tauto.
  - intros (b & e & Hb & He & Ht). exists b. split; [exact Hb|]. rewrite in_app_iff, !in_flat_map.
    assert (Hn : In n (par_names (lhs e) ++ par_names (rhs e))) by (rewrite in_app_iff, !par_names_within; tauto).
    destruct He as [He|[He|[He|He]]]; [left|right|left|left]; exists e; (split; [rewrite ?in_app_iff; tauto|exact Hn]).
Qed.
Lemma given_spec (m : model F) n : In n (flat_map calibrated m) <-> parameter_given m n.
Proof.
  rewrite calibrated_items, in_flat_map. unfold parameter_given. split; intros (i & Hi & H); exists i; (split; [exact Hi|]); now apply item_name_gives.
Qed.
Lemma sorted_difference_in u d x n : In n (sorted_difference u d x) <-> In n u /\ ~ In n d /\ ~ In n x.
Proof.
  unfold sorted_difference. rewrite isort_in, filter_In, nodup_In, andb_true_iff, !negb_true_iff, !mem_false. tauto.
Qed.
Lemma sorted_difference_nodup u d x : NoDup (sorted_difference u d x).
Proof.
  unfold sorted_difference. eapply Permutation_NoDup; [apply isort_perm|]. apply NoDup_filter, NoDup_nodup.
Qed.
Lemma sorted_difference_sorted u d x : StronglySorted (fun a b => chars_leb a b = true) (sorted_difference u d x).
Proof. unfold sorted_difference. apply isort_sorted; [apply chars_leb_total|apply chars_leb_trans]. Qed.

Lemma undefined_only (m : model F) ev ep n :
  (In (UndefinedVariable n) (full_validation m ev ep) <-> In (UndefinedVariable n) (check_undefined_variables m ev)) /\
  (In (UndefinedParameter n) (full_validation m ev ep) <-> In (UndefinedParameter n) (check_undefined_parameters m ep)).
Proof.
  assert (Hv : forall i, In i (validate_model m) -> i <> UndefinedVariable n /\ i <> UndefinedParameter n).
  { intros i Hi. unfold validate_model in Hi. rewrite !in_app_iff, in_flat_map, !in_map_iff in Hi.
    destruct Hi as [(b & _ & Hi)|[(x & <- & _)|(x & <- & _)]]; [|split; discriminate|split; discriminate].
    unfold validate_block in Hi. rewrite !in_app_iff, !in_map_iff in Hi.
    destruct Hi as [(x & <- & _)|[(x & <- & _)|[(x & <- & _)|[Hi|Hi]]]]; try (split; discriminate).
    - destruct (controls b), (objective b); cbn in Hi; intuition; subst; discriminate.
    - destruct (constraints b), (objective b); cbn in Hi; intuition; subst; discriminate. }
  unfold full_validation. rewrite !in_app_iff. unfold check_undefined_variables, check_undefined_parameters. rewrite !in_map_iff.
  split; split; intro H; try tauto.
  - destruct H as [H|[H|(x & H & _)]]; [destruct (Hv _ H); congruence|exact H|discriminate].
  - destruct H as [H|[(x & H & _)|H]]; [destruct (Hv _ H); congruence|discriminate|exact H].
Qed.
End M.
