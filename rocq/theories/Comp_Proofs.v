(* Compiled functions: proofs. *)
From Verif Require Import Common Conv_Model Conv_Spec Conv_Proofs Conv_Runs Conv_Wire Comp_Model.

Lemma get_In {X} k (d : list (chars * X)) : get k d <> None <-> In k (map fst d).
Proof.
  induction d as [|[k' v] d IH]; cbn [get map fst In]; [split; [congruence|intros []]|].
  destruct (chars_eqb k k') eqn:E.
  - apply chars_eqb_eq in E as ->. split; [auto|congruence].
  - apply chars_eqb_neq in E. rewrite IH. split; auto. intros [e|i]; [congruence|auto].
Qed.
Lemma get_filter {X} (f : chars -> bool) k (d : list (chars * X)) : f k = true -> get k (filter (fun p => f (fst p)) d) = get k d.
Proof.
  intro h. induction d as [|[k' v] d IH]; cbn [filter get fst]; auto. destruct (f k') eqn:E; cbn [get].
  - destruct (chars_eqb k k'); auto.
  - destruct (chars_eqb k k') eqn:F; auto. apply chars_eqb_eq in F as ->. congruence.
Qed.
Lemma set_item_new {X} k (v : X) d : ~ In k (map fst d) -> set_item k v d = d ++ [(k, v)].
Proof.
  induction d as [|[k' w] d IH]; cbn [set_item map fst In app]; auto. intro h. destruct (chars_eqb k k') eqn:E.
  - apply chars_eqb_eq in E as ->. exfalso; auto.
  - f_equal. auto.
Qed.
Lemma dict_of_nodup {X} (l : list (chars * X)) : NoDup (map fst l) -> dict_of l = l.
Proof.
  unfold dict_of. assert (forall l d : list (chars * X), NoDup (map fst (d ++ l)) -> fold_left (fun d p => set_item (fst p) (snd p) d) l d = d ++ l) as H; [|intro; apply (H l []); auto].
  clear. induction l as [|[k v] l IH]; intros d nd; cbn [fold_left fst snd]; [now rewrite app_nil_r|].
  rewrite set_item_new, IH, <- app_assoc; auto.
  - rewrite <- app_assoc. exact nd.
  - rewrite map_app in nd. cbn in nd. apply NoDup_remove_2 in nd. intro i. apply nd, in_or_app. now left.
Qed.
Lemma get_nth {X} (ks : list chars) : forall (vs : list X) j k v, NoDup ks -> nth_error ks j = Some k -> nth_error vs j = Some v -> get k (combine ks vs) = Some v.
Proof.
  induction ks as [|k' ks IH]; intros [|v' vs] [|j] k v nd; cbn [nth_error combine get]; try discriminate.
  - intros [= ->] [= ->]. now rewrite chars_eqb_refl.
  - intros e1 e2. inversion nd as [|? ? nin nd']; subst. destruct (chars_eqb k k') eqn:E; [|eauto].
    apply chars_eqb_eq in E as ->. exfalso. apply nin. eapply nth_error_In; eauto.
Qed.
Lemma all_some_spec {X} (l : list (option X)) : match all_some l with Some r => l = map Some r | None => In None l end.
Proof.
  induction l as [|[x|] l IH]; cbn; auto. destruct (all_some l); cbn; [now f_equal|auto].
Qed.
Lemma count_name_pos k l : count_name k l <> 0 <-> exists i, In (i, k) l.
Proof.
  unfold count_name. induction l as [|[i nm] l IH]; cbn [filter snd length In]; [split; [lia|intros [? []]]|].
  destruct (chars_eqb k nm) eqn:E; cbn [length].
  - apply chars_eqb_eq in E as ->. split; [intros; exists i; auto|lia].
  - apply chars_eqb_neq in E. rewrite IH. split; intros [j h]; exists j; auto. destruct h as [h|h]; auto. congruence.
Qed.
Lemma count_name_one k l : NoDup (map snd l) -> count_name k l <= 1.
Proof.
  unfold count_name. induction l as [|[i nm] l IH]; cbn [filter map snd length]; intro nd; [lia|]. inversion nd as [|? ? nin nd']; subst.
  destruct (chars_eqb k nm) eqn:E; cbn [length]; auto. apply chars_eqb_eq in E as ->. specialize (IH nd').
  destruct (filter (fun p => chars_eqb nm (snd p)) l) as [|p q] eqn:F; cbn [length] in *; [lia|].
  exfalso. apply nin. assert (In p (p :: q)) as ip by now left. rewrite <- F in ip. apply filter_In in ip as [ip e].
  apply chars_eqb_eq in e as ->. now apply in_map.
Qed.

Section Proofs.
Context {V Op : Type}.
Variable sem : Op -> list V -> V.
Variable default : V.
Notation node := (node V Op).
Notation evaln := (evaln sem).
Lemma evaln_ext (r r' : nat -> V) (n : node) : (forall i nm, In (i, nm) (leaves n) -> r i = r' i) -> evaln r n = evaln r' n.
Proof.
  induction n as [v|i nm|f l IH] using node_ind'; intro h.
  - reflexivity.
  - cbn. apply (h i nm). now left.
  - cbn [Conv_Spec.evaln]. f_equal. cbn [leaves] in h.
    induction IH as [|x l hx IHl IH']; cbn [map]; auto. cbn [flat_map] in h. f_equal.
    + apply hx. intros i nm hi. apply (h i nm), in_or_app. now left.
    + apply IH'. intros i nm hi. apply (h i nm), in_or_app. now right.
Qed.
Lemma env_nth ins : forall vals j i nm v, NoDup (map fst ins) -> nth_error ins j = Some (i, nm) -> nth_error vals j = Some v -> env default ins vals i = v.
Proof.
  induction ins as [|[i' nm'] ins IH]; intros [|v' vals] [|j] i nm v nd; cbn [nth_error env]; try discriminate.
  - intros [= -> ->] [= ->]. now rewrite Nat.eqb_refl.
  - intros e1 e2. inversion nd as [|? ? nin nd']; subst. destruct (i =? i') eqn:E; [|eauto].
    apply Nat.eqb_eq in E as ->. exfalso. apply nin. apply nth_error_In in e1. apply (in_map fst) in e1. exact e1.
Qed.
(* a call by keywords *)
Lemma call_kw_ok (f : func) kw : NoDup (map fst (f_ins f)) -> NoDup (map snd (f_ins f)) ->
  match call_kw sem default f kw with
  | Ok vals => (forall k, In k (map fst kw) -> In k (map snd (f_ins f))) /\
      exists r, (forall i nm, In (i, nm) (f_ins f) -> get nm kw = Some (r i)) /\ vals = map (evaln r) (f_outs f)
  | Err e => e = TypeError /\ ((exists k, In k (map fst kw) /\ ~ In k (map snd (f_ins f))) \/ exists i nm, In (i, nm) (f_ins f) /\ get nm kw = None)
  end.
Proof.
  intros nd1 nd2. unfold call_kw. destruct (forallb _ kw) eqn:G.
  - rewrite forallb_forall in G. pose proof (all_some_spec (map (fun p => get (snd p) kw) (f_ins f))) as A.
    destruct (all_some _) as [vals|].
    + unfold call. assert (length vals = length (f_ins f)) as L. { apply (f_equal (@length _)) in A. rewrite !map_length in A. auto. }
      rewrite L, Nat.eqb_refl. split.
      * intros k i. apply in_map_iff in i as ([k' v] & e & i). cbn in e; subst k'. specialize (G _ i). cbn [fst] in G. apply Nat.eqb_eq in G.
        destruct (proj1 (count_name_pos k (f_ins f))) as [j h]; [lia|]. apply in_map_iff. exists (j, k). auto.
      * exists (env default (f_ins f) vals). split; auto. intros i nm h. apply In_nth_error in h as [j ej].
        assert (nth_error (map (fun p => get (snd p) kw) (f_ins f)) j = Some (get nm kw)) as e1 by (rewrite nth_error_map, ej; reflexivity).
        rewrite A, nth_error_map in e1. destruct (nth_error vals j) as [v|] eqn:ev; [|discriminate]. cbn in e1. injection e1 as e1.
        rewrite <- e1. f_equal. symmetry. eapply env_nth; eauto.
    + split; auto. right. apply in_map_iff in A as ([i nm] & e & h). exists i, nm. auto.
  - split; auto. left. assert (exists p, In p kw /\ count_name (fst p) (f_ins f) <> 1) as ([k v] & hk & hc).
    { clear - G. induction kw as [|p kw IH]; [discriminate|]. cbn [forallb] in G. apply andb_false_iff in G as [G|G].
      - exists p. split; [now left|]. now apply Nat.eqb_neq in G.
      - destruct (IH G) as (q & i & h). exists q. split; auto. now right. }
    exists k. split; [apply in_map_iff; exists (k, v); auto|]. cbn [fst] in hc. intro i. apply in_map_iff in i as ([j nm] & e & i). cbn in e; subst nm.
    pose proof (count_name_one k (f_ins f) nd2). assert (count_name k (f_ins f) <> 0); [|lia]. apply count_name_pos. eauto.
Qed.
Lemma function_ok ins (outs : list node) : match function ins outs with
  | Ok f => f = Func ins outs /\ (forall p, In p (flat_map leaves outs) -> In p ins)
  | Err e => e = MissingInput /\ exists p, In p (flat_map leaves outs) /\ ~ In p ins end.
Proof.
  unfold function. destruct (forallb _ (flat_map leaves outs)) eqn:G.
  - split; auto. rewrite forallb_forall in G. intros p i. specialize (G p i). destruct (in_dec input_dec p ins); [auto|discriminate].
  - split; auto. clear - G. induction (flat_map leaves outs) as [|p l IH]; [discriminate|]. cbn [forallb] in G. apply andb_false_iff in G as [G|G].
    + exists p. split; [now left|]. destruct (in_dec input_dec p ins); [discriminate|auto].
    + destruct (IH G) as (q & i & h). exists q. split; auto. now right.
Qed.
(* an input has one name *)
Definition named (l : list input) : Prop := forall i a b, In (i, a) l -> In (i, b) l -> a = b.
(* a name has one input *)
Definition unambiguous (l : list input) : Prop := forall i j a, In (i, a) l -> In (j, a) l -> i = j.
Lemma named_nodup l : named l -> NoDup l -> NoDup (map fst l).
Proof.
  intros n nd. induction nd as [|[i a] l nin nd IH]; cbn [map fst]; constructor.
  - intro h. apply in_map_iff in h as ([j b] & e & h). cbn in e; subst j. apply nin. rewrite (n i a b); cbn; auto.
  - apply IH. intros j b c hb hc. apply (n j); now right.
Qed.
Lemma unambiguous_nodup l : unambiguous l -> NoDup l -> NoDup (map snd l).
Proof.
  intros n nd. induction nd as [|[i a] l nin nd IH]; cbn [map snd]; constructor.
  - intro h. apply in_map_iff in h as ([j b] & e & h). cbn in e; subst b. apply nin. rewrite (n i j a); cbn; auto.
  - apply IH. intros j b c hb hc. apply (n j b c); now right.
Qed.
Lemma inputs_In (outs : list node) p : In p (inputs_of outs) <-> In p (flat_map leaves outs).
Proof. apply nodup_In. Qed.
Lemma kw_function (outs : list node) kw : named (flat_map leaves outs) -> unambiguous (flat_map leaves outs) ->
  match (f <- function (inputs_of outs) outs ;; call_kw sem default f (accepted f kw)) with
  | Ok vals => exists r, (forall i nm, In (i, nm) (flat_map leaves outs) -> get nm kw = Some (r i)) /\ vals = map (evaln r) outs
  | Err e => e = TypeError /\ exists i nm, In (i, nm) (flat_map leaves outs) /\ get nm kw = None
  end.
Proof.
  intros n u. pose proof (function_ok (inputs_of outs) outs) as F. destruct (function _ _) as [f|e]; cbn [bind].
  - destruct F as [-> _]. set (f := Func (inputs_of outs) outs).
    assert (NoDup (map fst (f_ins f))) as nd1. { apply named_nodup; [|apply NoDup_nodup]. intros i a b ha hb. apply inputs_In in ha, hb. eauto. }
    assert (NoDup (map snd (f_ins f))) as nd2. { apply unambiguous_nodup; [|apply NoDup_nodup]. intros i a b ha hb. apply inputs_In in ha, hb. eauto. }
    pose proof (call_kw_ok f (accepted f kw) nd1 nd2) as C. 
    assert (forall i nm, In (i, nm) (f_ins f) -> get nm (accepted f kw) = get nm kw) as A.
    { intros i nm h. unfold accepted. apply (get_filter (fun k => negb (count_name k (f_ins f) =? 0))). apply negb_true_iff, Nat.eqb_neq, count_name_pos. eauto. }
    destruct (call_kw sem default f (accepted f kw)) as [vals|e].
    + destruct C as (_ & r & h & ->). exists r. split; auto. intros i nm hi. apply inputs_In in hi. rewrite <- (A i nm hi). now apply h.
    + destruct C as [-> C]. split; auto. destruct C as [(k & hk & nk)|(i & nm & hi & e)].
      * exfalso. apply in_map_iff in hk as ([k' v] & e & hk). cbn in e; subst k'. unfold accepted in hk. apply filter_In in hk as [_ hk]. cbn [fst] in hk.
        apply negb_true_iff, Nat.eqb_neq, count_name_pos in hk as [i hk]. apply nk. apply in_map_iff. exists (i, k). auto.
      * exists i, nm. split; [now apply inputs_In|]. now rewrite <- (A i nm hi).
  - destruct F as [_ (p & h & nh)]. exfalso. apply nh. now apply inputs_In.
Qed.
End Proofs.
