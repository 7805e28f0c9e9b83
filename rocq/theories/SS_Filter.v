From Verif Require Import Common Sym_Model Sym_Spec Sym_Proofs Sym_Flatten Sym_More SS_Model SS_Spec SS_Proofs.
From Coq Require Import Permutation Reals Lra.
Local Open Scope list_scope.

(* ---------- _substitute_and_filter ---------- *)
Lemma replace_holds {V} (A : alg V) env known e : model_of A env known -> ev A env (replace_all known e) = ev A env e.
Proof.
  intro H. unfold replace_all. rewrite ev_smap. apply ev_ext. intros s _.
  destruct (slookup s known) as [v|] eqn:E; [|reflexivity]. apply slookup_In in E. symmetry. auto.
Qed.
Lemma known_in_In d vs k v : In (k, v) (known_in d vs) <-> In (k, v) d /\ In k vs.
Proof. unfold known_in. rewrite filter_In. cbn [fst]. now rewrite smem_In. Qed.
Lemma known_in_keys d vs k : In k (map fst (known_in d vs)) <-> In k (map fst d) /\ In k vs.
Proof.
  rewrite !in_map_iff. split.
  - intros ([k' v] & <- & H). apply known_in_In in H as [H1 H2]. split; [|exact H2]. exists (k', v). auto.
  - intros [([k' v] & <- & H1) H2]. exists (k', v). split; [reflexivity|]. now apply known_in_In.
Qed.
Lemma has_unknown_spec d vs e : closed_values d vs ->
  has_unknown (known_in d vs) vs (replace_all (known_in d vs) e) = false <-> determined d vs e.
Proof.
  intro Hc. unfold has_unknown. split.
  - intros H s Hs Hv. destruct (smem s (map fst (known_in d vs))) eqn:Em.
    + apply smem_In, known_in_keys in Em. tauto.
    + exfalso. rewrite <- not_true_iff_false in H. apply H. apply existsb_exists. exists s. split.
      * unfold replace_all. apply atoms_smap. exists s. split; [exact Hs|].
        destruct (slookup s (known_in d vs)) as [w|] eqn:E; [|left; reflexivity].
        apply slookup_In in E. rewrite <- not_true_iff_false, smem_In in Em. exfalso. apply Em.
        apply in_map_iff. exists (s, w). auto.
      * rewrite Em. cbn. rewrite andb_true_r. now apply smem_In.
  - intro H. rewrite <- not_true_iff_false. intro He. apply existsb_exists in He as (s & Hs & Ht).
    apply andb_true_iff in Ht as [H1 H2]. apply smem_In in H1. rewrite negb_true_iff, <- not_true_iff_false, smem_In in H2.
    unfold replace_all in Hs. apply atoms_smap in Hs as (s0 & Hs0 & Hs).
    destruct (slookup s0 (known_in d vs)) as [w|] eqn:E.
    + apply slookup_In, known_in_In in E as [E1 E2]. exact (Hc _ _ E1 E2 _ Hs H1).
    + cbn in Hs. destruct Hs as [->|[]]. apply H2, known_in_keys. split; [|exact H1]. now apply H.
Qed.
Lemma filter_members d vs eqs e : In e (substitute_and_filter eqs d vs) <->
  (known_in d vs = [] /\ In e eqs) \/
  (known_in d vs <> [] /\ exists e0, In e0 eqs /\ e = replace_all (known_in d vs) e0 /\
     has_unknown (known_in d vs) vs e = true).
Proof.
  unfold substitute_and_filter. cbv zeta. destruct (known_in d vs) as [|x k] eqn:E.
  - split; [left; auto|]. intros [[_ H]|[H _]]; [exact H|congruence].
  - rewrite filter_In, in_map_iff. split.
    + intros [(e0 & <- & H1) H2]. right. split; [discriminate|]. exists e0. auto.
    + intros [[H _]|[_ (e0 & H1 & -> & H2)]]; [discriminate|]. split; [exists e0; auto|exact H2].
Qed.
Lemma filter_exact G env eqs d vs : closed_values d vs -> model_of (Ralg G) env (known_in d vs) ->
  (is_steady_state G env eqs <->
   is_steady_state G env (substitute_and_filter eqs d vs) /\
   (known_in d vs <> [] -> is_steady_state G env (filter (fun e => negb (has_unknown (known_in d vs) vs
      (replace_all (known_in d vs) e))) eqs))).
Proof.
  intros Hc Hm. split.
  - intro H. split.
    + intros e He. apply filter_members in He as [[_ He]|[_ (e0 & He & -> & _)]]; [auto|].
      rewrite replace_holds by exact Hm. auto.
    + intros _ e He. apply filter_In in He as [He _]. auto.
  - intros [H1 H2] e He. destruct (known_in d vs) as [|x k] eqn:E.
    + apply H1. apply filter_members. left. auto.
    + rewrite <- E in *. assert (Nn : known_in d vs <> []) by (rewrite E; discriminate).
      destruct (has_unknown (known_in d vs) vs (replace_all (known_in d vs) e)) eqn:Hu.
      * rewrite <- (replace_holds (Ralg G) env (known_in d vs) e Hm). apply H1, filter_members. right.
        split; [exact Nn|]. exists e. auto.
      * apply (H2 Nn). apply filter_In. split; [exact He|]. now rewrite Hu.
Qed.

(* ---------- counting ---------- *)
Lemma filter_drop (p : sx -> bool) used : NoDup used -> forall eqs, (forall e, In e used -> In e eqs /\ p e = false) ->
  (length (filter p eqs) + length used <= length eqs)%nat.
Proof.
  intros Hn eqs H.
  assert (X : (length used <= length (filter (fun e => negb (p e)) eqs))%nat).
  { apply NoDup_incl_length; [exact Hn|]. intros e He. apply filter_In. destruct (H e He) as [H1 H2]. rewrite H2. auto. }
  assert (Y : (length (filter p eqs) + length (filter (fun e => negb (p e)) eqs) = length eqs)%nat).
  { clear. induction eqs as [|e l IH]; cbn; [reflexivity|]. destruct (p e); cbn; lia. }
  lia.
Qed.
Lemma filter_map_length (p : sx -> bool) (f : sx -> sx) l : length (filter p (map f l)) = length (filter (fun e => p (f e)) l).
Proof. induction l as [|e l IH]; cbn; [reflexivity|]. destruct (p (f e)); cbn; auto. Qed.
Lemma propagate_drops ord dord solve simple vars eqs d d' n : set_order_ok ord ->
  solver_uses_equation_symbols solve ->
  closed_values d (map SSs vars) ->
  d' = propagate ord dord solve simple n d eqs vars ->
  closed_values d' (map SSs vars) /\
  (length (substitute_and_filter eqs d' (map SSs vars)) + (length d' - length d) <= length eqs)%nat.
Proof.
  intros Ho Hf Hc ->. unfold propagate. set (vs := map SSs vars) in *.
  destruct (loop_derives ord dord solve simple vs eqs n d) as (l & Hl).
  set (r := prop_loop _ _ _ _ _ _ _ _) in *.
  assert (Hc' : closed_values r vs).
  { intros k v Hk Hv s Hs Hsv. rewrite (der_shape _ _ _ _ _ _ _ _ _ Hl) in Hk.
    apply in_app_or in Hk as [Hk|Hk]; [exact (Hc _ _ Hk Hv _ Hs Hsv)|].
    apply in_map_iff in Hk as ([e kv] & E & Hk). cbn in E. subst kv.
    exact (der_closed ord Ho dord solve simple vs eqs d l r Hf Hl _ _ _ Hk _ Hs Hsv). }
  split; [exact Hc'|].
  assert (El : (length r - length d = length (map fst l))%nat).
  { rewrite (der_shape _ _ _ _ _ _ _ _ _ Hl), app_length, !map_length. lia. }
  rewrite El. unfold substitute_and_filter. cbv zeta. destruct (known_in r vs) as [|x k] eqn:E.
  - enough (l = []) by (subst l; cbn; lia). destruct l as [|[e [u s]] l]; [reflexivity|exfalso].
    destruct (der_new ord Ho dord solve simple vs eqs _ _ _ Hl e u s (or_introl eq_refl)) as (_ & Hu & _).
    assert (In (u, s) (known_in r vs)).
    { apply known_in_In. split; [|exact Hu]. rewrite (der_shape _ _ _ _ _ _ _ _ _ Hl). apply in_or_app. right. left. reflexivity. }
    rewrite E in H. exact H.
  - rewrite <- E. rewrite filter_map_length.
    apply filter_drop; [exact (der_distinct ord Ho _ _ _ _ _ _ _ _ Hl)|].
    intros e He. apply in_map_iff in He as ([e' [u s]] & E' & He). cbn in E'. subst e'.
    split; [exact (proj1 (der_new ord Ho _ _ _ _ _ _ _ _ Hl _ _ _ He))|].
    apply has_unknown_spec; [exact Hc'|]. intros w Hw Hv.
    pose proof (der_used ord Ho _ _ _ _ _ _ _ _ Hl _ _ _ He) as Hu.
    destruct (in_dec sym_eq_dec w (map fst r)) as [Hi|Hi]; [exact Hi|exfalso].
    assert (X : In w (unknowns ord vs r e)) by (apply (unknowns_in ord Ho); auto). rewrite Hu in X. exact X.
Qed.

(* ---------- simplify_provided_ss_equations ---------- *)
Section Simp.
Variables ord sord : set_order.
Hypothesis Ho : set_order_ok ord.
Hypothesis Hs : set_order_ok sord.
Variable dord : sdict -> sdict.
Hypothesis Hd : forall d, Permutation (dord d) d.
Definition extras_of (ss : sdict) (variables : list chars) : sdict :=
  filter (fun kv => negb (smem (fst kv) (map SSs variables))) ss.
Definition proper_of (ss : sdict) (variables : list chars) : sdict :=
  filter (fun kv => smem (fst kv) (map SSs variables)) ss.
Lemma no_extra ss vars : extras_of ss vars = [] -> proper_of ss vars = ss.
Proof.
  unfold extras_of, proper_of. induction ss as [|kv ss IH]; cbn; [reflexivity|].
  destruct (smem (fst kv) (map SSs vars)); cbn; [intro H; f_equal; auto|discriminate].
Qed.
Lemma simplify_unfold ss vars : simplify_provided ord sord dord ss vars =
  match extras_of ss vars with
  | [] => Ok ss
  | x => flat <- flatten ord sord x ;;
         Ok (map (fun kv => (fst kv, subs_seq (dord flat) (snd kv))) (proper_of ss vars))
  end.
Proof.
  destruct ss as [|kv ss]; [reflexivity|]. unfold simplify_provided, extras_of, proper_of. cbv zeta.
  destruct (filter _ (kv :: ss)) as [|x xs]; reflexivity.
Qed.
Lemma extras_nodup ss vars : NoDup (map fst ss) -> NoDup (map fst (extras_of ss vars)).
Proof.
  unfold extras_of. induction ss as [|kv ss IH]; cbn; [auto|]. intro H. inversion_clear H as [|? ? N1 N2].
  destruct (smem (fst kv) (map SSs vars)); cbn; auto. constructor; [|auto].
  intro Hi. apply N1. apply in_map_iff in Hi as (x & E & Hx). apply filter_In in Hx as [Hx _]. apply in_map_iff. eauto.
Qed.
Lemma simplify_err ss vars e : NoDup (map fst ss) -> simplify_provided ord sord dord ss vars = Err e -> e = ValueError.
Proof.
  intros Hn. rewrite simplify_unfold. destruct (extras_of ss vars) as [|x xs] eqn:E; [discriminate|]. rewrite <- E.
  destruct (flatten ord sord (extras_of ss vars)) eqn:F; cbn; [discriminate|]. intros [= <-].
  apply (flatten_err ord sord Ho (extras_of ss vars)) in F; auto using extras_nodup.
Qed.
Lemma simplify_ok ss vars : NoDup (map fst ss) ->
  ((exists r, simplify_provided ord sord dord ss vars = Ok r) <-> acyclic (extras_of ss vars)).
Proof.
  intro Hn. rewrite simplify_unfold. destruct (extras_of ss vars) as [|x xs] eqn:E.
  - split; [|eauto]. intros _. exists (fun _ => O). intros ? ? ? [].
  - rewrite <- E. rewrite <- (flatten_succeeds_iff ord sord Ho (extras_of ss vars) (extras_nodup _ _ Hn)).
    split; intros [r H].
    + destruct (flatten ord sord (extras_of ss vars)) as [f|]; [eauto|discriminate].
    + rewrite H. cbn. eauto.
Qed.
Lemma simplify_keys ss vars r : simplify_provided ord sord dord ss vars = Ok r -> map fst r = map fst (proper_of ss vars).
Proof.
  rewrite simplify_unfold. destruct (extras_of ss vars) as [|x xs] eqn:E.
  - intros [= <-]. now rewrite no_extra.
  - rewrite <- E. destruct (flatten ord sord (extras_of ss vars)) as [f|]; cbn; [|discriminate].
    intros [= <-]. rewrite map_map. reflexivity.
Qed.
Lemma proper_extras {V} (A : alg V) env ss vars :
  model_of A env ss <-> model_of A env (proper_of ss vars) /\ model_of A env (extras_of ss vars).
Proof.
  unfold model_of, proper_of, extras_of. setoid_rewrite filter_In. cbn [fst]. split.
  - intro H. split; intros k v [Hi _]; auto.
  - intros [H1 H2] k v Hi. destruct (smem k (map SSs vars)) eqn:E; [apply H1|apply H2]; rewrite E; auto.
Qed.
Lemma simplify_meaning ss vars r : NoDup (map fst ss) -> NoSelf (extras_of ss vars) ->
  simplify_provided ord sord dord ss vars = Ok r ->
  (forall k v s, In (k, v) r -> In s (atoms v) -> In s (map fst ss) -> In s (map SSs vars)) /\
  forall V (A : alg V) env, model_of A env (extras_of ss vars) -> (model_of A env r <-> model_of A env ss).
Proof.
  intros Hn Hself. rewrite simplify_unfold. destruct (extras_of ss vars) as [|x xs] eqn:E.
  - intros [= <-]. split; [|intros; reflexivity]. intros k v s _ _ Hk. rewrite <- (no_extra _ _ E) in Hk.
    apply in_map_iff in Hk as (kv & <- & Hk). apply filter_In in Hk as [_ Hk]. now apply smem_In.
  - rewrite <- E in *. destruct (flatten ord sord (extras_of ss vars)) as [f|] eqn:F; cbn; [|discriminate].
    intros [= <-].
    pose proof (extras_nodup _ vars Hn) as Hx.
    destruct (flatten_values ord sord Ho Hs (extras_of ss vars) Hx Hself f F) as (P & Q & _ & M).
    assert (Nf : NoDup (map fst (dord f))).
    { apply (Permutation_NoDup (l := map fst (extras_of ss vars))); [|exact Hx].
      etransitivity; [symmetry; exact P|]. apply Permutation_map. symmetry. apply Hd. }
    assert (Kf : forall s, In s (map fst (dord f)) <-> In s (map fst (extras_of ss vars))).
    { intro s. split; intro H.
      - apply (Permutation_in s P). apply in_map_iff in H as (kv & <- & H). apply in_map.
        apply (Permutation_in _ (Hd f) H).
      - apply (Permutation_in s (Permutation_sym P)) in H. apply in_map_iff in H as (kv & <- & H). apply in_map.
        apply (Permutation_in _ (Permutation_sym (Hd f)) H). }
    assert (Vf : forall k w, In (k, w) (dord f) -> forall s, In s (atoms w) -> ~ In s (map fst (dord f))).
    { intros k w Hk s Hs'. rewrite Kf. apply (Q k w); [|exact Hs']. apply (Permutation_in _ (Hd f) Hk). }
    split.
    + intros k v s Hk Hsv Hss. apply in_map_iff in Hk as ([k0 v0] & Ek & Hk). injection Ek as <- <-.
      cbn [snd] in Hsv. rewrite subs_seq_smap in Hsv. apply atoms_smap in Hsv as (s0 & Hs0 & Hsv).
      rewrite (subs_seq_simul (dord f) s0 Nf Vf) in Hsv.
      destruct (in_dec sym_eq_dec s (map SSs vars)) as [Hi|Hi]; [exact Hi|exfalso].
      assert (Hse : In s (map fst (extras_of ss vars))).
      { apply in_map_iff in Hss as (kv & <- & Hss). apply in_map. apply filter_In. split; [exact Hss|].
        apply negb_true_iff, not_true_iff_false. now rewrite smem_In. }
      destruct (slookup s0 (dord f)) as [w|] eqn:L.
      * apply slookup_In in L. apply (Vf _ _ L _ Hsv). now apply Kf.
      * cbn in Hsv. destruct Hsv as [->|[]]. apply slookup_None in L. apply L. now apply Kf.
    + intros V A env Hm. rewrite (proper_extras A env ss vars).
      assert (Hmf : model_of A env (dord f)).
      { eapply model_of_perm; [symmetry; apply Hd|]. now apply M. }
      split.
      * intro H. split; [|exact Hm]. intros k v Hk. rewrite <- (subs_seq_holds A env (dord f) v Hmf).
        apply H. apply in_map_iff. exists (k, v). auto.
      * intros [H _] k v Hk. apply in_map_iff in Hk as ([k0 v0] & Ek & Hk). injection Ek as <- <-.
        cbn [snd]. rewrite subs_seq_holds by exact Hmf. now apply H.
Qed.
End Simp.

(* ---------- compile_known_ss ---------- *)
Lemma sorted_solution_In ss vars k e : In (k, e) (sorted_solution ss vars) <->
  exists v, In v vars /\ k = SSs v /\ slookup (SSs v) ss = Some e.
Proof.
  unfold sorted_solution. rewrite in_flat_map. split.
  - intros (v & Hv & H). destruct (slookup (SSs v) ss) as [e'|] eqn:E; [|destruct H].
    destruct H as [H|[]]. injection H as <- <-. eauto.
  - intros (v & Hv & -> & E). exists v. split; [exact Hv|]. rewrite E. left; reflexivity.
Qed.
Lemma sorted_solution_full ss vars : (forall v, In v vars -> In (SSs v) (map fst ss)) ->
  map fst (sorted_solution ss vars) = map SSs vars.
Proof.
  intro H. unfold sorted_solution. induction vars as [|v vars IH]; [reflexivity|]. cbn [flat_map map].
  destruct (slookup_Some_key (SSs v) ss (H v (or_introl eq_refl))) as (e & ->). cbn. f_equal. apply IH.
  intros v' Hv'. apply H. right; exact Hv'.
Qed.
Lemma combine_fst_snd {A B} (l : list (A * B)) : combine (map fst l) (map snd l) = l.
Proof. induction l as [|[a b] l IH]; cbn; [reflexivity|]. now rewrite IH. Qed.
Lemma symbolic_full ss vars : (forall v, In v vars -> In (SSs v) (map fst ss)) ->
  known_ss_symbolic ss vars = known_ss_dict ss vars.
Proof.
  intro H. unfold known_ss_symbolic, known_ss_dict. rewrite <- (sorted_solution_full ss vars H). apply combine_fst_snd.
Qed.

(* ---------- pack_and_compile ---------- *)
Section Pack.
Variable V : Type.
Variable A : alg V.
Lemma take_filter (env : sym -> V) (p : sym -> bool) : forall nodes x pre,
  length x = length nodes -> (forall i n, nth_error nodes i = Some n -> nth_error x i = Some (env n)) ->
  take_indices V (pre ++ x) (indices_where p (length pre) nodes) = Some (map env (filter p nodes)).
Proof.
  induction nodes as [|n nodes IH]; intros x pre Hl H; cbn [indices_where filter]; [reflexivity|].
  destruct x as [|v x]; [discriminate|]. injection Hl as Hl.
  assert (v = env n) by (specialize (H O n eq_refl); cbn in H; congruence). subst v.
  assert (IH' : take_indices V (pre ++ env n :: x) (indices_where p (S (length pre)) nodes) = Some (map env (filter p nodes))).
  { replace (pre ++ env n :: x) with ((pre ++ [env n]) ++ x) by (rewrite <- app_assoc; reflexivity).
    replace (S (length pre)) with (length (pre ++ [env n])) by (rewrite app_length; cbn; lia).
    apply IH; [exact Hl|]. intros i m Hm. apply (H (S i) m Hm). }
  destruct (p n); [|exact IH'].
  cbn [take_indices]. rewrite nth_error_app2 by lia. rewrite Nat.sub_diag. cbn [nth_error map].
  rewrite IH'. reflexivity.
Qed.
Lemma inner_env_spec (env : sym -> V) params active s :
  (~ In s active -> params s = Some (env s)) ->
  inner_env V active (map env active) params s = Some (env s).
Proof.
  intro H. unfold inner_env.
  destruct (find (fun p => sym_eqb s (fst p)) (combine active (map env active))) as [p|] eqn:E.
  - apply find_some in E as [Hi E]. apply sym_eqb_eq in E. destruct p as [a v]. cbn in *. subst a.
    f_equal. clear - Hi. induction active as [|a l IH]; cbn in Hi; [destruct Hi|].
    destruct Hi as [Hi|Hi]; [injection Hi as -> <-; reflexivity|auto].
  - destruct (smem s active) eqn:Em; [|apply H; intro Hi; apply smem_In in Hi; congruence].
    exfalso. apply smem_In in Em. assert (Hc : In (s, env s) (combine active (map env active))).
    { clear - Em. induction active as [|a l IH]; [destruct Em|]. cbn. destruct Em as [->|Em]; auto. }
    pose proof (find_none _ _ E _ Hc) as F. cbn in F. rewrite sym_eqb_refl in F. discriminate.
Qed.
Lemma eval_graph_spec (env : sym -> V) oenv default e : (forall s, In s (atoms e) -> oenv s = Some (env s)) ->
  eval_graph V A oenv default e = Some (ev A env e).
Proof.
  intro H. unfold eval_graph.
  assert (F : forallb (fun s => match oenv s with Some _ => true | None => false end) (atoms e) = true).
  { apply forallb_forall. intros s Hs. now rewrite (H s Hs). }
  rewrite F. f_equal. apply ev_ext. intros s Hs. now rewrite (H s Hs).
Qed.
Lemma all_some_map {B C} (f : B -> option C) (g : B -> C) l : (forall b, In b l -> f b = Some (g b)) ->
  all_some (map f l) = Some (map g l).
Proof.
  induction l as [|b l IH]; intro H; cbn; [reflexivity|]. rewrite (H b (or_introl eq_refl)), IH; [reflexivity|].
  intros b' Hb'. apply H. right; exact Hb'.
Qed.
Lemma pack_spec outputs nodes params default x env :
  length x = length nodes ->
  (forall i n, nth_error nodes i = Some n -> nth_error x i = Some (env n)) ->
  (forall e s, In e outputs -> In s (atoms e) -> ~ In s nodes -> params s = Some (env s)) ->
  pack_and_compile V A outputs nodes params default x = Some (map (ev A env) outputs).
Proof.
  intros Hl Hx Hp. unfold pack_and_compile. cbv zeta.
  set (gi := flat_map atoms outputs). set (p := fun n => smem n gi).
  assert (Hgi : forall e s, In e outputs -> In s (atoms e) -> In s gi) by (intros e s He Hs; apply in_flat_map; eauto).
  assert (Hact : forall s, In s (filter p nodes) <-> In s nodes /\ In s gi).
  { intro s. rewrite filter_In. unfold p. now rewrite smem_In. }
  destruct (filter p nodes) as [|a0 act] eqn:Ea.
  - apply all_some_map. intros e He. apply eval_graph_spec. intros s Hs. apply (Hp e s He Hs).
    intro Hn. apply (proj2 (Hact s)). split; [exact Hn|eauto].
  - rewrite <- Ea in *. pose proof (take_filter env p nodes x [] Hl Hx) as T. cbn [app length] in T.
    assert (X : (if negb (Nat.eqb (length (filter p nodes)) (length nodes)) then take_indices V x (indices_where p 0 nodes)
                 else Some x) = Some (map env (filter p nodes))).
    { destruct (Nat.eqb (length (filter p nodes)) (length nodes)) eqn:En; cbn [negb]; [|exact T].
      apply Nat.eqb_eq in En. f_equal.
      assert (Ef : filter p nodes = nodes).
      { clear - En. induction nodes as [|n l IH]; [reflexivity|]. cbn in *. destruct (p n).
        - cbn in En. f_equal. apply IH. lia.
        - exfalso. enough (length (filter p l) <= length l)%nat by lia.
          clear. induction l as [|m l IH]; cbn; [lia|]. destruct (p m); cbn; lia. }
      rewrite Ef. clear - Hl Hx. revert x Hl Hx. induction nodes as [|n l IH]; intros [|v x] Hl Hx; try discriminate; [reflexivity|].
      cbn. f_equal; [specialize (Hx O n eq_refl); cbn in Hx; congruence|]. apply IH; [now injection Hl|].
      intros i m Hm. exact (Hx (S i) m Hm). }
    rewrite X. apply all_some_map. intros e He. apply eval_graph_spec. intros s Hs. apply inner_env_spec.
    intro Hn. apply (Hp e s He Hs). intro Hi. apply Hn, Hact. split; [exact Hi|eauto].
Qed.
End Pack.
