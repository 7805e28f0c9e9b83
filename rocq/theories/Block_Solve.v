From Verif Require Import Common Sym_Model Sym_Spec Sym_Proofs Sym_Flatten Sym_Diff Sym_More SymDict_Model SymDict_More
  Block_Model Block_Spec Block_Proofs Block_Lagr Block_Foc.
From Coq Require Import Permutation Reals Lra.
Local Open Scope list_scope.

(* ---------- flags of equations outside calibration ---------- *)
Lemma check_flags_ok fl io ic : forall d, check_flags fl io ic d = Ok tt ->
  forall k e, In (k, e) d -> exists f, nget k fl = Some f /\ fl_cal f = false /\ (ic = false -> fl_exclude f = false) /\
    (io = false -> fl_min f = false /\ fl_max f = false).
Proof.
  induction d as [|[k0 e0] d IH]; intros H k e Hin; [destruct Hin|]. cbn [check_flags] in H.
  destruct (nget k0 fl) as [f|] eqn:E; [|discriminate]. unfold fl_ok in H.
  destruct (fl_cal f) eqn:E1; cbn in H; [discriminate|].
  destruct ic; destruct (fl_exclude f) eqn:E2; cbn in H; try discriminate;
  destruct io; destruct (fl_min f) eqn:E3; cbn in H; try discriminate;
  destruct (fl_max f) eqn:E4; cbn in H; try discriminate;
  (destruct Hin as [Hin|Hin]; [injection Hin as <- <-; exists f; rewrite E; repeat split; auto; discriminate|exact (IH H k e Hin)]).
Qed.
Lemma in_numbered {A} n (l : list A) i x : nth_error l i = Some x -> In ((n + i)%nat, x) (numbered n l).
Proof.
  revert n i. induction l as [|y l IH]; intros n [|i] H; cbn in H; try discriminate.
  - injection H as ->. rewrite Nat.add_0_r. now left.
  - right. specialize (IH (S n) i H). now rewrite Nat.add_succ_r.
Qed.

Lemma flags_lookup a i e pre : forall suf, map ent_of pre ++ ent_of e :: suf = entries a -> i = length pre ->
  nget i (numbered 0 (map e_flags (entries a))) = Some (extract_flags e) /\
  nget i (numbered 0 (map e_mult (entries a))) = Some (extract_multiplier e).
Proof.
  intros suf H ->. rewrite <- H. change (length pre) with (0 + length pre)%nat. rewrite !nget_numbered.
  rewrite !map_app. cbn [map]. split.
  - rewrite nth_error_app2 by (rewrite !map_length; lia). rewrite !map_length, Nat.sub_diag. reflexivity.
  - rewrite nth_error_app2 by (rewrite !map_length; lia). rewrite !map_length, Nat.sub_diag. reflexivity.
Qed.
Lemma entries_split a pre e suf : ab_defs a ++ ab_obj a ++ ab_cons a ++ ab_ids a = pre ++ e :: suf ->
  exists suf', map ent_of pre ++ ent_of e :: suf' = entries a.
Proof.
  intro H. exists (map ent_of suf ++ flat_map calib_entry (ab_calib a)). unfold entries. rewrite H, map_app.
  cbn [map]. rewrite <- app_assoc. reflexivity.
Qed.
(* every numbered equation finds its own flags and multiplier *)
Lemma comp_lookup a pre l suf : ab_defs a ++ ab_obj a ++ ab_cons a ++ ab_ids a = pre ++ l ++ suf ->
  forall i e, nth_error l i = Some e ->
    nget (length pre + i) (numbered 0 (map e_flags (entries a))) = Some (extract_flags e) /\
    nget (length pre + i) (numbered 0 (map e_mult (entries a))) = Some (extract_multiplier e).
Proof.
  intros H i e Hi. apply nth_error_split in Hi as (l1 & l2 & -> & Hl).
  destruct (entries_split a (pre ++ l1) e (l2 ++ suf)) as (suf' & E).
  { rewrite H, <- !app_assoc. reflexivity. }
  eapply (flags_lookup a _ e (pre ++ l1)); [exact E|]. rewrite app_length. lia.
Qed.

Section S.
Variables ord sord : set_order.
Variable aord : list sx -> list sx.
Hypothesis Ho : set_order_ok ord.
Hypothesis Hs : set_order_ok sord.
Hypothesis Ha : forall l, Permutation (aord l) l.

(* ---------- validation ---------- *)
Lemma validate_facts a short : validate (raw_block a short) = Ok tt ->
  (forall e, In e (ab_defs a ++ ab_obj a ++ ab_cons a ++ ab_ids a) -> g_cal e = None) /\
  (ab_obj a = [] <-> ab_controls a = []) /\ (length (ab_obj a) <= 1)%nat.
Proof.
  intro H. unfold validate in H.
  assert (Ho' : k_obj (raw_block a short) = None <-> ab_obj a = []) by (unfold raw_block; cbn [k_obj]; destruct (ab_obj a); split; intro; (discriminate || reflexivity)).
  assert (Hc' : k_controls (raw_block a short) = None <-> ab_controls a = []) by (unfold raw_block; cbn [k_controls]; destruct (ab_controls a); split; intro; (discriminate || reflexivity)).
  assert (Hoc : ab_obj a = [] <-> ab_controls a = []).
  { rewrite <- Ho', <- Hc'. destruct (k_obj (raw_block a short)), (k_controls (raw_block a short)); try discriminate H; split; intro; (discriminate || reflexivity). }
  assert (H' : (if Nat.ltb 1 (length (tab (k_obj (raw_block a short)))) then Err (GEconError 21)
      else if negb (forallb (control_found (raw_block a short)) (match k_controls (raw_block a short) with Some l => l | None => [] end)) then Err (GEconError 22)
      else bind (check_flags (k_flags (raw_block a short)) false false (tab (k_defs (raw_block a short)))) (fun _ =>
           bind (check_flags (k_flags (raw_block a short)) true false (tab (k_obj (raw_block a short)))) (fun _ =>
           bind (check_flags (k_flags (raw_block a short)) false true (tab (k_cons (raw_block a short)))) (fun _ =>
           bind (check_flags (k_flags (raw_block a short)) false false (tab (k_ids (raw_block a short)))) (fun _ =>
           check_minmax (k_flags (raw_block a short)) (tab (k_obj (raw_block a short)))))))) = Ok tt).
  { destruct (k_obj (raw_block a short)), (k_controls (raw_block a short)); try discriminate; exact H. }
  clear H. destruct (Nat.ltb 1 _) eqn:El; [discriminate|]. destruct (negb _); [discriminate|].
  destruct (check_flags _ false false (tab (k_defs _))) as [[]|] eqn:F1; cbn [bind] in H'; [|discriminate].
  destruct (check_flags _ true false (tab (k_obj _))) as [[]|] eqn:F2; cbn [bind] in H'; [|discriminate].
  destruct (check_flags _ false true (tab (k_cons _))) as [[]|] eqn:F3; cbn [bind] in H'; [|discriminate].
  destruct (check_flags _ false false (tab (k_ids _))) as [[]|] eqn:F4; cbn [bind] in H'; [|discriminate].
  split; [|split; [exact Hoc|]].
  - assert (K : forall pre l suf io ic, ab_defs a ++ ab_obj a ++ ab_cons a ++ ab_ids a = pre ++ l ++ suf ->
        check_flags (numbered 0 (map e_flags (entries a))) io ic (numbered (length pre) (map equation_to_sympy l)) = Ok tt ->
        forall e, In e l -> g_cal e = None).
    { intros pre l suf io ic E F e He. apply In_nth_error in He as (i & Hi).
      destruct (check_flags_ok _ _ _ _ F (length pre + i) (equation_to_sympy e)) as (f & Hf & Hcal & _).
      { apply in_numbered. now rewrite nth_error_map, Hi. }
      destruct (comp_lookup a pre l suf E i e Hi) as [Hf' _]. rewrite Hf in Hf'. injection Hf' as ->.
      unfold extract_flags in Hcal. cbn in Hcal. destruct (g_cal e); [discriminate|reflexivity]. }
    unfold raw_block in F1, F2, F3, F4. cbn [k_flags k_defs k_obj k_cons k_ids] in F1, F2, F3, F4.
    rewrite opt_list_tab in F1, F2, F3, F4.
    intros e He. apply in_app_or in He as [He|He]; [|apply in_app_or in He as [He|He]; [|apply in_app_or in He as [He|He]]].
    + exact (K [] (ab_defs a) (ab_obj a ++ ab_cons a ++ ab_ids a) false false eq_refl F1 e He).
    + refine (K (ab_defs a) (ab_obj a) (ab_cons a ++ ab_ids a) true false eq_refl F2 e He).
    + apply (K (ab_defs a ++ ab_obj a) (ab_cons a) (ab_ids a) false true); [now rewrite <- app_assoc|rewrite app_length; exact F3|exact He].
    + apply (K (ab_defs a ++ ab_obj a ++ ab_cons a) (ab_ids a) [] false false); [now rewrite <- !app_assoc, app_nil_r|rewrite !app_length, Nat.add_assoc; exact F4|exact He].
  - unfold raw_block in El. cbn [k_obj] in El. rewrite opt_list_tab in El. unfold numbered in El.
    rewrite combine_length, seq_length, map_length, Nat.min_id in El. apply Nat.ltb_ge in El. exact El.
Qed.

(* ---------- kept constraints ---------- *)
Lemma keep_spec fl cs : forall n, (forall i e, nth_error cs i = Some e -> nget (n + i) fl = Some (extract_flags e)) ->
  keep fl (numbered n (map equation_to_sympy cs)) = Ok (map equation_to_sympy (filter (fun e => negb (g_exclude e)) cs)).
Proof.
  induction cs as [|e cs IH]; intros n H; [reflexivity|]. unfold numbered. cbn [map length seq combine keep].
  unfold not_excluded. cbn [fst snd]. pose proof (H 0%nat e eq_refl) as H0. rewrite Nat.add_0_r in H0. rewrite H0. cbn [bind].
  unfold numbered in IH. rewrite (IH (S n)).
  - cbn [bind filter]. unfold extract_flags. cbn [fl_exclude]. destruct (g_exclude e); reflexivity.
  - intros i e' Hi. rewrite <- (H (S i) e' Hi). f_equal. lia.
Qed.

(* ---------- discount factor ---------- *)
Lemma addends_atoms e : forall x s, In x (addends e) -> In s (atoms x) -> In s (atoms e).
Proof.
  induction e as [z|s0|e1 IH1 e2 IH2|e1 IH1 e2 IH2|e IH|f k e IH]; intros x s Hx Hin; cbn in Hx |- *.
  1,2,4,6: destruct Hx as [<-|[]]; exact Hin.
  - apply in_app_or in Hx as [Hx|Hx]; apply in_or_app; eauto.
  - apply in_map_iff in Hx as (y & <- & Hy). cbn in Hin. eauto.
Qed.
Lemma addends_nonempty e : addends e <> [].
Proof.
  induction e; cbn; try discriminate.
  - intro H. apply app_eq_nil in H. tauto.
  - intro H. apply map_eq_nil in H. contradiction.
Qed.
Lemma discount_spec obj c : discounted_by obj c -> g_cal obj = None ->
  exists df, discount_factor aord (equation_to_sympy obj) = Ok df /\ param_only df /\
    (forall G env, ev (Ralg G) env df = ev (Ralg G) env c) /\ (forall G env, defined G env c -> defined G env df).
Proof.
  intros H Hcal. assert (E : equation_to_sympy obj = Eqn (g_lhs obj) (g_rhs obj)) by (unfold equation_to_sympy; now rewrite Hcal).
  rewrite E. unfold discount_factor, eqn_atoms. cbn [lhs rhs]. destruct H as [Hst|V t u c El Er Hu Hp].
  - replace (forallb is_now_or_lag (atoms (g_lhs obj) ++ atoms (g_rhs obj))) with true.
    + exists (Cst 1). repeat split; auto. intros s [].
    + symmetry. apply forallb_forall. intros s Hin. destruct (Hst s Hin) as [H1 H2]. destruct s as [n|b t|b]; cbn.
      * reflexivity.
      * destruct (H2 b t eq_refl) as [-> | ->]; reflexivity.
      * exfalso. exact (H1 b eq_refl).
  - assert (Hlag : forallb is_now_or_lag (atoms (g_lhs obj) ++ atoms (g_rhs obj)) = false).
    { apply not_true_iff_false. intro Hf. rewrite forallb_forall in Hf.
      assert (X : is_now_or_lag (SDate V 1) = true); [|discriminate].
      apply Hf. rewrite Er. apply in_or_app; right. cbn. apply in_or_app; right. apply in_or_app; right. now left. }
    rewrite Hlag, El. cbn [set_date]. rewrite Er. unfold args. cbn [addends].
    destruct (addends u ++ [Mu c (Sy (SDate V 1))]) as [|x [|y l]] eqn:Eadd.
    { apply app_eq_nil in Eadd as [_ ?]. discriminate. }
    { pose proof (addends_nonempty u) as Hne. destruct (addends u) as [|z l]; [congruence|]. cbn in Eadd. injection Eadd as _ Eadd.
      apply app_eq_nil in Eadd as [_ ?]. discriminate. }
    rewrite <- Eadd.
    set (p := fun a0 : sx => smem (SDate V 1) (atoms a0)).
    assert (Hfl : filter p (addends u ++ [Mu c (Sy (SDate V 1))]) = [Mu c (Sy (SDate V 1))]).
    { rewrite filter_app. assert (Hl : filter p (addends u) = []).
      { assert (K : forall l, (forall x, In x l -> p x = false) -> filter p l = []).
        { induction l0 as [|z l0 IH]; intro K; [reflexivity|]. cbn. rewrite (K z (or_introl eq_refl)). apply IH. intros; apply K; now right. }
        apply K. intros x0 Hx0. unfold p. apply not_true_iff_false. intro Hm. apply smem_In in Hm. apply Hu. eapply addends_atoms; eassumption. }
      rewrite Hl. cbn [app filter]. replace (p (Mu c (Sy (SDate V 1)))) with true; [reflexivity|].
      symmetry. apply smem_In. cbn. apply in_or_app. right. now left. }
    assert (Hperm : Permutation (filter p (aord (addends u ++ [Mu c (Sy (SDate V 1))]))) [Mu c (Sy (SDate V 1))]).
    { transitivity (filter p (addends u ++ [Mu c (Sy (SDate V 1))])); [|rewrite Hfl; reflexivity]. assert (K : forall l l' : list sx, Permutation l l' -> Permutation (filter p l) (filter p l')).
      { intros l0 l0' Hp'. induction Hp'; cbn; auto.
        - destruct (p x0); auto.
        - destruct (p y0), (p x0); auto. apply perm_swap.
        - etransitivity; eassumption. }
      apply K, Ha. }
    apply Permutation_sym, Permutation_length_1_inv in Hperm. rewrite Hperm.
    eexists. split; [reflexivity|].
    assert (Hc1 : subs1 (SDate V 1) (Cst 1) c = c).
    { rewrite subs1_smap. rewrite <- (smap_id c) at 2. apply smap_ext. intros s Hin. destruct (Hp s Hin) as (n & ->). reflexivity. }
    cbn [subs1]. rewrite Hc1. replace (sym_eqb (SDate V 1) (SDate V 1)) with true by (symmetry; apply sym_eqb_refl).
    repeat split.
    + intros s Hin. cbn in Hin. rewrite app_nil_r in Hin. auto.
    + intros G env. rewrite evMu. cbn. ring.
    + assumption.
Qed.

(* ---------- the written-date dictionary ---------- *)
Section W.
Variable a : ablock.
Hypothesis Hok : definitions_ok a.
Variable flat : sdict.
Hypothesis Hflat : flatten ord sord (def_pairs a) = Ok flat.
Definition sd1 : sdict := map (fun e => (key_of e, flatval flat e)) (ab_defs a).
Lemma sd1_keys : map fst sd1 = map fst (def_pairs a).
Proof.
  unfold sd1, def_pairs. rewrite map_map. assert (H := def_shape a Hok). clear Hok Hflat.
  induction (ab_defs a) as [|e l IH]; [reflexivity|]. cbn [map flat_map]. destruct (H e (or_introl eq_refl)) as (b & t & E & _).
  unfold key_of at 1. rewrite E. cbn. f_equal. apply IH. intros; apply H; now right.
Qed.
Lemma sd1_def_dict d' : tab d' = map (fun ke => (fst ke, Eqn (g_lhs (snd ke)) (flatval flat (snd ke)))) (numbered 0 (ab_defs a)) ->
  def_dict (tab d') = Ok sd1.
Proof.
  intros ->. unfold def_dict.
  assert (E : def_entries (map (fun ke : nat * geq => (fst ke, Eqn (g_lhs (snd ke)) (flatval flat (snd ke)))) (numbered 0 (ab_defs a))) = Ok sd1).
  { unfold sd1. generalize 0%nat. assert (H := def_shape a Hok). clear Hok Hflat. induction (ab_defs a) as [|e l IH]; intro n; [reflexivity|].
    unfold numbered. cbn [length seq combine map def_entries fst snd lhs rhs]. destruct (H e (or_introl eq_refl)) as (b & t & E & _).
    rewrite E. unfold numbered in IH. rewrite IH by (intros; apply H; now right). cbn [bind]. unfold key_of. rewrite E. reflexivity. }
  rewrite E. cbn [bind]. rewrite dupd_nil; [reflexivity|exact seqb_eq|]. rewrite sd1_keys. exact (def_pairs_nodup a Hok).
Qed.
Lemma sd1_sound G full : follows a G full -> forall k v, slookup k sd1 = Some v -> full k = ev (Ralg G) full v.
Proof.
  intros H k v Hl. apply slookup_In in Hl. unfold sd1 in Hl. apply in_map_iff in Hl as (e & E & He). injection E as <- <-.
  destruct (def_shape a Hok e He) as (b & t & E & _). unfold key_of. rewrite E.
  exact (follows_flat ord sord Ho Hs a Hok flat Hflat G full e b t H He E).
Qed.
Lemma written_means G e x : g_cal e = None -> x = written sord sd1 (equation_to_sympy e) ->
  forall env, follows_definitions a env env (Ralg G) -> ev (Ralg G) env x = (ev (Ralg G) env (g_rhs e) - ev (Ralg G) env (g_lhs e))%R.
Proof.
  intros Hc -> env [_ Hf]. unfold written, eq_zero, equation_to_sympy. rewrite Hc. cbn [lhs rhs].
  rewrite evAd, evNg, !(ev_subs_dict (Ralg G) sord env sd1 (sd1_sound G env Hf)). ring.
Qed.
Lemma written_atoms e s : g_cal e = None -> In s (atoms (written sord sd1 (equation_to_sympy e))) -> ~ In s (map fst sd1).
Proof.
  intros Hc Hin. unfold written, eq_zero, equation_to_sympy in Hin. rewrite Hc in Hin. cbn [lhs rhs atoms] in Hin.
  assert (K : forall x, In s (atoms (subs_dict sord sd1 x)) -> ~ In s (map fst sd1)).
  { intros x Hx. 
    assert (Hv : forall k w s, In (k, w) sd1 -> In s (atoms w) -> ~ In s (map fst sd1)).
    { intros k w s' Hkw Hsw. rewrite sd1_keys. unfold sd1 in Hkw. apply in_map_iff in Hkw as (e' & E & He'). injection E as <- <-.
      exact (proj1 (proj2 (flat_facts ord sord Ho Hs a Hok flat Hflat)) _ _ _ (flatval_in ord sord Ho Hs a Hok flat Hflat e' He') Hsw). }
    rewrite (subs_dict_simul sord Hs sd1 x) in Hx.
    - apply atoms_smap in Hx as (s0 & Hs0 & Hx). destruct (slookup s0 sd1) as [w|] eqn:E.
      + apply slookup_In in E. exact (Hv _ _ _ E Hx).
      + destruct Hx as [<-|[]]. now apply slookup_None in E.
    - rewrite sd1_keys. exact (def_pairs_nodup a Hok).
    - exact Hv. }
  apply in_app_or in Hin as [Hin|Hin]; exact (K _ Hin).
Qed.
End W.

(* ---------- all first-order conditions ---------- *)
Lemma all_focs_spec foc cs : (forall c, In c cs -> exists f, foc c = Ok f) ->
  exists fs, all_focs foc cs = Ok fs /\ length fs = length cs /\
    forall i c, nth_error cs i = Some c -> exists f, nth_error fs i = Some f /\ foc c = Ok f.
Proof.
  induction cs as [|c cs IH]; intro H; cbn [all_focs].
  - exists []. repeat split; auto. intros [|i] c Hc; discriminate.
  - destruct (H c (or_introl eq_refl)) as (f & Ef). rewrite Ef. cbn [bind].
    destruct IH as (fs & Efs & Hl & Hn); [intros; apply H; now right|]. rewrite Efs. cbn [bind].
    exists (f :: fs). split; [reflexivity|]. split; [cbn; lia|]. intros [|i] c' Hc; cbn in Hc |- *.
    + injection Hc as <-. eauto.
    + exact (Hn i c' Hc).
Qed.

Theorem solve_correct a obj c b short : to_block ord sord a = Ok b -> short_name (ab_name a) = Ok short ->
  definitions_ok a -> ab_obj a = [obj] -> g_lm obj = None -> discounted_by obj c -> ab_cons a <> [] ->
  (forall x, In x (ab_controls a) -> exists n t, x = SDate n t) ->
  covered a (g_rhs obj) /\ (forall c, In c (ab_cons a) -> covered a (g_lhs c) /\ covered a (g_rhs c)) ->
  no_ss (g_rhs obj) /\ (forall c, In c (ab_cons a) -> no_ss (g_lhs c) /\ no_ss (g_rhs c)) ->
  (forall n, In (SDate n 0) (assigned short 1 (ab_cons a)) -> ~ defined_name a n) ->
  exists b' flat mu' focs,
    flatten ord sord (def_pairs a) = Ok flat /\
    solve_optimization ord sord aord b = Ok b' /\
    k_sys b' = map (fun e => written sord (sd1 a flat) (equation_to_sympy e)) (ab_ids a) ++
               map (fun e => written sord (sd1 a flat) (equation_to_sympy e)) (filter (fun e => negb (g_exclude e)) (ab_cons a)) ++
               [written sord (sd1 a flat) (equation_to_sympy obj)] ++ focs /\
    length focs = length (ab_controls a) /\
    k_mult b' = mu' /\ k_defs b' = k_defs b /\ k_shocks b' = k_shocks b /\ def_dict (tab (k_defs b)) = Ok (sd1 a flat) /\
    (forall j, (j < n_unnamed (ab_cons a))%nat -> nget (1 + j) mu' = Some (Some (SDate (lambda_name short (1 + j)) 0))) /\
    (forall k, (k < 1)%nat \/ (1 + n_unnamed (ab_cons a) <= k)%nat -> nget k mu' = nget k (k_mult b)) /\
    forall i x t, nth_error (ab_controls a) i = Some (SDate x t) -> exists f, nth_error focs i = Some f /\
      foc_of ord (lagr sord a obj flat (assigned short 1 (ab_cons a)))
             (match discount_factor aord (equation_to_sympy obj) with Ok df => df | Err _ => Cst 0 end) (SDate x t) = Ok f.
Proof.
  intros Hb Hsh Hok Hobj Hlm Hdisc Hne Hctl Hcov Hnoss Hmd.
  apply to_block_inv in Hb as (short' & d' & Hsh' & Hval & Hcons & ->). rewrite Hsh in Hsh'. injection Hsh' as <-.
  destruct (validate_facts a short Hval) as (Hcal & Hoc & _).
  unfold raw_block in Hcons. cbn [k_defs] in Hcons.
  destruct (consolidated ord sord Ho Hs a Hok d' Hcons) as (flat & Hflat & Hd').
  change (tab d' = map (fun ke => (fst ke, Eqn (g_lhs (snd ke)) (flatval flat (snd ke)))) (numbered 0 (ab_defs a))) in Hd'.
  assert (Hobjcal : g_cal obj = None).
  { apply Hcal. rewrite Hobj. apply in_or_app; right. apply in_or_app; left. now left. }
  assert (Hccal : forall e, In e (ab_cons a) -> g_cal e = None).
  { intros e He. apply Hcal. apply in_or_app; right. apply in_or_app; right. apply in_or_app; left. exact He. }
  destruct (discount_spec obj c Hdisc Hobjcal) as (df & Hdf & Hdfp & _ & _).
  set (nd := length (ab_defs a)).
  assert (Lobj : nget nd (numbered 0 (map e_flags (entries a))) = Some (extract_flags obj) /\ nget nd (numbered 0 (map e_mult (entries a))) = Some None).
  { destruct (comp_lookup a (ab_defs a) (ab_obj a) (ab_cons a ++ ab_ids a) eq_refl 0 obj) as [H1 H2]; [now rewrite Hobj|].
    rewrite Nat.add_0_r in H1, H2. split; [exact H1|]. unfold nd. rewrite H2. unfold extract_multiplier. now rewrite Hlm. }
  assert (Lcons : forall i e, nth_error (ab_cons a) i = Some e ->
     nget (nd + 1 + i) (numbered 0 (map e_flags (entries a))) = Some (extract_flags e) /\
     nget (nd + 1 + i) (numbered 0 (map e_mult (entries a))) = Some (extract_multiplier e)).
  { intros i e Hi. pose proof (comp_lookup a (ab_defs a ++ ab_obj a) (ab_cons a) (ab_ids a)) as H.
    rewrite app_length, Hobj in H. cbn [length] in H. apply H; [now rewrite <- app_assoc|exact Hi]. }
  assert (Hdd := sd1_def_dict a Hok flat d' Hd').
  unfold solve_optimization, solve_with. cbn [k_defs k_flags k_cons k_ids k_controls k_obj k_mult k_short k_shocks k_cal].
  unfold raw_block. cbn [k_defs k_flags k_cons k_ids k_controls k_obj k_mult k_short k_shocks k_cal].
  rewrite (sd1_def_dict a Hok flat d' Hd'). cbn [bind]. rewrite !opt_list_tab. rewrite Hobj. cbn [length].
  fold nd. rewrite (keep_spec _ (ab_cons a) (nd + 1)) by (intros i e Hi; apply Lcons; exact Hi). cbn [bind].
  assert (Hctl' : opt_list (ab_controls a) = Some (ab_controls a)).
  { destruct (ab_controls a) eqn:E; [|reflexivity]. exfalso. rewrite Hobj in Hoc. destruct Hoc as [_ Hx]. specialize (Hx eq_refl). discriminate. }
  rewrite Hctl'. cbn [map]. change (opt_list (numbered nd [equation_to_sympy obj])) with (Some [(nd, equation_to_sympy obj)]).
  cbn iota beta. rewrite Hdf. cbn [bind].
  (* Lagrangian *)
  unfold build_lagrangian. cbn [k_obj k_flags k_defs k_cons k_short k_mult tab]. rewrite (proj1 Lobj).
  rewrite (expand_block_defs ord sord Ho Hs a Hok flat Hflat d' Hd'). cbn [bind].
  assert (Hcs : opt_list (numbered (nd + 1) (map equation_to_sympy (ab_cons a))) = Some (numbered (nd + 1) (map equation_to_sympy (ab_cons a)))).
  { destruct (ab_cons a); [congruence|reflexivity]. }
  rewrite Hcs. assert (Eobj : equation_to_sympy obj = Eqn (g_lhs obj) (g_rhs obj)) by (unfold equation_to_sympy; now rewrite Hobjcal).
  change (fl_min (extract_flags obj)) with (g_min obj).
  destruct (lag_loop_spec sord short (sd3 a flat) (ab_cons a) (nd + 1) 1 (numbered 0 (map e_mult (entries a))) (objx sord a obj flat))
    as (mu' & El & M1 & M2); [lia|exact Hccal|intros i e Hi; apply Lcons; exact Hi|].
  assert (El' : lag_loop sord short (sd3 a flat) (numbered (nd + 1) (map equation_to_sympy (ab_cons a))) 1 (numbered 0 (map e_mult (entries a)))
     (if g_min obj then Ng (subs_dict sord (sd3 a flat) (rhs (equation_to_sympy obj))) else subs_dict sord (sd3 a flat) (rhs (equation_to_sympy obj)))
     = Ok (lagr sord a obj flat (assigned short 1 (ab_cons a)), mu')).
  { rewrite Eobj. cbn [rhs]. exact El. }
  rewrite El'. cbn [bind]. rewrite numbered_snd.
  assert (Hnth : nth_error (map e_mult (entries a)) nd = Some None).
  { pose proof (proj2 Lobj) as H. rewrite <- (Nat.add_0_l nd) in H. rewrite nget_numbered in H. exact H. }
  rewrite Hnth.
  set (ms := assigned short 1 (ab_cons a)).
  assert (Hmsd : forall m, In m ms -> exists n, m = SDate n 0 /\ ~ defined_name a n).
  { intros m Hm. destruct (assigned_in short (ab_cons a) 1 m Hm) as [(n & -> & _)|(j & _ & ->)]; eexists; (split; [reflexivity|]); apply Hmd; exact Hm. }
  match goal with |- context [all_focs ?F ?cs] => destruct (all_focs_spec F cs) as (fs & Efs & Hl & Hn) end.
  { intros x Hx. destruct (Hctl x Hx) as (n & t & ->).
    destruct (dtt_correct ord Ho expworld (lagr sord a obj flat ms) df n t) as (f & _ & Hf & _).
    - apply (lagr_no_ss ord sord Ho Hs a obj Hok flat Hflat Hcov Hnoss ms Hmsd).
    - exact Hdfp.
    - exists f. exact Hf. }
  rewrite Efs. cbn [bind]. eexists. exists flat, mu', fs. split; [exact Hflat|]. split; [reflexivity|]. cbn [k_sys k_mult].
  rewrite !numbered_snd, !map_map. rewrite <- app_assoc. repeat split; auto.
Qed.
End S.
