(* When configure succeeds. *)
From Verif Require Import Common Sym_Model Sym_Spec Sym_Proofs SR_Model SR_Proofs Kal_Model Kal_Spec Kal_Proofs Kal_Config Kal_Trans Kal_Obs Kal_Props.
From Coq Require Import Reals Permutation.
Local Open Scope nat_scope.
Local Open Scope list_scope.

Lemma forallb_In {A} (f : A -> bool) (P : A -> Prop) l : (forall a, f a = true <-> P a) -> (forallb f l = true <-> forall a, In a l -> P a).
Proof. intro H. rewrite forallb_forall. split; intros G a Ha; apply H, G, Ha. Qed.
Lemma valid_iff m c a : valid m c a = true <-> acceptable m c a.
Proof.
  unfold valid, acceptable. cbv zeta. rewrite !andb_true_iff, !all_in_spec, !negb_true_iff, Nat.ltb_ge.
  rewrite (forallb_In _ (fun x => In x (c_states c) \/ In x (map fst (or_nil (a_obs a))))) by (intro x; rewrite orb_true_iff, !mem_In; tauto).
  rewrite (forallb_In (fun vm => mem (snd vm) valid_aggregations) (fun vm => In (snd vm) [str "sum"; str "mean"; str "first"; str "last"])) by (intros [v h]; apply mem_In).
  assert (Hper : (existsb (fun vm => mem (snd vm) cumulator_aggregations) (or_nil (a_agg a)) && Z.ltb (a_period a) 2)%bool = false <->
    ((exists v how, In (v, how) (or_nil (a_agg a)) /\ In how [str "sum"; str "mean"]) -> (2 <= a_period a)%Z)).
  { rewrite andb_false_iff, Z.ltb_ge. split.
    - intros [H|H] (v & how & H1 & H2); [|exact H]. exfalso. assert (existsb (fun vm : chars * chars => mem (snd vm) cumulator_aggregations) (or_nil (a_agg a)) = true) by (rewrite existsb_exists; exists (v, how); split; [exact H1|apply mem_In; exact H2]). congruence.
    - intro H. destruct (existsb _ (or_nil (a_agg a))) eqn:E; [right|now left]. rewrite existsb_exists in E. destruct E as ([v how] & H1 & H2). apply H. exists v, how. split; [exact H1|apply mem_In; exact H2]. }
  assert (Hboth : existsb (fun x => mem x (or_nil (a_ssint a))) (map fst (or_nil (a_obs a))) = false <-> forall x, In x (map fst (or_nil (a_obs a))) -> ~ In x (or_nil (a_ssint a))).
  { split.
    - intros H x Hx Hs. assert (existsb (fun x => mem x (or_nil (a_ssint a))) (map fst (or_nil (a_obs a))) = true) by (rewrite existsb_exists; exists x; split; [exact Hx|now apply mem_In]). congruence.
    - intro H. destruct (existsb (fun x => mem x (or_nil (a_ssint a))) (map fst (or_nil (a_obs a)))) eqn:E; [|reflexivity]. rewrite existsb_exists in E. destruct E as (x & H1 & H2). apply mem_In in H2. exfalso. exact (H x H1 H2). }
  assert (Hconst : match a_const a with Fixed l => all_in l (k_inputs m) | _ => true end = true <-> forall l, a_const a = Fixed l -> incl l (k_inputs m)).
  { destruct (a_const a) as [| |l]; [split; [intros; discriminate|reflexivity]|split; [intros; discriminate|reflexivity]|]. rewrite all_in_spec. split; [intros H l' E; injection E as <-; exact H|intro H; now apply H]. }
  rewrite Hper, Hboth, Hconst. rewrite (mem_In (a_solver a) valid_solvers). change valid_solvers with [str "gensys"; str "cycle_reduction"; str "scan_cycle_reduction"; str "backward_direct"].
  assert (Hagg : (forall a0 : chars * chars, In a0 (or_nil (a_agg a)) -> In (snd a0) [str "sum"; str "mean"; str "first"; str "last"]) <-> (forall v how, In (v, how) (or_nil (a_agg a)) -> In how [str "sum"; str "mean"; str "first"; str "last"])).
  { split; [intros H v how Hin; exact (H (v, how) Hin)|intros H [v how] Hin; exact (H v how Hin)]. }
  rewrite Hagg. tauto.
Qed.
Lemma check_iff m p : (exists e, (e <- p ;; check_equation m e) = Ok e) <-> good_equation m p.
Proof.
  unfold good_equation. destruct p as [e|x]; cbn [bind]; [|split; [intros (e & E); discriminate|intros (e & E & _); discriminate]]. unfold check_equation. destruct (existsb (bad_symbol m) (atoms e)) eqn:E.
  - split; [intros (e' & C); discriminate|]. intros (e' & Ee & H1 & H2). exfalso. injection Ee as <-. rewrite existsb_exists in E. destruct E as (s & Hs & Hb). destruct s as [n|v t|v]; cbn in Hb; [|apply orb_prop in Hb; destruct (H1 v t Hs) as [L1 L2]; destruct Hb as [Hb|Hb]|discriminate].
    + destruct (H2 n Hs) as [H|H]; apply mem_In in H; rewrite H, ?orb_true_r in Hb; discriminate.
    + apply Z.ltb_lt in Hb. lia.
    + apply mem_In in L2. rewrite L2 in Hb. discriminate.
  - split; [intros _|eauto]. exists e. split; [reflexivity|]. assert (Hn : forall s, In s (atoms e) -> bad_symbol m s = false).
    { intros s Hs. destruct (bad_symbol m s) eqn:B; [|reflexivity]. assert (existsb (bad_symbol m) (atoms e) = true) by (rewrite existsb_exists; eauto). congruence. }
    split.
    + intros v t Hs. specialize (Hn _ Hs). cbn in Hn. apply orb_false_iff in Hn. destruct Hn as [N1 N2]. apply Z.ltb_ge in N1. apply negb_false_iff, mem_In in N2. auto.
    + intros n Hs. specialize (Hn _ Hs). cbn in Hn. apply negb_false_iff, orb_prop in Hn. rewrite <- !mem_In. exact Hn.
Qed.
Lemma fill_iff m ord l : forall done, (exists obs, fill_equations m ord l done = (obs, Ok tt)) <-> forall name p, In (name, p) l -> good_equation m p.
Proof.
  induction l as [|[name p] l IH]; intro done; cbn [fill_equations].
  - split; [intros _ ? ? []|eauto].
  - destruct (e <- p ;; check_equation m e) as [e|x] eqn:E.
    + rewrite IH. assert (Hg : good_equation m p) by (apply check_iff; destruct p as [e'|]; [|discriminate]; cbn [bind] in *; destruct (check_ok _ _ _ E) as [-> _]; eauto). split.
      * intros H n q [Eq|Hin]; [injection Eq as <- <-; exact Hg|now apply (H n)].
      * intros H n q Hin. apply (H n q). now right.
    + split; [intros [obs C]; discriminate|]. intro H. exfalso. specialize (H name p (or_introl eq_refl)). apply check_iff in H. destruct H as [e He]. congruence.
Qed.
Lemma loop_ok {A S} (f : S -> A -> result S) l : (forall s a, In a l -> exists s', f s a = Ok s') -> forall s, exists s', loop f l s = Ok s'.
Proof. induction l as [|a l IH]; intros H s; [eexists; reflexivity|]. cbn. destruct (H s a (or_introl eq_refl)) as [s' ->]. cbn. apply IH. intros; apply H; now right. Qed.
Lemma register_iff l : forall names, NoDup names -> (exists r, loop register l names = Ok r) <-> NoDup (names ++ l).
Proof.
  induction l as [|x l IH]; intros names Hn; cbn [loop]; [rewrite app_nil_r; split; [trivial|eauto]|]. unfold register at 1. destruct (mem x names) eqn:E.
  - apply mem_In in E. split; [intros [r C]; discriminate|]. intro H. exfalso. apply NoDup_remove_2 in H. apply H, in_or_app. now left.
  - apply mem_false in E. cbn [bind]. assert (Hn2 : NoDup (names ++ [x])) by (apply (Permutation_NoDup (Permutation_cons_append names x)); constructor; assumption). rewrite (IH _ Hn2). rewrite <- app_assoc. reflexivity.
Qed.
Lemma register_result l : forall names r, loop register l names = Ok r -> r = names ++ l.
Proof.
  induction l as [|x l IH]; intros names r H; cbn [loop] in H; [injection H as <-; now rewrite app_nil_r|]. unfold register at 1 in H. destruct (mem x names); [discriminate|]. cbn [bind] in H. rewrite (IH _ _ H), <- app_assoc. reflexivity.
Qed.
Definition names_of (m : kmodel) (c : config) : list chars :=
  free_inputs m c ++ (if c_full c then [str "state_cov"] else map sigma_name (k_shocks m)) ++ map error_name (c_error c).
Lemma map_inj_nodup {A B} (f : A -> B) l : (forall x y, f x = f y -> x = y) -> NoDup l -> NoDup (map f l).
Proof. intros Hf. induction 1 as [|x l Hx Hl IH]; [constructor|]. cbn. constructor; [|exact IH]. intro C. apply in_map_iff in C. destruct C as (y & E & Hy). apply Hf in E. subst. contradiction. Qed.
Lemma two_loops l1 l2 l0 : NoDup l0 -> (exists r, (names <- loop register l1 l0 ;; loop register l2 names) = Ok r) <-> NoDup (l0 ++ l1 ++ l2).
Proof.
  intro H0. rewrite app_assoc. split.
  - intros [r H]. destruct (loop register l1 l0) as [r1|] eqn:E1; cbn [bind] in H; [|discriminate]. assert (H1 : NoDup (l0 ++ l1)) by (apply register_iff; eauto). rewrite (register_result _ _ _ E1) in H. apply (register_iff _ _ H1). eauto.
  - intro H. assert (H1 : NoDup (l0 ++ l1)) by (clear - H; induction (l0 ++ l1) as [|x l IH]; [constructor|]; cbn in H; inversion H as [|? ? N1 N2]; subst; constructor; [intro C; apply N1, in_or_app; now left|now apply IH]). destruct (proj2 (register_iff l1 l0 H0) H1) as [r1 E1]. rewrite E1. cbn [bind]. rewrite (register_result _ _ _ E1). now apply register_iff.
Qed.
Lemma registered_iff m c : NoDup (k_inputs m) -> (exists r, registered m c = Ok r) <-> NoDup (names_of m c).
Proof. intro Hs. unfold registered, names_of. apply two_loops. now apply NoDup_filter. Qed.
Lemma registered_names m c r : registered m c = Ok r -> r = names_of m c.
Proof.
  unfold registered, names_of. generalize (if c_full c then [str "state_cov"] else map sigma_name (k_shocks m)) as l0. intros l0 H.
  destruct (loop register l0 (free_inputs m c)) as [r1|] eqn:E1; cbn [bind] in H; [|discriminate]. rewrite (register_result _ _ _ H), (register_result _ _ _ E1), <- app_assoc. reflexivity.
Qed.
Lemma depth_keys agg p (obs : list (chars * linear_eq)) v : In v (map fst (lag_depths agg p obs)) -> exists n i coeffs lag k, In (n, (i, coeffs)) obs /\ In ((v, lag), k) coeffs.
Proof.
  unfold lag_depths. assert (H1 : forall b l d, In v (map fst (fold_left (need_depth b) l d)) -> In v (map fst d) \/ exists lag k, In ((v, lag), k) l).
  { intros b. induction l as [|[[w lag] k] l IH]; intros d H; [now left|]. cbn [fold_left] in H. destruct (IH _ H) as [H2|(lag' & k' & H2)]; [|right; exists lag', k'; now right].
    unfold need_depth in H2. destruct (Z.ltb 0 (- lag + b)); [|now left]. apply put_keys in H2. destruct H2 as [-> | H2]; [right; exists lag, k; now left|now left]. }
  assert (H2 : forall d, In v (map fst (fold_left (fun depths ne => fold_left (need_depth (if cumulates (get (fst ne) agg) then p - 1 else 0)%Z) (snd (snd ne)) depths) obs d)) -> In v (map fst d) \/ exists n i coeffs lag k, In (n, (i, coeffs)) obs /\ In ((v, lag), k) coeffs).
  { induction obs as [|[n [i coeffs]] obs IH]; intros d H; [now left|]. cbn [fold_left] in H. destruct (IH _ H) as [H2|(n' & i' & co' & lag & k & Hi & Hk)]; [|right; exists n', i', co', lag, k; split; [now right|exact Hk]].
    destruct (H1 _ _ _ H2) as [H3|(lag & k & H3)]; [now left|]. right. exists n, i, coeffs, lag, k. split; [now left|exact H3]. }
  intro H. destruct (H2 _ H) as [[]|H3]. exact H3.
Qed.

Definition next (m : kmodel) (a : cargs) (obs : list (chars * linear_eq)) : config :=
  let agg := or_nil (a_agg a) in let ssint := or_nil (a_ssint a) in
  let depths := lag_depths agg (a_period a) obs in
  let c1 := CF (a_observed a) (or_nil (a_error a)) (constants m a) agg (a_period a) ssint obs depths [] (a_full a) true (a_solver a) [] in
  CF (a_observed a) (or_nil (a_error a)) (constants m a) agg (a_period a) ssint obs depths (lag_starts (length (k_vars m) + n_cumulator_states c1) depths) (a_full a) true (a_solver a) (state_names m c1).
Lemma configure_next m W ord c0 a : configure m W ord c0 a =
  if negb (valid m c0 a) then (c0, Err ValueError) else
  let '(obs, r) := fill_equations m ord (or_nil (a_obs a)) [] in
  match r with
  | Err x => (CF (a_observed a) (or_nil (a_error a)) (constants m a) (or_nil (a_agg a)) (a_period a) (or_nil (a_ssint a)) obs (c_depths c0) (c_starts c0) (c_full c0) (c_configured c0) (c_solver c0) (c_states c0), Err x)
  | Ok _ => (next m a obs, match make_symbolic_graph m W (next m a obs) (fun _ => 0%R) (fun _ _ => 0%R) with Ok _ => Ok tt | Err x => Err x end)
  end.
Proof.
  unfold configure. destruct (negb (valid m c0 a)); [reflexivity|]. destruct (fill_equations m ord (or_nil (a_obs a)) []) as [obs [u|x]]; [|reflexivity]. cbv zeta.
  match goal with |- match make_symbolic_graph _ _ ?c2 _ _ with _ => _ end = _ => change c2 with (next m a obs) end. destruct (make_symbolic_graph m W (next m a obs) (fun _ => 0%R) (fun _ _ => 0%R)); reflexivity.
Qed.
Lemma next_wf m ord c0 a obs : set_order_ok ord -> proper m a -> acceptable m c0 a -> fill_equations m ord (or_nil (a_obs a)) [] = (obs, Ok tt) -> wf m (next m a obs).
Proof.
  intros Ho (P1 & P2 & P3) (V0 & V1 & V2 & V3 & V4 & V5 & V6 & V7 & V8 & _) Ef.
  destruct (fill_spec m ord _ Ho _ _ Ef) as ((F1 & F2) & F3 & F4); [split; [constructor|intros; discriminate]|].
  assert (Hfin : fine []) by (split; [constructor|intros; discriminate]).
  destruct (lag_depths_spec (or_nil (a_agg a)) (a_period a) obs [] Hfin) as ((D1 & D2) & _ & D3). cbv zeta in D1, D2, D3.
  change (fold_left _ obs []) with (lag_depths (or_nil (a_agg a)) (a_period a) obs) in D1, D2, D3.
  constructor; unfold next; cbn [c_agg c_observed c_period c_obs c_depths c_starts]; cbv zeta.
  - exact P1.
  - exact P2.
  - intros v x Hin. apply V2. now apply (in_map fst) in Hin.
  - intros v x Hin Hm. apply V7. exists v, x. split; [exact Hin|apply mem_In; exact Hm].
  - exact F1.
  - intros n i coeffs v lag k Hin Hk. apply (F2 n i coeffs v lag k); [now apply get_nodup|exact Hk].
  - exact D1.
  - intros v d Hin. apply (D2 v d). now apply get_nodup.
  - intros n i coeffs v lag k Hin Hk Hp. now apply (D3 n i coeffs v lag k).
  - reflexivity.
Qed.
Definition buildable (m : kmodel) (c : config) : Prop :=
  (forall x, In x (c_observed c) -> get x (c_obs c) = None -> In x (k_vars m)) /\
  (forall x, In x (c_observed c) -> get x (c_obs c) = None -> In x (c_ssint c) -> In x (k_has_ss m)) /\
  NoDup (names_of m c) /\ length (c_error c) <= length (c_observed c).
Lemma graph_buildable m W c draw F b : NoDup (k_inputs m) -> wf m c -> make_symbolic_graph m W c draw F = Ok b -> buildable m c.
Proof.
  intros Hs Hw Hb. destruct (graph_parts _ _ _ _ _ _ Hb) as (T & R0 & T1 & _ & E1 & E2 & _ & E3 & E4 & E5 & E6 & _). split; [|split; [|split]].
  - intros x Hx Hg. destruct (In_nth_error _ _ Hx) as [i Hi]. destruct (design_rows m W c draw Hw _ E3 i x Hi) as (Zb & Zb' & _ & _ & [[_ (oi & Hoi & _)]|(e & co & Hc & _)]); [eapply nth_error_In, index_ok; exact Hoi|congruence].
  - intros x Hx Hg Hss. unfold obs_intercept in E4. destruct (c_ssint c) as [|y l] eqn:Ec; [destruct Hss|]. rewrite <- Ec in *. destruct (In_nth_error _ _ Hx) as [i Hi]. destruct (proj2 (all_ok_nth _ _ _ E4) i x Hi) as (r & Hr & _).
    unfold intercept_entry in Hr. rewrite Hg in Hr. apply mem_In in Hss. rewrite Hss in Hr. destruct (mem x (k_has_ss m)) eqn:Em; [now apply mem_In|discriminate].
  - now apply registered_iff.
  - unfold obs_cov in E6. destruct (c_error c) as [|y l]; [cbn; lia|]. destruct (Nat.ltb_spec (length (c_observed c)) (length (y :: l))); [discriminate|lia].
Qed.
Lemma buildable_graph m W a obs draw F : NoDup (k_inputs m) -> let c := next m a obs in wf m c -> buildable m c -> exists b, make_symbolic_graph m W c draw F = Ok b.
Proof.
  intros Hs c Hw (B1 & B2 & B3 & B4). unfold make_symbolic_graph. destruct (policy m W c draw) as [T R0].
  assert (G1 : exists T1, augment_transition m c T = Ok T1).
  { unfold augment_transition. assert (Hall : forall v, In v (cumulator_variables c) -> exists i, orig_index m v = Ok i).
    { intros v Hv. destruct (cum_In m c Hw v Hv) as (h & Hin & _ & Hg & _). apply index_In. apply B1; [exact (wf_agg_obs m c Hw v h Hin)|exact Hg]. }
    destruct (cumulator_variables c) as [|v l]; [eauto|]. destruct (all_ok_all (orig_index m) (v :: l) Hall) as [idx ->]. cbn. eauto. }
  destruct G1 as [T1 ->]. cbn [bind].
  assert (Hdep : forall v d, In (v, d) (c_depths c) -> exists oi s, orig_index m v = Ok oi /\ start_of c v = Ok s).
  { intros v d Hin. assert (Hk : In v (map fst (c_depths c))) by (now apply (in_map fst) in Hin). unfold c, next in Hk. cbn [c_depths] in Hk. destruct (depth_keys _ _ _ _ Hk) as (n & i & co & lag & k & H1 & H2).
    destruct (wf_eqs m c Hw n i co v lag k H1 H2) as [Hv _]. destruct (index_In _ _ Hv) as [oi Hoi]. destruct (In_nth_error _ _ Hin) as [q Hq]. exists oi, (k_prev m c + off (c_depths c) q). split; [exact Hoi|exact (start_spec m c Hw q v d Hq)]. }
  assert (G2 : exists T2, append_obs_lags m c T1 = Ok T2).
  { unfold append_obs_lags. destruct (Nat.eqb (n_obs_lag_states c) 0); [eauto|]. destruct (loop_ok (lag_chain m c) (c_depths c)) with (s := (zeros, zeros)) as [FC ->]; [|cbn; eauto].
    intros s [v d] Hin. destruct (Hdep v d Hin) as (oi & st & Eo & Es). unfold lag_chain. cbn [fst snd]. rewrite Eo. cbn [bind]. rewrite Es. cbn [bind]. eauto. }
  destruct G2 as [T2 ->]. cbn [bind].
  assert (Hplain : forall name, In name (c_observed c) -> get name (c_obs c) = None -> (exists oi, orig_index m name = Ok oi) /\ (cumulates (method_of c name) = true -> exists pos, index name (cumulator_variables c) = Ok pos)).
  { intros name Hin Hg. split; [apply index_In; now apply B1|]. intro Hcu. apply index_In. unfold cumulates, method_of in Hcu. destruct (get name (c_agg c)) as [h|] eqn:Eh; [|discriminate]. unfold cumulator_variables. apply in_map_iff. exists (name, h). split; [reflexivity|].
    apply filter_In. split; [now apply get_In|]. cbn [fst snd]. rewrite Hcu. cbn. apply negb_true_iff, mem_false. now apply get_None. }
  assert (G3 : exists Z0, design m W c draw = Ok Z0).
  { unfold design. apply loop_ok. intros M [i name] Hin. assert (Hobs : In name (c_observed c)) by (unfold numbered in Hin; apply in_combine_r in Hin; exact Hin).
    assert (Hp : get name (c_obs c) = None -> exists s', plain_row m c M (i, name) = Ok s').
    { intro Hg. destruct (Hplain name Hobs Hg) as [[oi Eo] Hcu]. unfold plain_row. rewrite Eo. cbn [bind]. destruct (cumulates (method_of c name)); [|eauto]. destruct (Hcu eq_refl) as [pos ->]. cbn [bind]. eauto. }
    assert (Hsy : exists s', symbolic_row m W c draw M (i, name) = Ok s').
    { unfold symbolic_row. destruct (get name (c_obs c)) as [[e co]|] eqn:Eg.
      - apply loop_ok. intros M1 [[v lag] k] Hk. unfold add_coefficient. apply loop_ok. intros M2 d Hd. apply in_seq in Hd. cbn [Nat.add] in Hd. pose proof (get_In _ _ _ Eg) as Hgi. destruct (wf_eqs m c Hw _ _ _ _ _ _ Hgi Hk) as [Hv Hlag]. destruct (index_In _ _ Hv) as [oi Hoi]. unfold orig_index. destruct (Z.eqb_spec (lag - Z.of_nat d) 0) as [E|Ne]; [rewrite Hoi; cbn [bind]; eauto|].
        assert (Hb : (Z.of_nat d <= if cumulates (get name (c_agg c)) then c_period c - 1 else 0)%Z).
        { unfold method_of in Hd. destruct (cumulates (get name (c_agg c))) eqn:Hc; [|lia]. assert (Hc' : cumulates (method_of c name) = true) by exact Hc. destruct (period_facts m c Hw name Hc') as (P1 & _). lia. }
        destruct (wf_enough m c Hw _ _ _ _ _ _ Hgi Hk) as (d1 & D1 & D2); [destruct (cumulates (get name (c_agg c))); lia|]. apply get_In in D1. destruct (Hdep v d1 D1) as (_ & st & _ & Es). unfold lag_column. rewrite Es. cbn [bind]. eauto.
      - destruct (Hplain name Hobs Eg) as [[oi Eo] Hcu]. rewrite Eo. cbn [bind]. destruct (cumulates (method_of c name)); [|eauto]. destruct (Hcu eq_refl) as [pos ->]. cbn [bind]. eauto. }
    destruct (c_obs c) eqn:Eo; [apply Hp; reflexivity|exact Hsy]. }
  destruct G3 as [Z0 ->]. cbn [bind].
  assert (G4 : exists d, obs_intercept m W c draw = Ok d).
  { assert (Hall : exists d, all_ok (intercept_entry m W c draw) (c_observed c) = Ok d).
    { apply all_ok_all. intros name Hin. unfold intercept_entry. destruct (get name (c_obs c)) as [[e co]|] eqn:Eg; [cbn [bind]; eauto|]. destruct (mem name (c_ssint c)) eqn:Em; [|cbn [bind]; eauto]. apply mem_In in Em. pose proof (B2 name Hin Eg Em) as Hh. apply mem_In in Hh. rewrite Hh. cbn [bind]. eauto. }
    unfold obs_intercept. destruct (c_ssint c); [destruct (c_obs c); [eauto|]|]; exact Hall. }
  destruct G4 as [d ->]. cbn [bind]. destruct (proj2 (registered_iff m c Hs) B3) as [names ->]. cbn [bind].
  assert (G5 : exists H, obs_cov c draw = Ok H) by (unfold obs_cov; destruct (c_error c); [eauto|]; destruct (Nat.ltb_spec (length (c_observed c)) (length (c0 :: l))); [lia|eauto]).
  destruct G5 as [H ->]. cbn [bind]. eauto.
Qed.
