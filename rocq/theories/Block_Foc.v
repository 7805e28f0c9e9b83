From Verif Require Import Common Sym_Model Sym_Spec Sym_Proofs Sym_Flatten Sym_Diff SymDict_Model SymDict_More
  Block_Model Block_Spec Block_Proofs Block_Lagr.
From Coq Require Import Permutation Reals Lra.
Local Open Scope list_scope.

Definition three (ds : list (chars * Z * sx)) : sdict :=
  flat_map (fun btr => map (fun t' => (SDate (fst (fst btr)) t', shift (t' - snd (fst btr)) (snd btr))) [-1; 0; 1]%Z) ds.

Lemma three_in ds s v : In (s, v) (three ds) <->
  exists b t r t', In (b, t, r) ds /\ In t' [-1; 0; 1]%Z /\ s = SDate b t' /\ v = shift (t' - t) r.
Proof.
  unfold three. rewrite in_flat_map. split.
  - intros ([[b t] r] & Hin & H). apply in_map_iff in H as (t' & E & Ht). cbn [fst snd] in E. injection E as <- <-.
    exists b, t, r, t'. auto.
  - intros (b & t & r & t' & Hin & Ht & -> & ->). exists (b, t, r). split; [exact Hin|]. apply in_map_iff. exists t'. auto.
Qed.
Lemma three_keys ds s : In s (map fst (three ds)) -> exists b t', s = SDate b t' /\ In b (map (fun x => fst (fst x)) ds).
Proof.
  intro H. apply in_map_iff in H as ([s' v] & <- & H). apply three_in in H as (b & t & r & t' & Hin & _ & -> & _).
  exists b, t'. split; [reflexivity|]. apply in_map_iff. exists (b, t, r). auto.
Qed.
Lemma three_nodup ds : NoDup (map (fun x : chars * Z * sx => fst (fst x)) ds) -> NoDup (map fst (three ds)).
Proof.
  induction ds as [|[[b t] r] ds IH]; intro H; [constructor|]. cbn [map] in H. inversion H as [|x y H1 H2]; subst. cbn [fst] in H1.
  unfold three. cbn [flat_map fst snd map app]. fold (three ds).
  assert (Hn : forall z, ~ In (SDate b z) (map fst (three ds))).
  { intros z Hin. apply three_keys in Hin as (b' & t' & E & Hb). injection E as <- <-. contradiction. }
  constructor; [|constructor; [|constructor; [|exact (IH H2)]]]; cbn [In]; intro Hin;
    repeat destruct Hin as [Hin|Hin]; try discriminate; exact (Hn _ Hin).
Qed.

Lemma expand_defs_spec ord (Ho : set_order_ok ord) ds : forall n acc,
  (forall b t r, In (b, t, r) ds -> no_ss r) -> NoDup (map (fun x => fst (fst x)) ds) ->
  (forall s, In s (map fst acc) -> ~ In s (map fst (three ds))) ->
  expand_defs ord (numbered n (map (fun btr => Eqn (Sy (SDate (fst (fst btr)) (snd (fst btr)))) (snd btr)) ds)) acc = Ok (acc ++ three ds).
Proof.
  induction ds as [|[[b t] r] ds IH]; intros n acc Hss Hn Hd; [cbn; now rewrite app_nil_r|].
  unfold numbered. cbn [map length seq combine expand_defs lhs rhs fst snd].
  rewrite (expand_definition_spec ord Ho) by (eapply Hss; now left). cbn [bind map flat_map fst snd app].
  pose proof (three_nodup _ Hn) as Hn3. inversion Hn as [|x y H1 H2]; subst. cbn [fst] in H1.
  unfold three in Hd, Hn3 |- *. cbn [flat_map map fst snd app] in Hd, Hn3 |- *. fold (three ds) in Hd, Hn3 |- *.
  rewrite (dupd_fresh _ seqb_eq).
  - unfold numbered in IH. rewrite IH; [now rewrite <- app_assoc| | |].
    + intros; eapply Hss; right; eassumption.
    + exact H2.
    + intros s Hin. rewrite map_app in Hin. cbn [map fst] in Hin. apply in_app_or in Hin as [Hin|Hin].
      * intro H'. apply (Hd s Hin). right; right; right. exact H'.
      * intro H'. apply three_keys in H' as (b' & t' & -> & Hb). cbn [In] in Hin.
        repeat destruct Hin as [Hin|Hin]; try injection Hin as <- <-; try contradiction.
  - cbn [map fst]. repeat constructor; cbn; intuition discriminate.
  - intros s Hin Hin'. apply (Hd s Hin). cbn [map fst In] in Hin' |- *. tauto.
Qed.

Lemma evAd G env x y : ev (Ralg G) env (Ad x y) = (ev (Ralg G) env x + ev (Ralg G) env y)%R. Proof. reflexivity. Qed.
Lemma evMu G env x y : ev (Ralg G) env (Mu x y) = (ev (Ralg G) env x * ev (Ralg G) env y)%R. Proof. reflexivity. Qed.
Lemma evNg G env x : ev (Ralg G) env (Ng x) = (- ev (Ralg G) env x)%R. Proof. reflexivity. Qed.
Lemma evSy G env s : ev (Ralg G) env (Sy s) = env s. Proof. reflexivity. Qed.
(* ---------- the block's Lagrangian ---------- *)
Section F.
Variables ord sord : set_order.
Variable aord : list sx -> list sx.
Hypothesis Ho : set_order_ok ord.
Hypothesis Hs : set_order_ok sord.
Hypothesis Ha : forall l, Permutation (aord l) l.
Variable a : ablock.
Variable obj : geq.
Hypothesis Hok : definitions_ok a.
Hypothesis Hobj : ab_obj a = [obj].

Variable short : chars.
Variable flat : sdict.
Hypothesis Hflat : flatten ord sord (def_pairs a) = Ok flat.

Definition key_of (e : geq) : sym := match g_lhs e with Sy s => s | _ => SPar [] end.
Definition flatval (e : geq) : sx := match slookup (key_of e) flat with Some w => w | None => g_rhs e end.
Definition trip (e : geq) : chars * Z * sx :=
  match g_lhs e with Sy (SDate b t) => (b, t, flatval e) | _ => ([], 0%Z, flatval e) end.
Definition ds := map trip (ab_defs a).
Definition sd3 := three ds.

Lemma flat_facts : Permutation (map fst flat) (map fst (def_pairs a)) /\
  (forall k w s, In (k, w) flat -> In s (atoms w) -> ~ In s (map fst (def_pairs a))) /\
  (forall V (A : alg V) env, model_of A env (def_pairs a) <-> model_of A env flat).
Proof.
  destruct (flatten_values ord sord Ho Hs _ (def_pairs_nodup a Hok) (def_pairs_noself a Hok) flat Hflat) as (H1 & H2 & _ & H4). auto.
Qed.
Lemma flatval_in e : In e (ab_defs a) -> In (key_of e, flatval e) flat.
Proof.
  intro He. destruct (def_shape a Hok e He) as (b & t & E & _).
  assert (Hk : In (key_of e) (map fst flat)).
  { apply (Permutation_in _ (Permutation_sym (proj1 flat_facts))). apply in_map_iff. exists (key_of e, g_rhs e). split; [reflexivity|].
    apply (def_pairs_in a Hok). exists e. unfold key_of. rewrite E. auto. }
  unfold flatval. destruct (slookup_Some_key _ _ Hk) as (w & Ew). rewrite Ew. exact (slookup_In _ _ _ Ew).
Qed.
Lemma flatval_atoms e s : In e (ab_defs a) -> In s (atoms (flatval e)) ->
  (exists e', In e' (ab_defs a) /\ In s (atoms (g_rhs e'))) /\ (forall b, base_of s = Some b -> ~ defined_name a b).
Proof.
  intros He Hin. pose proof (flatval_in e He) as Hf.
  destruct (flatten_atoms ord sord Ho _ _ Hflat (def_pairs_nodup a Hok) _ _ s Hf Hin) as (k' & v' & H1 & H2).
  apply (def_pairs_in a Hok) in H1 as (e' & He' & Ek & <-). split; [eauto|].
  intros b Hb Hdn. destruct s as [n|b' t'|b']; cbn in Hb; try discriminate; injection Hb as ->.
  - destruct (proj1 (proj2 (proj2 Hok)) e' b t' He' H2 Hdn) as [(e2 & He2 & E2) _].
    apply (proj1 (proj2 flat_facts) _ _ _ Hf Hin). apply in_map_iff. exists (SDate b t', g_rhs e2). split; [reflexivity|].
    apply (def_pairs_in a Hok). eauto.
  - exact (proj2 (proj2 (proj2 Hok)) e' He' b H2).
Qed.
Lemma flatval_no_ss e : In e (ab_defs a) -> no_ss (flatval e).
Proof.
  intros He b Hin. destruct (flatval_atoms e _ He Hin) as [(e' & He' & H) _]. exact (proj2 (proj2 (proj2 Hok)) e' He' b H).
Qed.
Lemma ds_in b t r : In (b, t, r) ds <-> exists e, In e (ab_defs a) /\ g_lhs e = Sy (SDate b t) /\ r = flatval e.
Proof.
  unfold ds. rewrite in_map_iff. split.
  - intros (e & E & He). destruct (def_shape a Hok e He) as (b' & t' & E' & _). unfold trip in E. rewrite E' in E.
    injection E as -> -> <-. eauto.
  - intros (e & He & E & ->). exists e. split; [|exact He]. unfold trip. now rewrite E.
Qed.
Lemma ds_nodup : NoDup (map (fun x => fst (fst x)) ds).
Proof.
  unfold ds. rewrite map_map. assert (H := def_shape a Hok). assert (Hb := def_bases_nodup a Hok). clear Hok Hflat.
  induction (ab_defs a) as [|e l IH]; [constructor|]. cbn [map]. constructor.
  - intro Hin. apply in_map_iff in Hin as (e' & E & He').
    destruct (H e (or_introl eq_refl)) as (b & t & E1 & _). destruct (H e' (or_intror He')) as (b' & t' & E2 & _).
    unfold trip in E. rewrite E1, E2 in E. cbn in E. apply In_nth_error in He' as (j & Hj).
    exact (Hb 0%nat (S j) e e' b t b' t' eq_refl Hj (Nat.neq_0_succ j) E1 E2 (eq_sym E)).
  - apply IH; [intros; apply H; now right|]. intros i j e1 e2 b1 t1 b2 t2 H1 H2 Hij. apply (Hb (S i) (S j)); auto.
Qed.
Lemma expand_block_defs : forall d', tab d' = map (fun ke => (fst ke, Eqn (g_lhs (snd ke)) (flatval (snd ke)))) (numbered 0 (ab_defs a)) ->
  expand_defs ord (tab d') [] = Ok sd3.
Proof.
  intros d' ->.
  assert (E : map (fun ke : nat * geq => (fst ke, Eqn (g_lhs (snd ke)) (flatval (snd ke)))) (numbered 0 (ab_defs a)) =
              numbered 0 (map (fun btr => Eqn (Sy (SDate (fst (fst btr)) (snd (fst btr)))) (snd btr)) ds)).
  { unfold ds. rewrite map_map, numbered_map. apply map_ext_in. intros [n e] Hin. cbn [fst snd].
    assert (He : In e (ab_defs a)) by (rewrite <- (numbered_snd 0 (ab_defs a)); apply in_map_iff; exists (n, e); auto).
    destruct (def_shape a Hok e He) as (b & t & E & _). unfold trip. rewrite E. reflexivity. }
  rewrite E, (expand_defs_spec ord Ho); [reflexivity| |exact ds_nodup|easy].
  intros b t r Hin. apply ds_in in Hin as (e & He & _ & ->). now apply flatval_no_ss.
Qed.

(* values *)
Definition follows (G : smooth) (full : sym -> R) : Prop :=
  forall e b t r, In e (ab_defs a) -> is_def e b t r -> forall k, full (SDate b (t + k)) = ev (Ralg G) (later k full) r.
Lemma later_ev_ext {V} (A : alg V) (env env' : sym -> V) e : (forall s, env s = env' s) -> ev A env e = ev A env' e.
Proof. intro H. apply ev_ext. intros; apply H. Qed.
Lemma follows_later G full k : follows G full -> follows G (later k full).
Proof.
  intros H e b t r He Hd j. cbn [later]. replace (t + j + k)%Z with (t + (j + k))%Z by lia.
  rewrite (H e b t r He Hd). apply later_ev_ext. intro s. symmetry. apply later_later.
Qed.
Lemma follows_model G full : follows G full -> model_of (Ralg G) full (def_pairs a).
Proof.
  intros H k v Hin. apply (def_pairs_in a Hok) in Hin as (e & He & E & <-). destruct (def_shape a Hok e He) as (b & t & E' & Ec).
  rewrite E in E'. injection E' as ->.
  pose proof (H e b t (g_rhs e) He (conj E (conj eq_refl Ec)) 0%Z) as Hv. rewrite Z.add_0_r in Hv. rewrite Hv.
  apply later_ev_ext. apply later_0.
Qed.
Lemma follows_flat G full e b t : follows G full -> In e (ab_defs a) -> g_lhs e = Sy (SDate b t) ->
  full (SDate b t) = ev (Ralg G) full (flatval e).
Proof.
  intros H He E. pose proof (flatval_in e He) as Hf. unfold key_of in Hf. rewrite E in Hf.
  exact (proj1 (proj2 (proj2 flat_facts) R (Ralg G) full) (follows_model G full H) _ _ Hf).
Qed.
Lemma follows_sd3 G full : follows G full -> forall k v, slookup k sd3 = Some v -> full k = ev (Ralg G) full v.
Proof.
  intros H k v Hl. apply slookup_In, three_in in Hl as (b & t & r & t' & Hin & _ & -> & ->).
  apply ds_in in Hin as (e & He & E & ->). rewrite ev_shift.
  rewrite <- (follows_flat G (later (t' - t) full) e b t (follows_later G full _ H) He E). cbn [later]. do 2 f_equal. lia.
Qed.
Lemma sd3_simul e : subs_dict sord sd3 e = smap (fun s => match slookup s sd3 with Some w => w | None => Sy s end) e.
Proof.
  apply subs_dict_simul; [exact Hs|apply three_nodup, ds_nodup|].
  intros k w s Hkw Hsw Hin. apply three_in in Hkw as (b & t & r & t' & Hd & _ & -> & ->).
  apply ds_in in Hd as (e0 & He & E & ->). unfold shift in Hsw. apply atoms_smap in Hsw as (s0 & Hs0 & Hsw).
  destruct (flatval_atoms e0 s0 He Hs0) as [_ Hnd].
  apply three_keys in Hin as (b' & t2 & -> & Hb). unfold ds in Hb. rewrite map_map in Hb. apply in_map_iff in Hb as (e1 & Eb & He1).
  destruct (def_shape a Hok e1 He1) as (b1 & t1 & E1 & Ec1). unfold trip in Eb. rewrite E1 in Eb. cbn in Eb. subst b1.
  destruct s0 as [n|b0 t0|b0]; cbn in Hsw; destruct Hsw as [Hsw|[]]; try discriminate. injection Hsw as -> _.
  apply (Hnd b' eq_refl). exists e1, t1, (g_rhs e1). split; [exact He1|]. repeat split; auto.
Qed.
(* uses of defined names at the dates the code covers *)
Definition covered (e : sx) : Prop := forall b t, In (SDate b t) (atoms e) -> defined_name a b -> In t [-1; 0; 1]%Z.
Lemma subs_atoms e s : covered e -> no_ss e -> In s (atoms (subs_dict sord sd3 e)) ->
  (forall b, base_of s = Some b -> ~ defined_name a b) /\ (forall b, s <> SSs b).
Proof.
  intros Hc Hns Hin. rewrite sd3_simul in Hin. apply atoms_smap in Hin as (s0 & Hs0 & Hin).
  destruct (slookup s0 sd3) as [w|] eqn:El.
  - apply slookup_In, three_in in El as (b & t & r & t' & Hd & _ & -> & ->). apply ds_in in Hd as (e0 & He & E & ->).
    unfold shift in Hin. apply atoms_smap in Hin as (s1 & Hs1 & Hin).
    destruct (flatval_atoms e0 s1 He Hs1) as [_ Hnd]. pose proof (flatval_no_ss e0 He) as Hn1.
    destruct s1 as [n|b1 t1|b1]; cbn in Hin; destruct Hin as [<-|[]].
    + split; [intros b' Hb'; discriminate|discriminate].
    + split; [intros b' Hb'; injection Hb' as <-; apply Hnd; reflexivity|discriminate].
    + exfalso. exact (Hn1 b1 Hs1).
  - destruct Hin as [<-|[]]. split.
    + intros b Hb (e0 & t & r & He & Hd). destruct s0 as [n|b0 t0|b0]; cbn in Hb; try discriminate; injection Hb as ->.
      * assert (Ht0 : In t0 [-1; 0; 1]%Z) by (apply (Hc b t0 Hs0); exists e0, t, r; auto).
        apply slookup_None in El. apply El. apply in_map_iff. exists (SDate b t0, shift (t0 - t) (flatval e0)). split; [reflexivity|].
        apply three_in. exists b, t, (flatval e0), t0. repeat split; auto. apply ds_in. exists e0. split; [exact He|]. split; [apply Hd|reflexivity].
      * exact (Hns b Hs0).
    + intros b ->. exact (Hns b Hs0).
Qed.
Lemma flatval_defined G full e : follows G full -> (forall e, In e (ab_defs a) -> defined G full (g_rhs e)) ->
  In e (ab_defs a) -> defined G full (flatval e).
Proof.
  intros H Hd He.
  apply (flatten_defined ord sord Ho Hs G full (def_pairs a) flat Hflat (def_pairs_nodup a Hok) (def_pairs_noself a Hok)
           (follows_model G full H)) with (k := key_of e); [|exact (flatval_in e He)].
  intros k v Hin. apply (def_pairs_in a Hok) in Hin as (e' & He' & _ & <-). auto.
Qed.
Lemma subs_defined G full e : follows G full -> (forall k e, In e (ab_defs a) -> defined G (later k full) (g_rhs e)) ->
  defined G full e -> defined G full (subs_dict sord sd3 e).
Proof.
  intros H Hd. apply defined_subs_dict. intros k v Hl. split; [exact (follows_sd3 G full H k v Hl)|].
  apply slookup_In, three_in in Hl as (b & t & r & t' & Hin & _ & -> & ->). apply ds_in in Hin as (e0 & He & E & ->).
  apply defined_shift. apply flatval_defined; auto. now apply follows_later.
Qed.

(* the Lagrangian expression *)
Definition objx : sx := let o := subs_dict sord sd3 (g_rhs obj) in if g_min obj then Ng o else o.
Definition lagr (ms : list sym) : sx := lag_expr sord sd3 (ab_cons a) ms objx.

Lemma lag_expr_val G env cs : forall ms L, length ms = length cs ->
  ev (Ralg G) env (lag_expr sord sd3 cs ms L) =
  (ev (Ralg G) env L - penalty (Ralg G) env (map (fun c => GEq (subs_dict sord sd3 (g_lhs c)) (subs_dict sord sd3 (g_rhs c)) false false false None None) cs) ms)%R.
Proof.
  induction cs as [|c cs IH]; intros [|m ms] L Hl; cbn in Hl; try discriminate; cbn [lag_expr map penalty].
  - ring.
  - rewrite IH by lia. rewrite evAd, evNg, evMu, evAd, evNg, evSy. cbn [g_lhs g_rhs]. ring.
Qed.
Lemma lag_expr_atoms cs : forall ms L s, In s (atoms (lag_expr sord sd3 cs ms L)) ->
  In s (atoms L) \/ In s ms \/ exists c, In c cs /\ (In s (atoms (subs_dict sord sd3 (g_lhs c))) \/ In s (atoms (subs_dict sord sd3 (g_rhs c)))).
Proof.
  induction cs as [|c cs IH]; intros [|m ms] L s H; cbn [lag_expr] in H; auto.
  apply IH in H as [H|[H|(c' & Hc & H)]].
  - cbn [atoms] in H. apply in_app_or in H as [H|H]; [auto|]. cbn [app In] in H. destruct H as [<-|H]; [right; left; now left|].
    apply in_app_or in H. right; right. exists c. split; [now left|tauto].
  - right; left. now right.
  - right; right. exists c'. split; [now right|exact H].
Qed.
Lemma lag_expr_defined G env cs : forall ms L, defined G env L ->
  (forall c, In c cs -> defined G env (subs_dict sord sd3 (g_lhs c)) /\ defined G env (subs_dict sord sd3 (g_rhs c))) ->
  defined G env (lag_expr sord sd3 cs ms L).
Proof.
  induction cs as [|c cs IH]; intros [|m ms] L HL H; cbn [lag_expr]; auto.
  apply IH; [|intros; apply H; now right]. destruct (H c (or_introl eq_refl)). cbn. tauto.
Qed.

Hypothesis Hcov : covered (g_rhs obj) /\ forall c, In c (ab_cons a) -> covered (g_lhs c) /\ covered (g_rhs c).
Hypothesis Hnoss : no_ss (g_rhs obj) /\ forall c, In c (ab_cons a) -> no_ss (g_lhs c) /\ no_ss (g_rhs c).
Variable ms : list sym.
Hypothesis Hms : length ms = length (ab_cons a).
Hypothesis Hmsd : forall m, In m ms -> exists n, m = SDate n 0 /\ ~ defined_name a n.

Lemma lagr_atoms s : In s (atoms (lagr ms)) -> (forall b, base_of s = Some b -> ~ defined_name a b) /\ (forall b, s <> SSs b).
Proof.
  intro H. apply lag_expr_atoms in H as [H|[H|(c & Hc & [H|H])]].
  - apply (subs_atoms (g_rhs obj)); [exact (proj1 Hcov)|exact (proj1 Hnoss)|]. unfold objx in H. destruct (g_min obj); exact H.
  - destruct (Hmsd s H) as (n & -> & Hn). split; [intros b Hb; injection Hb as <-; exact Hn|discriminate].
  - apply (subs_atoms (g_lhs c)); [apply Hcov|apply Hnoss|]; assumption.
  - apply (subs_atoms (g_rhs c)); [apply Hcov|apply Hnoss|]; assumption.
Qed.
Lemma lagr_no_ss : no_ss (lagr ms).
Proof. intros b H. exact (proj2 (lagr_atoms _ H) b eq_refl). Qed.

Lemma penalty_subs G full cs : forall ms', follows G full ->
  penalty (Ralg G) full (map (fun c => GEq (subs_dict sord sd3 (g_lhs c)) (subs_dict sord sd3 (g_rhs c)) false false false None None) cs) ms'
  = penalty (Ralg G) full cs ms'.
Proof.
  induction cs as [|c cs IH]; intros [|m ms'] H; cbn [map penalty]; auto. rewrite IH by assumption. cbn [g_lhs g_rhs].
  now rewrite !(ev_subs_dict (Ralg G) sord full sd3 (follows_sd3 G full H)).
Qed.
Lemma lagr_val G env full : follows_definitions a env full (Ralg G) ->
  ev (Ralg G) env (lagr ms) = lagrangian (Ralg G) a obj ms full.
Proof.
  intros [H1 H2]. rewrite (ev_ext (Ralg G) env full).
  - unfold lagr. rewrite lag_expr_val by assumption. unfold lagrangian. rewrite penalty_subs by exact H2. unfold objx.
    pose proof (ev_subs_dict (Ralg G) sord full sd3 (follows_sd3 G full H2) (g_rhs obj)) as E.
    destruct (g_min obj); rewrite ?evNg; now rewrite E.
  - intros s Hin. symmetry. apply H1. apply (lagr_atoms s Hin).
Qed.
Lemma follows_definitions_later G env full k : follows_definitions a env full (Ralg G) ->
  follows_definitions a (later k env) (later k full) (Ralg G).
Proof.
  intros [H1 H2]. split.
  - intros s Hb. destruct s as [n|b t|b]; cbn [later]; apply H1; [exact Hb| |exact Hb]. intros b' E. apply Hb. exact E.
  - exact (follows_later G full k H2).
Qed.
Lemma lagr_defined G env full : follows_definitions a env full (Ralg G) ->
  (forall k e, In e (ab_defs a) -> defined G (later k full) (g_rhs e)) ->
  defined G full (g_rhs obj) -> (forall c, In c (ab_cons a) -> defined G full (g_lhs c) /\ defined G full (g_rhs c)) ->
  defined G env (lagr ms).
Proof.
  intros [H1 H2] Hd Hob Hc. apply (defined_ext G full env).
  - intros s Hin. apply H1. apply (lagr_atoms s Hin).
  - apply lag_expr_defined.
    + unfold objx. pose proof (subs_defined G full (g_rhs obj) H2 Hd Hob). destruct (g_min obj); cbn; assumption.
    + intros c Hin. destruct (Hc c Hin). split; apply subs_defined; assumption.
Qed.

Lemma derivable_local (g h : R -> R) x l eps : (0 < eps)%R -> (forall y, (Rabs (y - x) < eps)%R -> g y = h y) ->
  derivable_pt_lim g x l -> derivable_pt_lim h x l.
Proof.
  intros He E H e0 H0. destruct (H e0 H0) as (d & Hd). assert (Hm : (0 < Rmin d eps)%R) by (apply Rmin_pos; [apply cond_pos|exact He]).
  exists (mkposreal _ Hm). cbn [pos]. intros z Hz Hl. rewrite <- !E.
  - apply Hd; [exact Hz|]. eapply Rlt_le_trans; [exact Hl|apply Rmin_l].
  - rewrite Rminus_eq_0, Rabs_R0. exact He.
  - replace (x + z - x)%R with z by ring. eapply Rlt_le_trans; [exact Hl|apply Rmin_r].
Qed.
(* the first-order condition for one control *)
Theorem foc_correct G df c x t :
  param_only df -> (forall env, ev (Ralg G) env df = ev (Ralg G) env c) ->
  exists f n, foc_of ord (lagr ms) df (SDate x t) = Ok f /\
   forall (env : sym -> R) (full : R -> sym -> R) H eps, (n <= H)%nat -> (0 < eps)%R -> defined G env df ->
     (forall y, (Rabs (y - env (SDate x t)) < eps)%R -> follows_definitions a (with_value env (SDate x t) y) (full y) (Ralg G)) ->
     (forall k e, In e (ab_defs a) -> defined G (later k (full (env (SDate x t)))) (g_rhs e)) ->
     (forall k, defined G (later k (full (env (SDate x t)))) (g_rhs obj)) ->
     (forall k e, In e (ab_cons a) -> defined G (later k (full (env (SDate x t)))) (g_lhs e) /\ defined G (later k (full (env (SDate x t)))) (g_rhs e)) ->
     derivable_pt_lim (fun y => sum_f_R0 (fun k => (ev (Ralg G) env c) ^ k * lagrangian (Ralg G) a obj ms (later (Z.of_nat k) (full y)))%R H)
       (env (SDate x t)) (ev (Ralg G) env f).
Proof.
  intros Hp Hc. cbn [foc_of].
  destruct (dtt_correct ord Ho G (lagr ms) df x t lagr_no_ss Hp) as (f & n & Hf & Hn). exists f, n. split; [exact Hf|]. intros env full H eps HH Heps Hdf Hfull Hdd Hdo Hdc.
  eapply (derivable_local _ _ _ _ eps Heps); [|apply (Hn env H HH Hdf)].
  - intros y Hy. unfold discounted_sum. apply sum_eq. intros k _. rewrite Hc. f_equal.
    apply lagr_val. apply follows_definitions_later. apply Hfull, Hy.
  - intros k _. specialize (Hfull (env (SDate x t)) ltac:(rewrite Rminus_eq_0, Rabs_R0; exact Heps)).
    assert (Hw : forall s, with_value env (SDate x t) (env (SDate x t)) s = env s).
    { intro s. unfold with_value. destruct (sym_eqb s (SDate x t)) eqn:E; [apply sym_eqb_eq in E; now subst|reflexivity]. }
    apply (defined_ext G (later (Z.of_nat k) (with_value env (SDate x t) (env (SDate x t))))).
    { intros s _. destruct s; cbn [later]; apply Hw. }
    apply (lagr_defined G _ (later (Z.of_nat k) (full (env (SDate x t))))).
    + apply follows_definitions_later, Hfull.
    + intros j e He. eapply defined_ext; [|apply (Hdd (j + Z.of_nat k)%Z e He)]. intros s _. symmetry. apply later_later.
    + apply Hdo.
    + intros c' Hc'. apply Hdc, Hc'.
Qed.
End F.
