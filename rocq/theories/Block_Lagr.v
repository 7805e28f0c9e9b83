From Verif Require Import Common Sym_Model Sym_Spec Sym_Proofs Sym_Flatten Sym_Diff SymDict_Model SymDict_More
  Block_Model Block_Spec Block_Proofs.
From Coq Require Import Permutation Reals Lra.
Local Open Scope list_scope.

Lemma seqb_eq : forall a b, sym_eqb a b = true <-> a = b. Proof. apply sym_eqb_eq. Qed.

(* ---------- substitution and values ---------- *)
Lemma ev_subs_seq {V} (A : alg V) env d : (forall k v, In (k, v) d -> env k = ev A env v) ->
  forall e, ev A env (subs_seq d e) = ev A env e.
Proof.
  induction d as [|[k v] d IH]; intros H e; [reflexivity|].
  unfold subs_seq in *. cbn [fold_left fst snd]. rewrite IH by (intros; apply H; now right).
  rewrite subs1_smap, ev_smap. apply ev_ext. intros s _. destruct (sym_eqb s k) eqn:E; [|reflexivity].
  apply sym_eqb_eq in E. subst. symmetry. apply H. now left.
Qed.
Lemma ev_subs_dict {V} (A : alg V) sord env d : (forall k v, slookup k d = Some v -> env k = ev A env v) ->
  forall e, ev A env (subs_dict sord d e) = ev A env e.
Proof. intros H e. apply ev_subs_seq. intros k v Hin. apply get_all_in in Hin as [_ Hin]. now apply H. Qed.

Lemma defined_subs_seq G env d :
  (forall k v, In (k, v) d -> env k = ev (Ralg G) env v /\ defined G env v) ->
  forall e, defined G env e -> defined G env (subs_seq d e).
Proof.
  induction d as [|[k v] d IH]; intros H e He; [exact He|].
  unfold subs_seq in *. cbn [fold_left fst snd]. apply IH; [intros; apply H; now right|].
  destruct (H k v (or_introl eq_refl)) as [H1 H2].
  assert (Ev : forall e, ev (Ralg G) env (subs1 k v e) = ev (Ralg G) env e).
  { intro e'. apply (ev_subs_seq (Ralg G) env [(k, v)]). intros k' v' [E|[]]. now injection E as <- <-. }
  clear IH. induction e as [z|s|a IHa b IHb|a IHa b IHb|a IHa|f n a IHa]; cbn in *; auto.
  - destruct (sym_eqb s k); [exact H2|exact I].
  - destruct He; split; auto.
  - destruct He; split; auto.
  - destruct He as [He1 He2]. split; [auto|]. now rewrite Ev.
Qed.
Lemma defined_subs_dict G sord env d :
  (forall k v, slookup k d = Some v -> env k = ev (Ralg G) env v /\ defined G env v) ->
  forall e, defined G env e -> defined G env (subs_dict sord d e).
Proof. intros H e. apply defined_subs_seq. intros k v Hin. apply get_all_in in Hin as [_ Hin]. now apply H. Qed.

Lemma atoms_subs_seq d : forall e s, In s (atoms (subs_seq d e)) -> In s (atoms e) \/ exists k v, In (k, v) d /\ In s (atoms v).
Proof.
  induction d as [|[k v] d IH]; intros e s H; [now left|].
  unfold subs_seq in *. cbn [fold_left fst snd] in H. apply IH in H as [H|(k' & v' & H1 & H2)].
  - rewrite subs1_smap in H. apply atoms_smap in H as (s0 & H0 & H). destruct (sym_eqb s0 k).
    + right. exists k, v. split; [now left|exact H].
    + destruct H as [<-|[]]. now left.
  - right. exists k', v'. split; [now right|exact H2].
Qed.
Lemma atoms_subs_dict sord d e s : In s (atoms (subs_dict sord d e)) ->
  In s (atoms e) \/ exists k v, slookup k d = Some v /\ In s (atoms v).
Proof.
  intro H. apply atoms_subs_seq in H as [H|(k & v & H1 & H2)]; [now left|]. right. exists k, v.
  apply get_all_in in H1. tauto.
Qed.

(* replacement of keys whose values mention no key *)
Lemma subs_dict_simul sord (Hs : set_order_ok sord) d e : NoDup (map fst d) ->
  (forall k w s, In (k, w) d -> In s (atoms w) -> ~ In s (map fst d)) ->
  subs_dict sord d e = smap (fun s => match slookup s d with Some w => w | None => Sy s end) e.
Proof.
  intros Hn Hv. unfold subs_dict. set (l := sord (map fst d)).
  assert (Hin : forall x, In x l <-> In x (map fst d)) by (intro x; apply (ord_in sord Hs)).
  assert (Hl : incl l (map fst d)) by (intros x Hx; now apply Hin).
  rewrite subs_seq_smap. apply smap_ext. intros s _. rewrite subs_seq_simul.
  - destruct (slookup s d) as [w|] eqn:E.
    + rewrite (slookup_NoDup s w); [reflexivity|rewrite get_all_keys by assumption; apply (ord_nodup sord Hs)|].
      apply get_all_in. split; [|exact E]. apply Hin. apply slookup_In in E. apply in_map_iff. exists (s, w). auto.
    + destruct (slookup s (get_all d l)) as [w|] eqn:E'; [|reflexivity]. apply slookup_In, get_all_in in E'. destruct E'. congruence.
  - rewrite get_all_keys by assumption. apply (ord_nodup sord Hs).
  - intros k w Hkw s' Hs' Hin'. rewrite get_all_keys in Hin' by assumption. apply get_all_in in Hkw as [_ Hkw].
    apply (Hv k w s' (slookup_In _ _ _ Hkw) Hs'). now apply Hl.
Qed.

(* ---------- the multiplier table ---------- *)
Fixpoint lag_expr sord (sd : sdict) (cs : list geq) (ms : list sym) (L : sx) : sx :=
  match cs, ms with
  | c :: cs', m :: ms' =>
      lag_expr sord sd cs' ms' (Ad L (Ng (Mu (Sy m) (Ad (subs_dict sord sd (g_lhs c)) (Ng (subs_dict sord sd (g_rhs c)))))))
  | _, _ => L
  end.
Definition n_unnamed (cs : list geq) : nat := length (filter (fun e => match g_lm e with None => true | _ => false end) cs).

Lemma nget_nset {V} k (v : V) d k' : nget k' (nset k v d) = if Nat.eqb k' k then Some v else nget k' d.
Proof. apply dget_dset. exact neqb_eq. Qed.

Lemma lag_loop_spec sord short sd cs : forall n i mu L,
  (i <= n)%nat -> (forall e, In e cs -> g_cal e = None) ->
  (forall j e, nth_error cs j = Some e -> nget (n + j) mu = Some (extract_multiplier e)) ->
  exists mu', lag_loop sord short sd (numbered n (map equation_to_sympy cs)) i mu L
              = Ok (lag_expr sord sd cs (assigned short i cs) L, mu') /\
    (forall j, (j < n_unnamed cs)%nat -> nget (i + j) mu' = Some (Some (SDate (lambda_name short (i + j)) 0))) /\
    (forall k, (k < i)%nat \/ (i + n_unnamed cs <= k)%nat -> nget k mu' = nget k mu).
Proof.
  induction cs as [|e cs IH]; intros n i mu L Hi Hcal Hmu; cbn [map numbered].
  - exists mu. cbn. split; [reflexivity|]. split; [intros j Hj; cbn in Hj; lia|reflexivity].
  - unfold numbered. cbn [map length seq combine lag_loop].
    pose proof (Hmu 0%nat e eq_refl) as H0. rewrite Nat.add_0_r in H0. rewrite H0.
    assert (He : equation_to_sympy e = Eqn (g_lhs e) (g_rhs e)) by (unfold equation_to_sympy; now rewrite (Hcal e (or_introl eq_refl))).
    rewrite He. cbn [lhs rhs]. unfold extract_multiplier at 1. cbn [assigned lag_expr]. destruct (g_lm e) as [nm|] eqn:Elm.
    + destruct (IH (S n) i mu (Ad L (Ng (Mu (Sy (SDate nm 0)) (Ad (subs_dict sord sd (g_lhs e)) (Ng (subs_dict sord sd (g_rhs e))))))))
        as (mu' & E & M1 & M2).
      * lia.
      * intros; apply Hcal; now right.
      * intros j e' Hj. rewrite <- (Hmu (S j) e' Hj). f_equal. lia.
      * exists mu'. unfold numbered in E. rewrite E. unfold n_unnamed. cbn [filter]. rewrite Elm. auto.
    + destruct (IH (S n) (S i) (nset i (Some (SDate (lambda_name short i) 0)) mu)
                  (Ad L (Ng (Mu (Sy (SDate (lambda_name short i) 0)) (Ad (subs_dict sord sd (g_lhs e)) (Ng (subs_dict sord sd (g_rhs e))))))))
        as (mu' & E & M1 & M2).
      * lia.
      * intros; apply Hcal; now right.
      * intros j e' Hj. rewrite nget_nset. replace (Nat.eqb (S n + j) i) with false by (symmetry; apply Nat.eqb_neq; lia).
        rewrite <- (Hmu (S j) e' Hj). f_equal. lia.
      * exists mu'. unfold numbered in E. rewrite E. unfold n_unnamed. cbn [filter]. rewrite Elm. cbn [length].
        fold (n_unnamed cs). split; [reflexivity|]. split.
        -- intros j Hj. destruct j as [|j].
           ++ rewrite Nat.add_0_r, M2 by lia. rewrite nget_nset, Nat.eqb_refl. reflexivity.
           ++ replace (i + S j)%nat with (S i + j)%nat by lia. apply M1. lia.
        -- intros k Hk. rewrite M2 by lia. rewrite nget_nset. replace (Nat.eqb k i) with false; [reflexivity|].
           symmetry. apply Nat.eqb_neq. lia.
Qed.

(* ---------- which multipliers ---------- *)
Lemma assigned_length short cs : forall i, length (assigned short i cs) = length cs.
Proof. induction cs as [|e cs IH]; intro i; cbn; [reflexivity|]. destruct (g_lm e); cbn; now rewrite IH. Qed.
Lemma assigned_in short cs : forall i m, In m (assigned short i cs) ->
  (exists n, m = SDate n 0 /\ In n (user_names cs)) \/ (exists j, (i <= j)%nat /\ m = SDate (lambda_name short j) 0).
Proof.
  induction cs as [|e cs IH]; intros i m; cbn; [easy|]. unfold user_names. cbn [flat_map]. fold (user_names cs).
  destruct (g_lm e) as [n|] eqn:E; intros [<-|H].
  - left. exists n. split; [reflexivity|]. now left.
  - destruct (IH _ _ H) as [(n' & -> & Hn)|H']; [left; exists n'; split; [reflexivity|now right]|right; exact H'].
  - right. exists i. auto.
  - destruct (IH _ _ H) as [(n' & -> & Hn)|(j & Hj & ->)]; [left; exists n'; split; [reflexivity|exact Hn]|].
    right. exists j. split; [lia|reflexivity].
Qed.
Lemma app_inv_len {A} (a a' b b' : list A) : a ++ b = a' ++ b' -> length a = length a' -> a = a' /\ b = b'.
Proof.
  revert a'. induction a as [|x a IH]; intros [|y a'] H Hl; cbn in *; try discriminate; [auto|].
  injection H as -> H. injection Hl as Hl. destruct (IH _ H Hl). subst. auto.
Qed.
Lemma lambda_inj short i j : lambda_name short i = lambda_name short j -> i = j.
Proof.
  unfold lambda_name. intro H.
  apply app_inv_head in H. apply app_inv_head in H. apply app_inv_head in H. apply dec_inj in H. lia.
Qed.
Definition starts_with (p s : chars) : Prop := exists r, s = p ++ r.
Lemma assigned_nodup short cs : forall i, NoDup (user_names cs) -> (forall n, In n (user_names cs) -> ~ starts_with (str "lambda__") n) ->
  NoDup (assigned short i cs).
Proof.
  induction cs as [|e cs IH]; intros i Hn Hp; cbn [assigned]; [constructor|].
  unfold user_names in Hn, Hp. cbn [flat_map] in Hn, Hp. fold (user_names cs) in Hn, Hp.
  destruct (g_lm e) as [n|] eqn:E; constructor.
  - intro H. apply assigned_in in H as [(n' & E' & Hin)|(j & _ & E')].
    + injection E' as ->. inversion Hn; contradiction.
    + injection E' as ->. apply (Hp (lambda_name short j)); [now left|]. eexists. reflexivity.
  - apply IH; [now inversion Hn|]. intros n' Hn'. apply Hp. now right.
  - intro H. apply assigned_in in H as [(n' & E' & Hin)|(j & Hj & E')].
    + assert (E2 : lambda_name short i = n') by congruence. apply (Hp n' Hin). rewrite <- E2. eexists. reflexivity.
    + assert (E2 : lambda_name short i = lambda_name short j) by congruence. apply lambda_inj in E2. lia.
  - apply IH; assumption.
Qed.

(* ---------- consolidated definitions ---------- *)
Section C.
Variables ord sord : set_order.
Hypothesis Ho : set_order_ok ord.
Hypothesis Hs : set_order_ok sord.
Variable a : ablock.
Hypothesis Hok : definitions_ok a.

Definition def_pairs : sdict := flat_map (fun e => match g_lhs e with Sy s => [(s, g_rhs e)] | _ => [] end) (ab_defs a).

Lemma def_shape e : In e (ab_defs a) -> exists b t, g_lhs e = Sy (SDate b t) /\ g_cal e = None.
Proof. intro H. destruct (proj1 Hok e H) as (b & t & H1 & _ & H3). eauto. Qed.

Lemma def_entries_eq : def_entries (numbered 0 (map equation_to_sympy (ab_defs a))) = Ok def_pairs.
Proof.
  unfold def_pairs. generalize 0%nat. assert (H := def_shape). clear Hok. induction (ab_defs a) as [|e l IH]; intro n; [reflexivity|].
  unfold numbered. cbn [map length seq combine def_entries flat_map].
  destruct (H e (or_introl eq_refl)) as (b & t & E1 & E2). assert (Ee : equation_to_sympy e = Eqn (g_lhs e) (g_rhs e)) by (unfold equation_to_sympy; now rewrite E2).
  rewrite Ee. cbn [lhs rhs]. rewrite E1.
  unfold numbered in IH. rewrite IH by (intros; apply H; now right). reflexivity.
Qed.
Lemma def_pairs_in s r : In (s, r) def_pairs <-> exists e, In e (ab_defs a) /\ g_lhs e = Sy s /\ g_rhs e = r.
Proof.
  unfold def_pairs. rewrite in_flat_map. split.
  - intros (e & He & H). destruct (def_shape e He) as (b & t & E & _). rewrite E in H. destruct H as [H|[]]. injection H as <- <-. eauto.
  - intros (e & He & E & <-). exists e. split; [exact He|]. rewrite E. now left.
Qed.
Lemma def_bases_nodup : forall i j e e' b t b' t', nth_error (ab_defs a) i = Some e -> nth_error (ab_defs a) j = Some e' -> i <> j ->
     g_lhs e = Sy (SDate b t) -> g_lhs e' = Sy (SDate b' t') -> b <> b'.
Proof. apply (proj1 (proj2 Hok)). Qed.
Lemma def_pairs_nodup : NoDup (map fst def_pairs).
Proof.
  unfold def_pairs. assert (H := def_shape). assert (Hb := def_bases_nodup). clear Hok.
  induction (ab_defs a) as [|e l IH]; [constructor|]. cbn [flat_map].
  destruct (H e (or_introl eq_refl)) as (b & t & E & _). rewrite E. cbn [app map fst]. constructor.
  - intro Hin. apply in_map_iff in Hin as ([s r] & Es & Hin). cbn in Es. subst s.
    apply in_flat_map in Hin as (e' & He' & Hin). destruct (H e' (or_intror He')) as (b' & t' & E' & _). rewrite E' in Hin.
    destruct Hin as [Hin|[]]. injection Hin as -> -> _. apply In_nth_error in He' as (j & Hj).
    exact (Hb 0%nat (S j) e e' b t b t eq_refl Hj (Nat.neq_0_succ j) E E' eq_refl).
  - apply IH; [intros; apply H; now right|]. intros i j e1 e2 b1 t1 b2 t2 H1 H2 Hij. apply (Hb (S i) (S j)); auto.
Qed.
Lemma def_base_unique e e' b t t' : In e (ab_defs a) -> In e' (ab_defs a) -> g_lhs e = Sy (SDate b t) -> g_lhs e' = Sy (SDate b t') ->
  e = e' /\ t = t'.
Proof.
  intros He He' E E'. apply In_nth_error in He as (i & Hi). apply In_nth_error in He' as (j & Hj).
  destruct (Nat.eq_dec i j) as [<-|Hne].
  - rewrite Hi in Hj. injection Hj as <-. split; [reflexivity|]. congruence.
  - exfalso. exact (def_bases_nodup i j e e' b t b t' Hi Hj Hne E E' eq_refl).
Qed.
Lemma def_dict_eq : def_dict (numbered 0 (map equation_to_sympy (ab_defs a))) = Ok def_pairs.
Proof. unfold def_dict. rewrite def_entries_eq. cbn [bind]. rewrite dupd_nil; [reflexivity|exact seqb_eq|exact def_pairs_nodup]. Qed.

Lemma def_pairs_noself : NoSelf def_pairs.
Proof.
  intros k v Hin Hk. apply def_pairs_in in Hin as (e & He & E & <-). destruct (def_shape e He) as (b & t & E' & Ec).
  rewrite E in E'. injection E' as ->.
  destruct (proj1 (proj2 (proj2 Hok)) e b t He Hk) as [_ H]; [|contradiction].
  exists e, t, (g_rhs e). split; [exact He|]. repeat split; auto.
Qed.

Lemma flatten_atoms d f : flatten ord sord d = Ok f -> NoDup (map fst d) ->
  forall k w s, In (k, w) f -> In s (atoms w) -> exists k' v', In (k', v') d /\ In s (atoms v').
Proof.
  intros H Hn. apply (flatten_ok ord sord Ho d Hn) in H as [Hw _]. induction Hw as [|f k0 v0 Hw IH Hin Hnk Hd]; [easy|].
  intros k w s Hkw Hsw. apply in_app_or in Hkw as [Hkw|[Hkw|[]]]; [eapply IH; eassumption|].
  injection Hkw as <- <-. apply atoms_subs_seq in Hsw as [Hsw|(k1 & v1 & H1 & H2)]; [eauto|].
  apply get_all_in in H1 as [_ H1]. apply slookup_In in H1. eapply IH; eassumption.
Qed.

Lemma flatten_defined G env d f : flatten ord sord d = Ok f -> NoDup (map fst d) -> NoSelf d ->
  model_of (Ralg G) env d -> (forall k v, In (k, v) d -> defined G env v) -> forall k w, In (k, w) f -> defined G env w.
Proof.
  intros H Hn Hself Hm Hd.
  destruct (flatten_values ord sord Ho Hs d Hn Hself f H) as (_ & _ & _ & Hmod).
  pose proof (proj1 (Hmod R (Ralg G) env) Hm) as Hmf. clear Hmod.
  apply (flatten_ok ord sord Ho d Hn) in H as [Hw _]. induction Hw as [|f k0 v0 Hw IH Hin Hnk Hdep]; [easy|].
  assert (Hmf' : model_of (Ralg G) env f) by (intros k v Hkv; apply Hmf; apply in_or_app; now left).
  intros k w Hkw. apply in_app_or in Hkw as [Hkw|[Hkw|[]]]; [exact (IH Hmf' k w Hkw)|].
  injection Hkw as <- <-. apply defined_subs_seq; [|exact (Hd _ _ Hin)].
  intros k1 v1 H1. apply get_all_in in H1 as [_ H1]. apply slookup_In in H1. split; [exact (Hmf' _ _ H1)|exact (IH Hmf' _ _ H1)].
Qed.

(* what consolidation yields *)
Lemma consolidated d' : consolidate ord sord (opt_list (numbered 0 (map equation_to_sympy (ab_defs a)))) = Ok d' ->
  exists flat, flatten ord sord def_pairs = Ok flat /\
    tab d' = map (fun ke => (fst ke, Eqn (g_lhs (snd ke)) (match slookup (match g_lhs (snd ke) with Sy s => s | _ => SPar [] end) flat with Some w => w | None => g_rhs (snd ke) end)))
                 (numbered 0 (ab_defs a)).
Proof.
  intro H.
  assert (Hf : (ab_defs a = [] /\ d' = None) \/ exists flat, flatten ord sord def_pairs = Ok flat /\
     d' = Some (map (fun ke => (fst ke, Eqn (lhs (snd ke)) (subs_dict sord flat (rhs (snd ke))))) (numbered 0 (map equation_to_sympy (ab_defs a))))).
  { unfold consolidate in H. destruct (ab_defs a) as [|e l] eqn:E; [left; cbn in H; injection H as <-; auto|right].
    rewrite <- E in *. assert (Hopt : opt_list (numbered 0 (map equation_to_sympy (ab_defs a))) = Some (numbered 0 (map equation_to_sympy (ab_defs a)))).
    { rewrite E. reflexivity. }
    rewrite Hopt in H. rewrite def_dict_eq in H. cbn [bind] in H.
    destruct (flatten ord sord def_pairs) as [flat|] eqn:Ef; cbn [bind] in H; [|discriminate].
    exists flat. split; [reflexivity|]. injection H as <-. reflexivity. }
  destruct Hf as [[E ->]|(flat & Ef & ->)].
  - exists []. unfold def_pairs. rewrite E. split; reflexivity.
  - exists flat. split; [exact Ef|]. cbn [tab]. rewrite numbered_map, map_map. apply map_ext_in. intros [n e] Hin. cbn [fst snd].
    assert (He : In e (ab_defs a)).
    { rewrite <- (numbered_snd 0 (ab_defs a)). apply in_map_iff. exists (n, e). auto. }
    destruct (def_shape e He) as (b & t & E1 & E2). unfold equation_to_sympy. rewrite E2. cbn [lhs rhs]. rewrite E1.
    f_equal. f_equal.
    destruct (flatten_values ord sord Ho Hs def_pairs def_pairs_nodup def_pairs_noself flat Ef) as (Hp & Hnk & Hv & _).
    assert (Hpair : In (SDate b t, g_rhs e) def_pairs) by (apply def_pairs_in; exists e; auto).
    rewrite (Hv _ _ Hpair). rewrite subs_dict_simul; auto.
    + apply (Permutation_NoDup (Permutation_sym Hp)), def_pairs_nodup.
    + intros k w s Hkw Hsw Hin'. apply (Hnk k w s Hkw Hsw). apply (Permutation_in _ Hp), Hin'.
Qed.
End C.
