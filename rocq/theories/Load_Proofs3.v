From Verif Require Import Common Expr_Model Expr_RoundTrip Sym_Model Sym_Spec Sym_Proofs Sym_Flatten SymDict_Model SymDict_More ExpandTime_Spec ExpandTime_Proofs
  Load_Model Load_Spec Load_Proofs Load_Proofs2.
From Verif Require Gcn_Model ExpandTime_Model Block_Model Block_Spec Block_Proofs Block_Lagr Block_Foc Block_Solve Sym_Props.
From Coq Require Import Reals Lra Permutation.
Local Open Scope list_scope.

Section P.
Context {F : Type}.
Variables (whole : F -> result (option Z)) (lit : F -> chars).
Notation convert := (convert whole lit).

(* ---- solutions ---- *)
Theorem solutions b g : equations_of whole lit b g -> exists static focs, g = static ++ focs /\ length focs = length (Gcn_Model.controls b) /\
  forall G I p, good_path whole lit G I p b ->
    ((forall x t, In x static -> ev (Ralg G) (at_date I p t) x = 0%R) <->
     (forall q, In q (Gcn_Model.identities b ++ filter kept (Gcn_Model.constraints b) ++ Gcn_Model.objective b) ->
        forall t, den I p t (Gcn_Model.lhs q) = den I p t (Gcn_Model.rhs q)) /\
     lags_right (gblock_of b) p /\ leads_right (gblock_of b) p).
Proof.
  intros (ids & aux & links & cons & obj & focs & -> & H1 & H2 & _ & H3 & H4 & H5 & H6).
  exists (ids ++ aux ++ cons ++ obj), focs. split; [now rewrite <- !app_assoc|]. split; [exact H6|].
  intros G I p HG.
  assert (Haux : (forall x t, In x aux -> ev (Ralg G) (at_date I p t) x = 0%R) <-> (forall dst src d, link b dst src d -> forall t, p dst t = p src (t + d)%Z)).
  { split.
    - intros H dst src d Hl t. apply H3 in Hl. destruct (F2_in_r _ _ _ H2 _ Hl) as (x & Hx & Hv). specialize (H x t Hx).
      rewrite (Hv G I p t HG) in H. lra.
    - intros H x t Hx. destruct (F2_in_l _ _ _ H2 x Hx) as ([[dst src] d] & Hl & Hv). rewrite (Hv G I p t HG).
      rewrite (H dst src d (proj1 (H3 dst src d) Hl) t). lra. }
  assert (Hlinks : (forall dst src d, link b dst src d -> forall t, p dst t = p src (t + d)%Z) <-> lags_right (gblock_of b) p /\ leads_right (gblock_of b) p).
  { split.
    - intro H. split.
      + intros x k Hu. induction k as [|[|k] IH]; intro t.
        * destruct Hu as (z & _ & Hz). lia.
        * rewrite (H _ _ _ (link_lag b x 1 Hu)). cbn [Nat.eqb]. f_equal.
        * rewrite (H _ _ _ (link_lag b x (S (S k)) Hu)). change (Nat.eqb (S (S k)) 1) with false. cbn iota. replace (S (S k) - 1)%nat with (S k) by lia.
          rewrite IH by (now apply uses_lag_pred). f_equal. lia.
      + intros x k Hu. induction k as [|[|k] IH]; intro t.
        * destruct Hu as (z & _ & Hz). lia.
        * rewrite (H _ _ _ (link_lead b x 1 Hu)). cbn [Nat.eqb]. f_equal.
        * rewrite (H _ _ _ (link_lead b x (S (S k)) Hu)). change (Nat.eqb (S (S k)) 1) with false. cbn iota. replace (S (S k) - 1)%nat with (S k) by lia.
          rewrite IH by (now apply uses_lead_pred). f_equal. lia.
    - intros [HL HD] dst src d Hl t. destruct Hl as [x k Hu|x k Hu].
      + rewrite (HL x k Hu). destruct k as [|[|k]]; [destruct Hu as (z & _ & Hz); lia|f_equal; lia|].
        change (Nat.eqb (S (S k)) 1) with false. cbn iota. replace (S (S k) - 1)%nat with (S k) by lia.
        rewrite (HL x (S k)) by (now apply uses_lag_pred). f_equal. lia.
      + rewrite (HD x k Hu). destruct k as [|[|k]]; [destruct Hu as (z & _ & Hz); lia|f_equal; lia|].
        change (Nat.eqb (S (S k)) 1) with false. cbn iota. replace (S (S k) - 1)%nat with (S k) by lia.
        rewrite (HD x (S k)) by (now apply uses_lead_pred). f_equal. lia. }
  assert (Hall : Forall2 (says whole lit b) (ids ++ cons ++ obj) (Gcn_Model.identities b ++ filter kept (Gcn_Model.constraints b) ++ Gcn_Model.objective b)).
  { apply Forall2_app; [exact H1|]. apply Forall2_app; [exact H4|exact H5]. }
  split.
  - intro H. assert (Hx : lags_right (gblock_of b) p /\ leads_right (gblock_of b) p).
    { apply Hlinks, Haux. intros x t Hx. apply H. rewrite !in_app_iff. auto. }
    split; [|exact Hx]. intros q Hq t. destruct (F2_in_r _ _ _ Hall q Hq) as (x & Hin & Hv).
    assert (Hz : ev (Ralg G) (at_date I p t) x = 0%R) by (apply H; rewrite !in_app_iff in *; tauto).
    rewrite (Hv G I p t HG (proj1 Hx) (proj2 Hx)) in Hz. lra.
  - intros (H & HL & HD) x t Hx. assert (Hx' : In x aux \/ In x (ids ++ cons ++ obj)) by (rewrite !in_app_iff in *; tauto).
    destruct Hx' as [Hx'|Hx'].
    + exact (proj2 Haux (proj2 Hlinks (conj HL HD)) x t Hx').
    + destruct (F2_in_l _ _ _ Hall x Hx') as (q & Hq & Hv). rewrite (Hv G I p t HG HL HD), (H q Hq t). lra.
Qed.

(* ---- the steady state ---- *)
Lemma convert_symbol e s : convert e = Ok (Sy s) <-> symbol_of e = Some s.
Proof.
  induction e as [v|n|n t|a IH|o a b IHa IHb|f args IH|a IH] using expr_ind'.
  - cbn. unfold number. destruct (whole v) as [[z|]|]; cbn; split; discriminate.
  - cbn. split; intro H; injection H as <-; reflexivity.
  - cbn. destruct t; cbn; split; intro H; injection H as <-; reflexivity.
  - cbn. destruct (convert a); cbn; split; discriminate.
  - cbn [Load_Model.convert symbol_of]. destruct (convert a); [|cbn; split; discriminate]. cbn [bind].
    destruct (convert b) as [y|]; [|cbn; split; discriminate]. cbn [bind]. split; [|discriminate]. intro H. injection H as H.
    destruct o; try discriminate. cbn in H. unfold spow in H. destruct (integer_of y); discriminate.
  - rewrite convert_fun. cbn [symbol_of]. split; [|discriminate]. destruct (existsb _ _); [|discriminate].
    destruct (map_ok convert args) as [xs|]; [|discriminate]. cbn [bind]. unfold call. destruct xs as [|x [|y [|]]]; try discriminate.
    destruct (chars_eqb f _); [discriminate|]. destruct (chars_eqb f _); discriminate.
  - exact IH.
Qed.

Variables ord sord : set_order.
Hypothesis Ho : set_order_ok ord.
Hypothesis Hs : set_order_ok sord.
Notation extract_ss := (extract_ss whole lit ord sord).
Notation ss_equation := (ss_equation whole lit).

Definition pairs (l : list (sx * sx)) : sdict := flat_map (fun lr => match fst lr with Sy s => [(s, snd lr)] | _ => [] end) l.
Lemma add_rules l d : fold_left add_rule l d = dupd sym_eqb d (pairs l).
Proof.
  revert d. induction l as [|[x y] l IH]; intro d; [reflexivity|]. cbn [fold_left pairs flat_map fst snd]. rewrite IH. unfold add_rule. cbn [fst snd].
  destruct x; cbn [app]; reflexivity.
Qed.
Lemma map_ok_app {A B} (f : A -> result B) l l' : map_ok f (l ++ l') = (x <- map_ok f l ;; y <- map_ok f l' ;; Ok (x ++ y)).
Proof.
  induction l as [|a l IH]; cbn [app map_ok bind].
  - destruct (map_ok f l'); reflexivity.
  - destruct (f a); [|reflexivity]. cbn [bind]. rewrite IH. destruct (map_ok f l); [|reflexivity]. cbn [bind]. destruct (map_ok f l'); reflexivity.
Qed.

Section Reg.
Variable b : Gcn_Model.block F.
Hypothesis Hreg : rules_regular b.
Variable rs : list (sx * sx).
Hypothesis Hrs : map_ok ss_equation (rules b) = Ok rs.
Lemma rs_F2 : Forall2 (fun q lr => exists s, symbol_of (Gcn_Model.lhs q) = Some s /\ fst lr = Sy s /\ convert (Gcn_Model.rhs q) = Ok (snd lr)) (rules b) rs.
Proof.
  apply map_ok_F2 in Hrs. eapply F2_impl; [|exact Hrs]. intros q [l r] Hq _ E. cbn [fst snd]. unfold Load_Model.ss_equation in E.
  destruct (proj1 Hreg q Hq) as (s & Es & _). exists s. apply convert_symbol in Es as Ec. rewrite Ec in E. cbn [bind] in E.
  destruct (convert (Gcn_Model.rhs q)) as [y|]; [|discriminate]. cbn [bind] in E. injection E as <- <-. auto.
Qed.
Lemma pairs_F2 : Forall2 (fun q kv => symbol_of (Gcn_Model.lhs q) = Some (fst kv) /\ convert (Gcn_Model.rhs q) = Ok (snd kv)) (rules b) (pairs rs) /\
  map (fun lr => fst lr) rs = map (fun kv => Sy (fst kv)) (pairs rs).
Proof.
  pose proof rs_F2 as H. clear Hrs Hreg. induction H as [|q [l r] qs rs' (s & E1 & E2 & E3) H IH]; [split; [constructor|reflexivity]|].
  destruct IH as [IH1 IH2]. cbn [fst snd] in *. subst l. cbn [pairs flat_map fst snd app map]. split; [constructor; auto|]. f_equal. exact IH2.
Qed.
Lemma pairs_keys : map (fun q => symbol_of (Gcn_Model.lhs q)) (rules b) = map Some (map fst (pairs rs)).
Proof. destruct pairs_F2 as [H _]. clear -H. induction H as [|q kv qs l [E _] H IH]; [reflexivity|]. cbn. now rewrite E, IH. Qed.
Lemma pairs_nodup : NoDup (map fst (pairs rs)).
Proof.
  destruct Hreg as [_ H]. rewrite pairs_keys in H. clear -H. induction (map fst (pairs rs)) as [|x l IH]; [constructor|]. inversion H; subst. constructor; [|auto].
  intro Hin. apply H2. now apply in_map.
Qed.
Lemma pairs_self : NoSelf (pairs rs).
Proof.
  intros k v Hkv. destruct (F2_in_r _ _ _ (proj1 pairs_F2) (k, v) Hkv) as (q & Hq & E1 & E2). cbn in *.
  destruct (proj1 Hreg q Hq) as (s & Es & Hn). rewrite E1 in Es. injection Es as <-. intro Hin. apply Hn. eapply convert_incl; eauto.
Qed.
Lemma pairs_dict : fold_left add_rule rs [] = pairs rs.
Proof. rewrite add_rules. apply dupd_nil; [exact Block_Lagr.seqb_eq|exact pairs_nodup]. Qed.
End Reg.

Lemma sdset_new s (v : sx) d : ~ In s (map fst d) -> dset sym_eqb s v d = d ++ [(s, v)].
Proof.
  induction d as [|[m w] d IH]; intro H; [reflexivity|]. cbn [dset map fst] in *. destruct (sym_eqb s m) eqn:E.
  - apply Block_Lagr.seqb_eq in E. subst. destruct H. now left.
  - cbn [app]. f_equal. apply IH. intro Hin. apply H. now right.
Qed.

(* the keys of the identities, looked up in the flattened rules *)
Lemma ss_dict_ok flat ks : NoDup (map fst ks) -> (forall s, In s (map fst ks) -> In s (map fst flat)) ->
  exists d, ss_dict flat (map (fun kv => (Sy (fst kv), snd kv)) ks) = Ok d /\ map fst d = map fst ks /\ forall s v, In (s, v) d -> slookup s flat = Some v.
Proof.
  intros Hn Hin. unfold ss_dict.
  assert (K : forall acc : sdict, (forall s, In s (map fst ks) -> ~ In s (map fst acc)) -> (forall s v, In (s, v) acc -> slookup s flat = Some v) ->
    exists d, fold_left (fun r lr => d <- r ;; match fst lr with
                                   | Sy s => match slookup s flat with Some v => Ok (dset sym_eqb s v d) | None => Err KeyError end
                                   | _ => Err KeyError
                                   end) (map (fun kv : sym * sx => (Sy (fst kv), snd kv)) ks) (Ok acc) = Ok d /\
      map fst d = map fst acc ++ map fst ks /\ forall s v, In (s, v) d -> slookup s flat = Some v).
  { clear -Hn Hin. induction ks as [|[s v] ks IH]; intros acc Ha Hacc.
    - exists acc. cbn. rewrite app_nil_r. auto.
    - cbn [map fold_left fst snd bind]. inversion Hn; subst. destruct (slookup s flat) as [w|] eqn:E.
      2:{ exfalso. apply slookup_None in E. apply E, Hin. now left. }
      rewrite sdset_new by (apply Ha; now left). destruct (IH H2) with (acc := acc ++ [(s, w)]) as (d & E1 & E2 & E3).
      + intros x Hx. apply Hin. now right.
      + intros x Hx. rewrite map_app, in_app_iff. cbn. intros [Hx'|[<-|[]]]; [eapply Ha; [right; exact Hx|exact Hx']|]. now apply H1.
      + intros x y Hxy. apply in_app_or in Hxy as [Hxy|[Hxy|[]]]; [auto|]. injection Hxy as <- <-. exact E.
      + exists d. split; [exact E1|]. split; [|exact E3]. rewrite E2, map_app, <- app_assoc. reflexivity. }
  destruct (K [] (fun s _ H => H)) as (d & E1 & E2 & E3); [intros ? ? []|]. exists d. auto.
Qed.
Lemma app_cut {A} (a1 a2 c1 c2 : list A) : length a1 = length a2 -> a1 ++ c1 = a2 ++ c2 -> c1 = c2.
Proof. revert a2. induction a1 as [|x a1 IH]; intros [|y a2] L H; try discriminate; [exact H|]. injection H as _ H. apply (IH a2); [cbn in L; lia|exact H]. Qed.
Lemma rs_shape (rs : list (sx * sx)) : map fst rs = map (fun kv => Sy (fst kv)) (pairs rs) -> rs = map (fun kv => (Sy (fst kv), snd kv)) (pairs rs).
Proof.
  induction rs as [|[x y] rs IH]; intro H; [reflexivity|]. destruct x as [z|s| | | |]; cbn [pairs flat_map fst snd map app] in *.
  2:{ injection H as H. f_equal. now apply IH. }
  all: exfalso; fold (pairs rs) in H; clear -H; destruct (pairs rs); discriminate.
Qed.

Theorem extract_empty m : filter (fun b => ss_named (Gcn_Model.b_name b)) (Gcn_Model.blocks m) = [] -> extract_ss m = Ok [].
Proof. intro H. unfold Load_Model.extract_ss. now rewrite H. Qed.
Theorem extract_unfold m b r : filter (fun b => ss_named (Gcn_Model.b_name b)) (Gcn_Model.blocks m) = b :: r ->
  extract_ss m = (df <- map_ok ss_equation (Gcn_Model.definitions b) ;; id <- map_ok ss_equation (Gcn_Model.identities b) ;;
                  flat <- flatten ord sord (fold_left add_rule (df ++ id) []) ;; ss_dict flat id).
Proof. intro H. unfold Load_Model.extract_ss. now rewrite H. Qed.

Section One.
Variables (m : Gcn_Model.gmodel F) (b : Gcn_Model.block F) (r : list (Gcn_Model.block F)).
Hypothesis Hb : filter (fun b => ss_named (Gcn_Model.b_name b)) (Gcn_Model.blocks m) = b :: r.
Hypothesis Hreg : rules_regular b.
Lemma conv_rules_ok : (forall q, In q (rules b) -> usable whole lax_arity (Gcn_Model.rhs q)) -> exists df id,
  map_ok ss_equation (Gcn_Model.definitions b) = Ok df /\ map_ok ss_equation (Gcn_Model.identities b) = Ok id.
Proof.
  intro H. assert (K : forall l, (forall q, In q l -> In q (rules b)) -> exists x, map_ok ss_equation l = Ok x).
  { induction l as [|q l IH]; intro Hl; [eexists; reflexivity|]. destruct IH as (xs & E); [intros; apply Hl; now right|].
    assert (Hq : In q (rules b)) by (apply Hl; now left). destruct (proj1 Hreg q Hq) as (s & Es & _). apply convert_symbol in Es.
    destruct (proj2 (convert_accepts whole lit (Gcn_Model.rhs q)) (H q Hq)) as (y & Ey).
    cbn [map_ok]. unfold Load_Model.ss_equation at 1. rewrite Es, Ey. cbn [bind]. rewrite E. cbn [bind]. eauto. }
  destruct (K (Gcn_Model.definitions b)) as (df & E1); [intros; apply in_or_app; auto|].
  destruct (K (Gcn_Model.identities b)) as (id & E2); [intros; apply in_or_app; auto|]. eauto.
Qed.
Theorem extract_values d : extract_ss m = Ok d ->
  map (fun kv => Some (fst kv)) d = map (fun q => symbol_of (Gcn_Model.lhs q)) (Gcn_Model.identities b) /\
  (forall s v q, In (s, v) d -> In q (rules b) -> forall s', symbol_of (Gcn_Model.lhs q) = Some s' -> ~ In s' (atoms v)) /\
  (forall G I p t, usual whole lit G I -> (forall q, In q (rules b) -> bases_ok whole I p t (Gcn_Model.rhs q)) ->
     (forall q, In q (rules b) -> den I p t (Gcn_Model.lhs q) = den I p t (Gcn_Model.rhs q)) ->
     forall s v, In (s, v) d -> ev (Ralg G) (at_date I p t) v = at_date I p t s).
Proof.
  rewrite (extract_unfold m b r Hb). destruct (map_ok ss_equation (Gcn_Model.definitions b)) as [df|] eqn:E1; [|discriminate]. cbn [bind].
  destruct (map_ok ss_equation (Gcn_Model.identities b)) as [id|] eqn:E2; [|discriminate]. cbn [bind].
  assert (Hrs : map_ok ss_equation (rules b) = Ok (df ++ id)) by (unfold rules; rewrite map_ok_app, E1, E2; reflexivity).
  rewrite (pairs_dict b Hreg _ Hrs). destruct (flatten ord sord (pairs (df ++ id))) as [flat|] eqn:Ef; [|discriminate]. cbn [bind].
  pose proof (pairs_nodup b Hreg _ Hrs) as Hn. pose proof (pairs_self b Hreg _ Hrs) as Hself.
  destruct (flatten_values ord sord Ho Hs _ Hn Hself flat Ef) as (V1 & V2 & _ & V4).
  destruct (pairs_F2 b Hreg _ Hrs) as [F1 F3].
  assert (Hp : pairs (df ++ id) = pairs df ++ pairs id) by (unfold pairs; apply flat_map_app).
  assert (Hid : map fst id = map (fun kv => Sy (fst kv)) (pairs id)).
  { rewrite Hp, !map_app in F3. assert (L : length (map (fun lr : sx * sx => fst lr) df) = length (map (fun kv : sym * sx => Sy (fst kv)) (pairs df))).
    { rewrite !map_length. apply map_ok_F2 in E1. apply F2_len in E1. 
      pose proof (F2_len _ _ _ F1) as L1. unfold rules in L1. rewrite Hp, !app_length in L1. apply map_ok_F2 in E2. apply F2_len in E2.
      assert (B1 : (length (pairs df) <= length df)%nat /\ (length (pairs id) <= length id)%nat).
      { clear. split; [induction df as [|[[] ?] l IH]|induction id as [|[[] ?] l IH]]; cbn in *; try (unfold pairs in *; cbn in *); lia. }
      lia. }
    exact (app_cut _ _ _ _ L F3). }
  destruct (ss_dict_ok flat (pairs id)) as (d' & D1 & D2 & D3).
  { rewrite Hp, map_app in Hn. clear -Hn. induction (map fst (pairs df)); [exact Hn|]. inversion Hn; auto. }
  { intros s Hin. apply (Permutation_in _ (Permutation_sym V1)). rewrite Hp, map_app, in_app_iff. auto. }
  rewrite <- (rs_shape id Hid) in D1. rewrite D1. intro H. injection H as <-. split; [|split].
  - change (map (fun kv : sym * sx => Some (fst kv)) d') with (map (fun kv : sym * sx => Some (fst kv)) d'). rewrite <- map_map, D2.
    pose proof (pairs_keys b Hreg _ Hrs) as Hk. unfold rules in Hk. rewrite Hp, !map_app in Hk.
    assert (L : length (map (fun q => symbol_of (Gcn_Model.lhs (F:=F) q)) (Gcn_Model.definitions b)) = length (map Some (map fst (pairs df)))).
    { rewrite !map_length. apply map_ok_F2 in E1. apply F2_len in E1. rewrite E1.
      assert (L2 : length (map (fun lr : sx * sx => fst lr) (df ++ id)) = length (map (fun kv : sym * sx => Sy (fst kv)) (pairs (df ++ id)))) by (now f_equal).
      rewrite Hp, !map_length, !app_length in L2. apply (f_equal (@length _)) in Hid. rewrite !map_length in Hid. lia. }
    symmetry. exact (app_cut _ _ _ _ L Hk).
  - intros s v q Hsv Hq s' Es' Hin. apply D3, slookup_In in Hsv. apply (V2 s v s' Hsv Hin).
    destruct (F2_in_l _ _ _ F1 q Hq) as ([k w] & Hkw & E & _). cbn in E. rewrite Es' in E. injection E as <-.
    apply in_map_iff. exists (s', w). auto.
  - intros G I p t HU Hbs Hq s v Hsv. apply D3, slookup_In in Hsv. symmetry.
    refine (proj1 (V4 R (Ralg G) (at_date I p t)) _ s v Hsv). intros k w Hkw.
    destruct (F2_in_r _ _ _ F1 (k, w) Hkw) as (q & Hq' & Ek & Ew). cbn in Ek, Ew.
    rewrite (convert_value whole lit G I p t _ _ HU Ew (Hbs q Hq')), <- (Hq q Hq').
    apply convert_symbol in Ek. assert (Hbl : bases_ok whole I p t (Gcn_Model.lhs q)).
    { apply convert_symbol in Ek. clear -Ek. induction (Gcn_Model.lhs q); try discriminate; cbn; auto. }
    rewrite <- (convert_value whole lit G I p t _ _ HU Ek Hbl). reflexivity.
Qed.
Theorem extract_succeeds : (forall q, In q (rules b) -> usable whole arity (Gcn_Model.rhs q)) ->
  ((exists d, extract_ss m = Ok d) <-> rules_ordered b) /\ (forall e, extract_ss m = Err e -> e = ValueError).
Proof.
  intro Hus. assert (Hus' : forall q, In q (rules b) -> usable whole lax_arity (Gcn_Model.rhs q)).
  { intros q Hq. apply (usable_mono whole arity); [|now apply Hus]. intros f n. unfold lax_arity. auto. }
  destruct (conv_rules_ok Hus') as (df & id & E1 & E2).
  assert (Hrs : map_ok ss_equation (rules b) = Ok (df ++ id)) by (unfold rules; rewrite map_ok_app, E1, E2; reflexivity).
  rewrite (extract_unfold m b r Hb), E1, E2. cbn [bind]. rewrite (pairs_dict b Hreg _ Hrs).
  pose proof (pairs_nodup b Hreg _ Hrs) as Hn. pose proof (pairs_self b Hreg _ Hrs) as Hself.
  destruct (Sym_Props.C10_success_exactly_when_acyclic ord sord Ho Hs (pairs (df ++ id)) Hn) as [A1 A2].
  destruct (pairs_F2 b Hreg _ Hrs) as [F1 F3].
  assert (Hac : acyclic (pairs (df ++ id)) <-> rules_ordered b).
  { unfold acyclic, rules_ordered. split; intros (rank & H); exists rank.
    - intros q q' s s' Hq Hq' Es Es' Hin. destruct (F2_in_l _ _ _ F1 q Hq) as ([k w] & Hkw & Ek & Ew). cbn in Ek, Ew. rewrite Es in Ek. injection Ek as <-.
      destruct (F2_in_l _ _ _ F1 q' Hq') as ([k' w'] & Hkw' & Ek' & _). cbn in Ek'. rewrite Es' in Ek'. injection Ek' as <-.
      assert (Hin' : In s' (atoms w)) by (now apply (convert_atoms whole lit _ _ Ew (Hus q Hq))).
      apply (H s w s' Hkw Hin'); [apply in_map_iff; exists (s', w'); auto|]. intros ->. exact (Hself s w Hkw Hin').
    - intros k v s Hkv Hin Hk Hne. apply in_map_iff in Hk as ([s' w] & <- & Hsw). cbn [fst] in *.
      destruct (F2_in_r _ _ _ F1 (k, v) Hkv) as (q & Hq & Ek & Ev). destruct (F2_in_r _ _ _ F1 (s', w) Hsw) as (q' & Hq' & Es & _). cbn in *.
      apply (H q q' k s' Hq Hq' Ek Es). eapply convert_incl; eauto. }
  rewrite <- Hac, <- A1. destruct (flatten ord sord (pairs (df ++ id))) as [flat|e] eqn:Ef; cbn [bind].
  - destruct (flatten_values ord sord Ho Hs _ Hn Hself flat Ef) as (V1 & _).
    assert (Hp : pairs (df ++ id) = pairs df ++ pairs id) by (unfold pairs; apply flat_map_app).
    assert (Hd : exists d, ss_dict flat id = Ok d).
    { destruct (ss_dict_ok flat (pairs id)) as (d' & D1 & _).
      - rewrite Hp, map_app in Hn. clear -Hn. induction (map fst (pairs df)); [exact Hn|]. inversion Hn; auto.
      - intros s Hin. apply (Permutation_in _ (Permutation_sym V1)). rewrite Hp, map_app, in_app_iff. auto.
      - exists d'. rewrite <- (rs_shape id) in D1; [exact D1|]. clear -E2 Hreg. apply map_ok_F2 in E2.
        assert (Hq : forall q, In q (Gcn_Model.identities b) -> exists s, symbol_of (Gcn_Model.lhs q) = Some s).
        { intros q Hq. destruct (proj1 Hreg q) as (s & E & _); [apply in_or_app; auto|eauto]. }
        induction E2 as [|q [l y] qs l' E H IH]; [reflexivity|]. destruct (Hq q (or_introl eq_refl)) as (s & Es). apply convert_symbol in Es.
        unfold Load_Model.ss_equation in E. rewrite Es in E. cbn [bind] in E. destruct (convert (Gcn_Model.rhs q)); [|discriminate]. cbn [bind] in E. injection E as <- <-.
        cbn [map fst pairs flat_map snd app]. f_equal. apply IH. intros; apply Hq; now right. }
    destruct Hd as (d & ->). split; [split; eauto|discriminate].
  - split; [split; intros (x & H); discriminate|]. intros e' H. injection H as <-. exact (A2 e eq_refl).
Qed.
(* an identity whose left-hand side is not a symbol *)
Theorem extract_bad_lhs d q : In q (Gcn_Model.identities b) -> symbol_of (Gcn_Model.lhs q) = None -> extract_ss m <> Ok d.
Proof.
  intros Hq Hn. rewrite (extract_unfold m b r Hb). destruct (map_ok ss_equation (Gcn_Model.definitions b)) as [df|]; [|discriminate]. cbn [bind].
  destruct (map_ok ss_equation (Gcn_Model.identities b)) as [id|] eqn:E2; [|discriminate]. cbn [bind]. destruct (flatten _ _ _) as [flat|]; [|discriminate]. cbn [bind].
  apply map_ok_F2 in E2. destruct (F2_in_l _ _ _ E2 q Hq) as ([l y] & Hin & E). unfold Load_Model.ss_equation in E.
  destruct (convert (Gcn_Model.lhs q)) as [l'|] eqn:El; [|discriminate]. cbn [bind] in E. destruct (convert (Gcn_Model.rhs q)); [|discriminate]. cbn [bind] in E.
  injection E as <- <-. intro H. unfold ss_dict in H.
  assert (Hl : forall s, l' <> Sy s) by (intros s ->; apply convert_symbol in El; congruence).
  assert (Herr : forall l e, fold_left (fun (r : result (list (sym * sx))) (lr : sx * sx) => d <- r ;; match fst lr with
                                   | Sy s => match slookup s flat with Some v => Ok (dset sym_eqb s v d) | None => Err KeyError end
                                   | _ => Err KeyError
                                   end) l (Err e) = @Err sdict e) by (induction l; intro; cbn; auto).
  revert H Hin. clear E2. generalize (@nil (sym * sx)). induction id as [|[x z] id IH]; intros acc H Hin; [destruct Hin|].
  cbn [fold_left bind fst] in H. destruct Hin as [Hin|Hin].
  - injection Hin as -> ->. destruct l' as [ | s | | | | ]; try (rewrite Herr in H; discriminate). now destruct (Hl s).
  - destruct x; try (rewrite Herr in H; discriminate). destruct (slookup s flat); [|rewrite Herr in H; discriminate]. eapply IH; eauto.
Qed.
End One.
End P.
