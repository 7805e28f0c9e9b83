From Verif Require Import Common Expr_Model Expr_RoundTrip Sym_Model Sym_Spec Sym_Proofs Sym_Flatten SymDict_Model SymDict_More ExpandTime_Spec ExpandTime_Proofs
  Load_Model Load_Spec Load_Proofs.
From Verif Require Gcn_Model ExpandTime_Model Block_Model Block_Spec Block_Proofs Block_Lagr Block_Foc Block_Solve.
From Coq Require Import Reals Lra Permutation.
Local Open Scope list_scope.

(* ---- the equations a block ends up with ---- *)
Section B.
Import Block_Model Block_Spec Block_Proofs Block_Lagr Block_Foc Block_Solve.
Variables ord sord : set_order.
Variable aord : list sx -> list sx.
Hypothesis Ho : set_order_ok ord.
Hypothesis Hs : set_order_ok sord.
Lemma all_focs_length foc cs fs : all_focs foc cs = Ok fs -> length fs = length cs.
Proof.
  revert fs. induction cs as [|c cs IH]; intros fs H; cbn [all_focs] in H; [injection H as <-; reflexivity|].
  destruct (foc c); [|discriminate]. cbn [bind] in H. destruct (all_focs foc cs) as [r|]; [|discriminate]. cbn [bind] in H.
  injection H as <-. cbn. f_equal. now apply IH.
Qed.
Theorem sys_shape a b b' : to_block ord sord a = Ok b -> definitions_ok a -> solve_optimization ord sord aord b = Ok b' ->
  exists flat focs, flatten ord sord (def_pairs a) = Ok flat /\
    k_sys b' = map (fun e => written sord (sd1 a flat) (equation_to_sympy e)) (ab_ids a) ++
               map (fun e => written sord (sd1 a flat) (equation_to_sympy e)) (filter (fun e => negb (g_exclude e)) (ab_cons a)) ++
               map (fun e => written sord (sd1 a flat) (equation_to_sympy e)) (ab_obj a) ++ focs /\
    length focs = length (ab_controls a) /\
    (forall e, In e (ab_defs a ++ ab_obj a ++ ab_cons a ++ ab_ids a) -> g_cal e = None).
Proof.
  intros Hb Hok Hsol. apply to_block_inv in Hb as (short & d' & _ & Hval & Hcons & ->).
  destruct (validate_facts a short Hval) as (Hcal & Hoc & Hlen).
  unfold raw_block in Hcons. cbn [k_defs] in Hcons.
  destruct (consolidated ord sord Ho Hs a Hok d' Hcons) as (flat & Hflat & Hd').
  change (tab d' = map (fun ke => (fst ke, Eqn (g_lhs (snd ke)) (flatval flat (snd ke)))) (numbered 0 (ab_defs a))) in Hd'.
  unfold solve_optimization, solve_with in Hsol. unfold raw_block in Hsol.
  cbn [k_defs k_flags k_cons k_ids k_controls k_obj k_mult k_short k_shocks k_cal] in Hsol.
  rewrite (sd1_def_dict a Hok flat d' Hd') in Hsol. cbn [bind] in Hsol. rewrite !opt_list_tab in Hsol.
  rewrite (keep_spec _ (ab_cons a) (length (ab_defs a) + length (ab_obj a))) in Hsol.
  2:{ intros i e Hi. pose proof (comp_lookup a (ab_defs a ++ ab_obj a) (ab_cons a) (ab_ids a)) as H.
      rewrite app_length in H. apply H; [now rewrite <- app_assoc|exact Hi]. }
  cbn [bind] in Hsol. rewrite !numbered_snd, !map_map in Hsol.
  destruct (ab_controls a) as [|c0 cs] eqn:Ec; cbn [opt_list] in Hsol.
  - rewrite (proj2 Hoc eq_refl) in Hsol. cbn in Hsol. injection Hsol as <-. exists flat, []. cbn [k_sys].
    rewrite (proj2 Hoc eq_refl) in *. cbn [map app]. rewrite app_nil_r. split; [exact Hflat|]. split; [reflexivity|]. split; [reflexivity|]. exact Hcal.
  - destruct (ab_obj a) as [|obj [|]] eqn:Eo; [destruct Hoc as [Hx _]; discriminate (Hx eq_refl)| |cbn in Hlen; lia].
    cbn [map numbered length seq combine opt_list] in Hsol.
    destruct (discount_factor aord (equation_to_sympy obj)) as [df|]; [|discriminate]. cbn [bind] in Hsol.
    match type of Hsol with context [build_lagrangian ?o ?s ?b] => destruct (build_lagrangian o s b) as [[L mu]|]; [|discriminate] end.
    cbn [bind] in Hsol. destruct (nth_error _ _) as [[m|]|]; try discriminate.
    match type of Hsol with context [all_focs ?f ?l] => destruct (all_focs f l) as [fs|] eqn:Ef; [|discriminate] end.
    cbn [bind] in Hsol. injection Hsol as <-. exists flat, fs. cbn [k_sys map]. apply all_focs_length in Ef.
    rewrite <- app_assoc. cbn [app]. split; [exact Hflat|]. split; [reflexivity|]. split; [exact Ef|exact Hcal].
Qed.
End B.

Section P.
Context {F : Type}.
Variables (whole : F -> result (option Z)) (lit : F -> chars).
Notation convert := (convert whole lit).
Notation to_geq := (to_geq whole lit).
Notation usual := (usual whole lit).
Notation bases_ok := (bases_ok whole).

Lemma den_fc_foresight {V} (I : interp F V) p : foresight I -> forall e t, den_fc I p t e = den I p t e.
Proof.
  intros HF e. induction e as [v|n|n u|a IH|o a b IHa IHb|f args IH|a IH] using expr_ind'; intro t; cbn [den den_fc]; try reflexivity.
  - destruct u as [z|]; [|reflexivity]. destruct (Z.ltb 1 z); [apply HF|reflexivity].
  - now rewrite IH.
  - now rewrite IHa, IHb.
  - f_equal. apply map_ext_in. intros a Ha. rewrite Forall_forall in IH. now apply IH.
  - now rewrite IH.
Qed.
Section Rep.
Context {X : Type}.
Variables (I : interp F R) (b : ExpandTime_Model.gblock F X) (p : path R).
Hypothesis HF : foresight I.
Hypothesis HL : lags_right b p.
Hypothesis HD : leads_right b p.
Lemma den_rep e t : incl (occs e) (occs_block b) -> den I p t (ExpandTime_Model.replace (ExpandTime_Model.deep_dicts b) e) = den I p t e.
Proof.
  intro Hi. rewrite (den_replace I b p e HL); [apply den_fc_foresight, HF| |exact Hi].
  intros x k Hu t'. rewrite HF. apply HD, Hu.
Qed.
Lemma bases_rep e t : incl (occs e) (occs_block b) -> bases_ok I p t e -> bases_ok I p t (ExpandTime_Model.replace (ExpandTime_Model.deep_dicts b) e).
Proof.
  induction e as [v|n|n u|a IH|o a c IHa IHb|f args IH|a IH] using expr_ind'; intros Hi; cbn [ExpandTime_Model.replace Load_Spec.bases_ok]; auto.
  - intros _. destruct u as [z|]; cbn [ExpandTime_Model.replace_var]; [|exact Coq.Init.Logic.I].
    destruct (_ && _)%bool; [exact Coq.Init.Logic.I|]. destruct (_ && _)%bool; exact Coq.Init.Logic.I.
  - cbn [occs] in Hi. intros (Ha & Hc & Hp). split; [apply IHa; [|exact Ha]|split; [apply IHb; [|exact Hc]|]].
    + intros x Hx. apply Hi, in_or_app. auto.
    + intros x Hx. apply Hi, in_or_app. auto.
    + intro E. destruct (Hp E) as [Hw|Hw].
      * left. destruct c as [v| | |c| | |]; try easy. destruct c; easy.
      * right. rewrite den_rep; [exact Hw|]. intros x Hx. apply Hi, in_or_app. auto.
  - rewrite !all_Forall, map_length. intros (Hl & Ha). split; [exact Hl|]. cbn [occs] in Hi.
    rewrite Forall_forall in *. intros y Hy. apply in_map_iff in Hy as (z & <- & Hz). apply IH; [exact Hz| |now apply Ha].
    intros x Hx. apply Hi, in_flat_map. eauto.
Qed.
End Rep.

Lemma to_geq_inv q g : to_geq q = Ok g ->
  convert (ExpandTime_Model.lhs q) = Ok (Block_Model.g_lhs g) /\ convert (ExpandTime_Model.rhs q) = Ok (Block_Model.g_rhs g) /\
  Block_Model.g_exclude g = has_tag Gcn_Model.Exclude (ExpandTime_Model.tags q) /\
  Block_Model.g_cal g = ExpandTime_Model.calibrating q.
Proof.
  unfold Load_Model.to_geq. destruct (convert (ExpandTime_Model.lhs q)) as [l|]; [|discriminate]. cbn [bind].
  destruct (convert (ExpandTime_Model.rhs q)) as [r|]; [|discriminate]. cbn [bind]. intro H. injection H as <-. auto.
Qed.
Lemma exclude_tag (q : Gcn_Model.equation F) : has_tag Gcn_Model.Exclude (ExpandTime_Model.tags (eq_of q)) = negb (kept q).
Proof.
  unfold kept, has_tag, eq_of. cbn [ExpandTime_Model.tags]. rewrite negb_involutive.
  induction (Gcn_Model.tags q) as [|t l IH]; [reflexivity|]. cbn [map existsb]. rewrite IH. destruct t; reflexivity.
Qed.

(* one block: the two programs' intermediate forms *)
Lemma ablock_inv (b : ExpandTime_Model.gblock F rest) a : ablock_of whole lit b = Ok a ->
  Forall2 (fun q g => to_geq q = Ok g) (ExpandTime_Model.definitions b) (Block_Model.ab_defs a) /\
  Forall2 (fun q g => to_geq q = Ok g) (ExpandTime_Model.objective b) (Block_Model.ab_obj a) /\
  Forall2 (fun q g => to_geq q = Ok g) (ExpandTime_Model.constraints b) (Block_Model.ab_cons a) /\
  Forall2 (fun q g => to_geq q = Ok g) (ExpandTime_Model.identities b) (Block_Model.ab_ids a) /\
  length (Block_Model.ab_controls a) = length (ExpandTime_Model.controls b) /\ Block_Model.ab_name a = ExpandTime_Model.bname b.
Proof.
  unfold ablock_of. destruct (map_ok _ (ExpandTime_Model.controls b)) as [cs|] eqn:E1; [|discriminate]. cbn [bind].
  destruct (map_ok _ (ExpandTime_Model.definitions b)) as [df|] eqn:E2; [|discriminate]. cbn [bind].
  destruct (map_ok _ (ExpandTime_Model.objective b)) as [ob|] eqn:E3; [|discriminate]. cbn [bind].
  destruct (map_ok _ (ExpandTime_Model.constraints b)) as [co|] eqn:E4; [|discriminate]. cbn [bind].
  destruct (map_ok _ (ExpandTime_Model.identities b)) as [id|] eqn:E5; [|discriminate]. cbn [bind].
  destruct (map_ok _ (snd (ExpandTime_Model.other b))) as [ca|] eqn:E6; [|discriminate]. cbn [bind].
  intro H. injection H as <-. cbn. apply map_ok_F2 in E1, E2, E3, E4, E5. apply F2_len in E1. auto 10.
Qed.
Lemma F2_in_r {A B} (P : A -> B -> Prop) l r : Forall2 P l r -> forall y, In y r -> exists x, In x l /\ P x y.
Proof. induction 1; intros z Hz; [destruct Hz|]. destruct Hz as [<-|Hz]; [exists x; split; [left|]; auto|]. destruct (IHForall2 z Hz) as (w & ? & ?). exists w. split; [right|]; auto. Qed.
Lemma F2_in_l {A B} (P : A -> B -> Prop) l r : Forall2 P l r -> forall y, In y l -> exists x, In x r /\ P y x.
Proof. induction 1; intros z Hz; [destruct Hz|]. destruct Hz as [<-|Hz]; [exists y; split; [left|]; auto|]. destruct (IHForall2 z Hz) as (w & ? & ?). exists w. split; [right|]; auto. Qed.
Lemma F2_nth {A B} (P : A -> B -> Prop) l r : Forall2 P l r -> forall i y, nth_error r i = Some y -> exists x, nth_error l i = Some x /\ P x y.
Proof. induction 1; intros [|i] z Hz; cbn in *; try discriminate; [injection Hz as <-; eauto|eauto]. Qed.
Lemma F2_map_l {A A' B} (P : A' -> B -> Prop) (f : A -> A') l r : Forall2 P (map f l) r <-> Forall2 (fun x => P (f x)) l r.
Proof.
  revert r. induction l as [|a l IH]; intro r; cbn; split; intro H; inversion H; subst; constructor; auto; now apply IH.
Qed.
Lemma F2_app_l {A B} (P : A -> B -> Prop) l l' r : Forall2 P (l ++ l') r -> exists r1 r2, r = r1 ++ r2 /\ Forall2 P l r1 /\ Forall2 P l' r2.
Proof.
  revert r. induction l as [|a l IH]; intros r H; cbn in H; [exists [], r; auto|]. inversion H; subst.
  destruct (IH _ H4) as (r1 & r2 & -> & ? & ?). exists (y :: r1), r2. auto.
Qed.

Variables ord sord : set_order.
Variable aord : list sx -> list sx.
Hypothesis Ho : set_order_ok ord.
Hypothesis Hs : set_order_ok sord.

Section OneBlock.
Variable b : Gcn_Model.block F.
Notation gb := (gblock_of b).
Notation s := (ExpandTime_Model.deep_dicts (gblock_of b)).
Hypothesis Hreg : definitions_regular b.
Variable a : Block_Model.ablock.
Hypothesis Ha : ablock_of whole lit (ExpandTime_Model.expand_block gb) = Ok a.
Hypothesis Hcal : forall e, In e (Block_Model.ab_defs a) -> Block_Model.g_cal e = None.

Definition rep (q : Gcn_Model.equation F) := ExpandTime_Model.replace_eq s (eq_of q).
Lemma parts : Forall2 (fun q g => to_geq (rep q) = Ok g) (Gcn_Model.definitions b) (Block_Model.ab_defs a) /\
  Forall2 (fun q g => to_geq (rep q) = Ok g) (Gcn_Model.objective b) (Block_Model.ab_obj a) /\
  Forall2 (fun q g => to_geq (rep q) = Ok g) (Gcn_Model.constraints b) (Block_Model.ab_cons a) /\
  (exists r1 r2, Block_Model.ab_ids a = r1 ++ r2 /\ Forall2 (fun q g => to_geq (rep q) = Ok g) (Gcn_Model.identities b) r1 /\
     Forall2 (fun q g => to_geq q = Ok g) (lagc s ++ leadc s) r2) /\
  length (Block_Model.ab_controls a) = length (Gcn_Model.controls b).
Proof.
  destruct (ablock_inv _ _ Ha) as (H1 & H2 & H3 & H4 & H5 & _).
  destruct (expand_shape gb) as (E1 & E2 & E3 & E4 & E5 & _).
  rewrite E1 in H1. rewrite E3 in H2. rewrite E4 in H3. rewrite E5 in H4. rewrite E2 in H5.
  cbn [gblock_of ExpandTime_Model.definitions ExpandTime_Model.objective ExpandTime_Model.constraints ExpandTime_Model.identities ExpandTime_Model.controls] in *.
  rewrite !map_length in H5. rewrite map_map in H1, H2, H3, H4. apply F2_map_l in H1, H2, H3.
  apply F2_app_l in H4 as (r1 & r2 & -> & H4 & H4'). apply F2_map_l in H4. repeat split; eauto 10.
Qed.
Lemma near_def q n t : In q (Gcn_Model.definitions b) -> In (n, t) (occs (Gcn_Model.lhs q) ++ occs (Gcn_Model.rhs q)) -> near t.
Proof.
  intros Hq Hin. destruct Hreg as (R1 & _ & R3). apply in_app_or in Hin as [Hin|Hin].
  - destruct (R1 q Hq) as (n' & t' & E & Hn). rewrite E in Hin. destruct Hin as [Hin|[]]. injection Hin as <- <-. exact Hn.
  - apply (R3 q n t Hq Hin).
Qed.
Lemma rep_def q : In q (Gcn_Model.definitions b) -> rep q = eq_of q.
Proof.
  intro Hq. unfold rep, ExpandTime_Model.replace_eq. rewrite !replace_near_id.
  - destruct q; reflexivity.
  - intros x u Hin. apply (near_def q x u Hq), in_or_app. auto.
  - intros x u Hin. apply (near_def q x u Hq), in_or_app. auto.
Qed.
Lemma def_conv g : In g (Block_Model.ab_defs a) -> exists q, In q (Gcn_Model.definitions b) /\
  convert (Gcn_Model.lhs q) = Ok (Block_Model.g_lhs g) /\ convert (Gcn_Model.rhs q) = Ok (Block_Model.g_rhs g).
Proof.
  intro Hg. destruct (F2_in_r _ _ _ (proj1 parts) g Hg) as (q & Hq & E). rewrite (rep_def q Hq) in E. apply to_geq_inv in E as (E1 & E2 & _).
  exists q. auto.
Qed.
Lemma occs_written e n t : In (match t with TI z => SDate n z | TIss => SSs n end) (written_symbols (F:=F) e) -> In (n, t) (occs e).
Proof.
  induction e as [v|m|m u|x IH|o x y IHa IHb|f args IH|x IH] using expr_ind'; cbn [written_symbols occs]; auto.
  - intros [H|[]]; destruct t; discriminate.
  - destruct u, t; intros [H|[]]; try discriminate; injection H as -> ; subst; left; reflexivity.
  - rewrite !in_app_iff. tauto.
  - rewrite !in_flat_map. intros (x & Hx & Hin). exists x. split; [exact Hx|]. rewrite Forall_forall in IH. now apply IH.
Qed.
Lemma convert_incl e x : convert e = Ok x -> forall s', In s' (atoms x) -> In s' (written_symbols e).
Proof.
  revert x. induction e as [v|n|n t|e IH|o e1 e2 IHa IHb|f args IH|e IH] using expr_ind'; intros x.
  - cbn. unfold number. destruct (whole v) as [[z|]|]; cbn; [| |discriminate]; intro H; injection H as <-; cbn; tauto.
  - cbn. intro H. injection H as <-. cbn. tauto.
  - cbn. destruct t; intro H; injection H as <-; cbn; tauto.
  - cbn [Load_Model.convert written_symbols]. destruct (convert e); [|discriminate]. cbn. intro H. injection H as <-. cbn. now apply IH.
  - cbn [Load_Model.convert written_symbols]. destruct (convert e1) as [xa|]; [|discriminate]. cbn [bind].
    destruct (convert e2) as [xb|]; [|discriminate]. cbn [bind]. intro H. injection H as <-. intros s'.
    rewrite atoms_op, !in_app_iff. intros [H|H]; [left; eapply IHa|right; eapply IHb]; eauto.
  - rewrite convert_fun. cbn [written_symbols]. destruct (existsb _ _); [|discriminate].
    destruct (map_ok convert args) as [xs|] eqn:E; [|discriminate]. cbn [bind]. intros Hc s' Hin.
    apply map_ok_F2 in E.
    assert (K : forall y, In y xs -> In s' (atoms y) -> In s' (flat_map written_symbols args)).
    { intros y Hy Hin'. destruct (F2_in_r _ _ _ E y Hy) as (e & He & Ee). apply in_flat_map. exists e. split; [exact He|].
      rewrite Forall_forall in IH. eapply IH; eauto. }
    unfold call in Hc. destruct xs as [|x1 [|x2 [|]]]; try discriminate.
    + injection Hc as <-. cbn in Hin. eapply K; [left; reflexivity|exact Hin].
    + destruct (chars_eqb f _).
      * injection Hc as <-. cbn in Hin. apply in_app_or in Hin as [Hin|Hin]; eapply K; eauto; cbn; auto.
      * destruct (chars_eqb f _); [|discriminate]. injection Hc as <-. cbn in Hin. eapply K; eauto; cbn; auto.
  - exact (IH x).
Qed.
Lemma lhs_back q g n t : convert (Gcn_Model.lhs (F:=F) q) = Ok (Block_Model.g_lhs g) -> In q (Gcn_Model.definitions b) ->
  (Block_Model.g_lhs g = Sy (SDate n t) <-> Gcn_Model.lhs q = Var n (TI t)).
Proof.
  intros E Hq. destruct (proj1 Hreg q Hq) as (n' & t' & El & _). rewrite El in *. cbn in E. injection E as <-.
  split; intro H; injection H as -> ->; reflexivity.
Qed.
Lemma defs_ok : Block_Spec.definitions_ok a.
Proof.
  destruct Hreg as (R1 & R2 & R3). unfold Block_Spec.definitions_ok. split; [|split; [|split]].
  - intros e He. destruct (def_conv e He) as (q & Hq & E1 & _). destruct (R1 q Hq) as (n & t & E & _). exists n, t.
    split; [apply (lhs_back q e n t E1 Hq), E|]. split; [reflexivity|]. now apply Hcal.
  - intros i j e e' n t n' t' Hi Hj Hne E E'. 
    destruct (F2_nth _ _ _ (proj1 parts) i e Hi) as (q & Hq & C). destruct (F2_nth _ _ _ (proj1 parts) j e' Hj) as (q' & Hq' & C').
    rewrite (rep_def q (nth_error_In _ _ Hq)) in C. rewrite (rep_def q' (nth_error_In _ _ Hq')) in C'.
    apply to_geq_inv in C as (C & _). apply to_geq_inv in C' as (C' & _). cbn [eq_of ExpandTime_Model.lhs] in C, C'.
    eapply (R2 i j q q' n t n' t' Hq Hq' Hne); [apply (lhs_back q e n t C (nth_error_In _ _ Hq)), E|].
    apply (lhs_back q' e' n' t' C' (nth_error_In _ _ Hq')), E'.
  - intros e n t He Hin (e' & t' & r & He' & Hd & _). destruct (def_conv e He) as (q & Hq & C1 & C2).
    destruct (def_conv e' He') as (q' & Hq' & C1' & _).
    pose proof (occs_written (Gcn_Model.rhs q) n (TI t) (convert_incl _ _ C2 _ Hin)) as Hocc.
    apply (lhs_back q' e' n t' C1' Hq') in Hd.
    destruct (R3 q n (TI t) Hq Hocc) as (_ & _ & K). destruct (K q' t' Hq' Hd) as [E K2]. injection E as ->. split.
    + exists e'. split; [exact He'|]. now apply (lhs_back q' e' n t' C1' Hq').
    + intro Hx. apply K2. now apply (lhs_back q e n t' C1 Hq).
  - intros e He n Hin. destruct (def_conv e He) as (q & Hq & _ & C2).
    pose proof (occs_written (Gcn_Model.rhs q) n TIss (convert_incl _ _ C2 _ Hin)) as Hocc.
    exact (proj1 (R3 q n TIss Hq Hocc) eq_refl).
Qed.

Lemma occs_in q : In q (Gcn_Model.definitions b ++ Gcn_Model.objective b ++ Gcn_Model.constraints b ++ Gcn_Model.identities b) ->
  incl (occs (Gcn_Model.lhs q) ++ occs (Gcn_Model.rhs q)) (occs_block gb).
Proof.
  intros Hq. apply (in_occs_block_eq gb (eq_of q)). unfold dyn_eqs. cbn [gblock_of ExpandTime_Model.definitions ExpandTime_Model.objective ExpandTime_Model.constraints ExpandTime_Model.identities].
  rewrite <- !map_app. now apply in_map.
Qed.
Lemma path_follows G I p t : good_path whole lit G I p b -> Block_Spec.follows_definitions a (at_date I p t) (at_date I p t) (Ralg G).
Proof.
  intro HG. split; [reflexivity|]. intros e n k r He (E1 & <- & _) j. destruct (def_conv e He) as (q & Hq & C1 & C2).
  apply (lhs_back q e n k C1 Hq) in E1.
  assert (E : ev (Ralg G) (later j (at_date I p t)) (Block_Model.g_rhs e) = den I p (t + j)%Z (Gcn_Model.rhs q)).
  { rewrite <- (convert_value whole lit G I p (t + j)%Z (Gcn_Model.rhs q) (Block_Model.g_rhs e) (gp_usual _ _ _ _ _ _ HG) C2).
    - apply ev_ext. intros s' _. apply at_date_later.
    - apply (gp_bases _ _ _ _ _ _ HG). apply in_or_app. auto. }
  rewrite E, <- (gp_defs _ _ _ _ _ _ HG q Hq), E1. cbn. f_equal. lia.
Qed.

Local Open Scope R_scope.
Lemma written_says G I p t q g (sd : sdict) : good_path whole lit G I p b -> lags_right gb p -> leads_right gb p ->
  In q (Gcn_Model.definitions b ++ Gcn_Model.objective b ++ Gcn_Model.constraints b ++ Gcn_Model.identities b) ->
  to_geq (rep q) = Ok g ->
  ev (Ralg G) (at_date I p t) (Block_Model.g_rhs g) - ev (Ralg G) (at_date I p t) (Block_Model.g_lhs g) =
  den I p t (Gcn_Model.rhs q) - den I p t (Gcn_Model.lhs q).
Proof.
  intros HG HL HD Hq E. pose proof (gp_usual _ _ _ _ _ _ HG) as HU. pose proof (u_E _ _ _ _ HU) as HF.
  pose proof (occs_in q Hq) as Hi. destruct (gp_bases _ _ _ _ _ _ HG q Hq t) as [B1 B2].
  apply to_geq_inv in E as (E1 & E2 & _). cbn [rep ExpandTime_Model.replace_eq ExpandTime_Model.lhs ExpandTime_Model.rhs eq_of] in E1, E2.
  assert (I1 : incl (occs (Gcn_Model.lhs q)) (occs_block gb)) by (intros x Hx; apply Hi, in_or_app; auto).
  assert (I2 : incl (occs (Gcn_Model.rhs q)) (occs_block gb)) by (intros x Hx; apply Hi, in_or_app; auto).
  rewrite (convert_value whole lit G I p t _ _ HU E1), (convert_value whole lit G I p t _ _ HU E2).
  - rewrite !(den_rep I gb p HF HL HD); auto.
  - now apply (bases_rep I gb p HF HL HD).
  - now apply (bases_rep I gb p HF HL HD).
Qed.
Local Close Scope R_scope.
End OneBlock.

Definition link_of (q : ExpandTime_Model.equation F) : chars * chars * Z :=
  match ExpandTime_Model.lhs q, ExpandTime_Model.rhs q with
  | Var d _, Var x (TI z) => (d, x, z)
  | Var d _, Expec (Var x (TI z)) => (d, x, z)
  | _, _ => ([], [], 0%Z)
  end.
Lemma F2_impl {A B} (P Q : A -> B -> Prop) l r : (forall x y, In x l -> In y r -> P x y -> Q x y) -> Forall2 P l r -> Forall2 Q l r.
Proof. intros H H2. induction H2; constructor; [apply H; cbn; auto|]. apply IHForall2. intros; apply H; cbn; auto. Qed.
Lemma F2_map_r {A B B'} (P : A -> B' -> Prop) (f : B -> B') l r : Forall2 (fun x y => P x (f y)) l r -> Forall2 P l (map f r).
Proof. induction 1; constructor; auto. Qed.
Lemma F2_flip {A B} (P : A -> B -> Prop) l r : Forall2 P l r -> Forall2 (fun y x => P x y) r l.
Proof. induction 1; constructor; auto. Qed.
Lemma F2_filter {A B} (P : A -> B -> Prop) f g l r : (forall x y, P x y -> f x = g y) -> Forall2 P l r -> Forall2 P (filter f l) (filter g r).
Proof. intros H H2. induction H2; cbn; [constructor|]. rewrite (H x y H0). destruct (g y); [constructor|]; auto. Qed.

Theorem one_block sss b k : load_block whole lit ord sord aord sss b = Ok k -> definitions_regular b -> equations_of whole lit b (Block_Model.k_sys k).
Proof.
  intros H Hreg. unfold load_block in H.
  destruct (ablock_of whole lit (ExpandTime_Model.expand_block (gblock_of b))) as [a|] eqn:Ea; [|discriminate]. cbn [bind] in H.
  destruct (Block_Model.to_block ord sord a) as [k0|] eqn:Ek; [|discriminate]. cbn [bind] in H.
  destruct (Block_Model.param_dicts ord sord sss k0) as [pd|]; [|discriminate]. cbn [bind] in H.
  assert (Hcal : forall e, In e (Block_Model.ab_defs a ++ Block_Model.ab_obj a ++ Block_Model.ab_cons a ++ Block_Model.ab_ids a) -> Block_Model.g_cal e = None).
  { destruct (Block_Proofs.to_block_inv ord sord a k0 Ek) as (short & d' & _ & Hval & _). exact (proj1 (Block_Solve.validate_facts a short Hval)). }
  assert (Hd : Block_Spec.definitions_ok a).
  { apply (defs_ok b Hreg a Ea). intros e He. apply Hcal, in_or_app. auto. }
  destruct (sys_shape ord sord aord Ho Hs a k0 k Ek Hd H) as (flat & focs & Hflat & -> & Hfl & _).
  destruct (parts b a Ea) as (P1 & P2 & P3 & (r1 & r2 & Eids & P4 & P5) & P6).
  set (W := fun e => Block_Model.written sord (Block_Solve.sd1 a flat) (Block_Model.equation_to_sympy e)).
  assert (HW : forall e, In e (Block_Model.ab_defs a ++ Block_Model.ab_obj a ++ Block_Model.ab_cons a ++ Block_Model.ab_ids a) ->
     forall G I p t, good_path whole lit G I p b ->
     ev (Ralg G) (at_date I p t) (W e) = (ev (Ralg G) (at_date I p t) (Block_Model.g_rhs e) - ev (Ralg G) (at_date I p t) (Block_Model.g_lhs e))%R).
  { intros e He G I p t HG. apply (Block_Solve.written_means ord sord Ho Hs a Hd flat Hflat G e (W e) (Hcal e He) eq_refl).
    apply (path_follows b Hreg a Ea G I p t HG). }
  assert (HS : forall q e, In q (Gcn_Model.definitions b ++ Gcn_Model.objective b ++ Gcn_Model.constraints b ++ Gcn_Model.identities b) ->
     In e (Block_Model.ab_defs a ++ Block_Model.ab_obj a ++ Block_Model.ab_cons a ++ Block_Model.ab_ids a) -> to_geq (rep b q) = Ok e -> says whole lit b (W e) q).
  { intros q e Hq He E G I p t HG HL HD. rewrite (HW e He G I p t HG). now apply (written_says b). }
  exists (map W r1), (map W r2), (map link_of (lagc (ExpandTime_Model.deep_dicts (gblock_of b)) ++ leadc (ExpandTime_Model.deep_dicts (gblock_of b)))),
    (map W (filter (fun e => negb (Block_Model.g_exclude e)) (Block_Model.ab_cons a))), (map W (Block_Model.ab_obj a)), focs.
  split; [rewrite Eids, map_app, <- !app_assoc; reflexivity|].
  assert (Fm : forall l r, (forall q, In q l -> In q (Gcn_Model.definitions b ++ Gcn_Model.objective b ++ Gcn_Model.constraints b ++ Gcn_Model.identities b)) ->
     (forall e, In e r -> In e (Block_Model.ab_defs a ++ Block_Model.ab_obj a ++ Block_Model.ab_cons a ++ Block_Model.ab_ids a)) ->
     Forall2 (fun q g => to_geq (rep b q) = Ok g) l r -> Forall2 (says whole lit b) (map W r) l).
  { intros l r Hl Hr H2. apply F2_map_l. apply F2_flip in H2. eapply F2_impl; [|exact H2]. intros e q He Hq E. apply HS; auto. }
  assert (Ids : forall e, In e (r1 ++ r2) -> In e (Block_Model.ab_defs a ++ Block_Model.ab_obj a ++ Block_Model.ab_cons a ++ Block_Model.ab_ids a)).
  { intros e He. rewrite Eids. rewrite !in_app_iff in *. tauto. }
  split.
  { apply Fm; [intros q Hq; rewrite !in_app_iff; auto|intros e He; apply Ids, in_or_app; auto|exact P4]. }
  split.
  { apply F2_map_l, F2_map_r. apply F2_flip in P5. eapply F2_impl; [|exact P5]. intros e q He Hq E.
    assert (Hv : forall G I p t, good_path whole lit G I p b -> ev (Ralg G) (at_date I p t) (W e) =
       (ev (Ralg G) (at_date I p t) (Block_Model.g_rhs e) - ev (Ralg G) (at_date I p t) (Block_Model.g_lhs e))%R).
    { apply HW, Ids, in_or_app. auto. }
    apply to_geq_inv in E as (E1 & E2 & _). apply in_app_or in Hq as [Hq|Hq].
    - apply in_lagc in Hq as (x & n & _ & ->). unfold lag_eq in *. cbn [ExpandTime_Model.lhs ExpandTime_Model.rhs link_of says_link] in *.
      intros G I p t HG. rewrite (Hv G I p t HG). cbn in E1, E2. injection E1 as <-. injection E2 as <-. cbn. now rewrite Z.add_0_r.
    - apply in_leadc in Hq as (x & n & _ & ->). unfold lead_eq in *. cbn [ExpandTime_Model.lhs ExpandTime_Model.rhs link_of says_link] in *.
      intros G I p t HG. rewrite (Hv G I p t HG). cbn in E1, E2. injection E1 as <-. injection E2 as <-. cbn. now rewrite Z.add_0_r. }
  split.
  { destruct (added_identities (gblock_of b)) as (new & En & Nn & _). destruct (expand_shape (gblock_of b)) as (_ & _ & _ & _ & E5 & _).
    rewrite E5 in En. apply app_inv_head in En. rewrite En in *. rewrite map_map. erewrite map_ext_in; [exact Nn|]. intros q Hq. rewrite <- En in Hq. cbn beta.
    unfold lhs_name. apply in_app_or in Hq as [Hq|Hq]; [apply in_lagc in Hq as (x & n & _ & ->)|apply in_leadc in Hq as (x & n & _ & ->)]; reflexivity. }
  split.
  { intros dst src d. rewrite in_map_iff. split.
    - intros (q & E & Hq). apply in_app_or in Hq as [Hq|Hq].
      + apply in_lagc in Hq as (x & n & Hu & ->). cbn in E. injection E as <- <- <-. now constructor.
      + apply in_leadc in Hq as (x & n & Hu & ->). cbn in E. injection E as <- <- <-. now constructor.
    - intro Hl. destruct Hl as [x n Hu|x n Hu].
      + exists (lag_eq x n). split; [reflexivity|]. apply in_or_app. left. apply in_lagc. eauto.
      + exists (lead_eq x n). split; [reflexivity|]. apply in_or_app. right. apply in_leadc. eauto. }
  split.
  { apply Fm.
    - intros q Hq. apply filter_In in Hq as [Hq _]. rewrite !in_app_iff. auto.
    - intros e He. apply filter_In in He as [He _]. rewrite !in_app_iff. auto.
    - apply F2_filter; [|exact P3]. intros q e E. apply to_geq_inv in E as (_ & _ & E & _). rewrite E.
      cbn [rep ExpandTime_Model.replace_eq ExpandTime_Model.tags]. change (ExpandTime_Model.tags (rep b q)) with (ExpandTime_Model.tags (eq_of q)).
      rewrite exclude_tag. now rewrite negb_involutive. }
  split; [|now rewrite Hfl].
  apply Fm; [intros q Hq; rewrite !in_app_iff; auto|intros e He; rewrite !in_app_iff; auto|exact P2].
Qed.

(* ---- the model ---- *)
Lemma dset_new (n : chars) (k : Block_Model.block) d : ~ In n (map fst d) -> dset chars_eqb n k d = d ++ [(n, k)].
Proof.
  induction d as [|[m v] d IH]; intro H; [reflexivity|]. cbn [dset map fst] in *. destruct (chars_eqb n m) eqn:E.
  - apply chars_eqb_eq in E. subst. destruct H. now left.
  - cbn [app]. f_equal. apply IH. intro Hin. apply H. now right.
Qed.
Theorem block_dict_shape sss bs : NoDup (map Gcn_Model.b_name bs) -> forall d d', (forall x, In x bs -> ~ In (Gcn_Model.b_name x) (map fst d)) ->
  block_dict whole lit ord sord aord sss bs d = Ok d' ->
  exists ks, d' = d ++ ks /\ Forall2 (fun x nk => fst nk = Gcn_Model.b_name x /\ load_block whole lit ord sord aord sss x = Ok (snd nk)) (filter (fun x => negb (skipped (Gcn_Model.b_name x))) bs) ks.
Proof.
  induction bs as [|x bs IH]; intros Hn d d' Hd H; cbn [block_dict filter] in *.
  - injection H as <-. exists []. rewrite app_nil_r. auto.
  - inversion Hn; subst. destruct (skipped (Gcn_Model.b_name x)) eqn:E; cbn [negb].
    + apply IH; auto. intros y Hy. apply Hd. now right.
    + destruct (load_block whole lit ord sord aord sss x) as [k|] eqn:Ek; [|discriminate]. cbn [bind] in H.
      rewrite dset_new in H by (apply Hd; now left).
      destruct (IH H3 (d ++ [(Gcn_Model.b_name x, k)]) d') as (ks & -> & Hks).
      * intros y Hy. rewrite map_app, in_app_iff. cbn. intros [Hin|[Hin|[]]]; [eapply Hd; [right; exact Hy|exact Hin]|].
        apply H2. rewrite Hin. now apply in_map.
      * exact H.
      * exists ((Gcn_Model.b_name x, k) :: ks). rewrite <- app_assoc. split; [reflexivity|]. constructor; auto.
Qed.
Theorem load_equations m sss eqs : load whole lit ord sord aord m = Ok (sss, eqs) -> NoDup (map Gcn_Model.b_name (Gcn_Model.blocks m)) ->
  (forall b, In b (Gcn_Model.blocks m) -> skipped (Gcn_Model.b_name b) = false -> definitions_regular b) ->
  exists groups, eqs = concat groups /\ Forall2 (equations_of whole lit) (filter (fun b => negb (skipped (Gcn_Model.b_name b))) (Gcn_Model.blocks m)) groups.
Proof.
  unfold load. intros H Hn Hreg. destruct (extract_ss whole lit ord sord m) as [ss|]; [|discriminate]. cbn [bind] in H.
  destruct (block_dict whole lit ord sord aord ss (Gcn_Model.blocks m) []) as [d|] eqn:Ed; [|discriminate]. cbn [bind] in H. injection H as <- <-.
  destruct (block_dict_shape ss (Gcn_Model.blocks m) Hn [] d (fun _ _ H => H) Ed) as (ks & E & Hks). cbn in E. subst d.
  exists (map (fun nk => Block_Model.k_sys (snd nk)) ks). split; [now rewrite flat_map_concat_map|]. apply F2_map_r.
  eapply F2_impl; [|exact Hks]. intros b nk Hb _ [_ Hk]. apply filter_In in Hb as [Hb Hsk]. apply negb_true_iff in Hsk.
  eapply one_block; [exact Hk|]. now apply Hreg.
Qed.
End P.
