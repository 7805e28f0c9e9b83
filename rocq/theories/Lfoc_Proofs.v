From Verif Require Import Common Expr_Model Expr_RoundTrip Sym_Model Sym_Spec Sym_Proofs Sym_Flatten SymDict_Model SymDict_More ExpandTime_Spec ExpandTime_Proofs
  Load_Model Load_Spec Load_Proofs Load_Proofs2 Lfoc_Spec.
From Verif Require Gcn_Model ExpandTime_Model Block_Model Block_Spec Block_Proofs Block_Lagr Block_Foc Block_Solve Block_Final.
From Coq Require Import Reals Lra Permutation.
Local Open Scope list_scope.

(* ---- initials ---- *)
Lemma initials_words s : forall w ws short, Block_Model.split_us s = w :: ws -> Block_Model.initials ws = Ok short ->
  short = word_initials false s.
Proof.
  induction s as [|c s IH]; intros w ws short H Hi; cbn [Block_Model.split_us word_initials] in *.
  - injection H as <- <-. cbn in Hi. now injection Hi as <-.
  - destruct (Ascii.eqb c "_").
    + injection H as <- <-. destruct (Block_Model.split_us s) as [|w' ws'] eqn:E; [cbn in Hi; injection Hi as <-; destruct s as [|c' s]; cbn in E; [discriminate|destruct (Ascii.eqb c' "_"); [discriminate|destruct (Block_Model.split_us s); discriminate]]|].
      cbn [Block_Model.initials] in Hi. destruct w' as [|c' w']; [discriminate|].
      destruct (Block_Model.initials ws') as [r|] eqn:Er; [|discriminate]. cbn [bind] in Hi. injection Hi as <-.
      pose proof (IH _ _ _ eq_refl Er) as ->. destruct s as [|c2 s]; cbn [Block_Model.split_us] in E; [discriminate|].
      cbn [word_initials]. destruct (Ascii.eqb c2 "_"); [discriminate|]. destruct (Block_Model.split_us s); injection E as -> _ _; reflexivity.
    + destruct (Block_Model.split_us s) as [|w' ws'] eqn:E.
      * destruct s as [|c' s]; cbn in E; [discriminate|destruct (Ascii.eqb c' "_"); [discriminate|destruct (Block_Model.split_us s); discriminate]].
      * injection H as <- <-. exact (IH _ _ _ eq_refl Hi).
Qed.
Lemma short_is_initials n short : Block_Model.short_name n = Ok short -> short = word_initials true n.
Proof.
  unfold Block_Model.short_name. destruct (Block_Model.split_us n) as [|w ws] eqn:E; [destruct n as [|c s]; cbn in E; [discriminate|destruct (Ascii.eqb c "_"); [discriminate|destruct (Block_Model.split_us s); discriminate]]|].
  cbn [Block_Model.initials]. destruct w as [|c w]; [discriminate|]. destruct (Block_Model.initials ws) as [r|] eqn:Er; [|discriminate]. cbn [bind].
  intro H. injection H as <-. pose proof (initials_words _ _ _ _ E Er) as ->. destruct n as [|c2 s]; cbn [Block_Model.split_us] in E; [discriminate|].
  cbn [word_initials]. destruct (Ascii.eqb c2 "_"); [discriminate|]. destruct (Block_Model.split_us s); injection E as -> _ _; reflexivity.
Qed.

Section P.
Context {F : Type}.
Variables (whole : F -> result (option Z)) (lit : F -> chars).
Notation convert := (convert whole lit).
Notation to_geq := (to_geq whole lit).
Notation usual := (usual whole lit).
Notation bases_ok := (bases_ok whole).
Notation differentiable_at := (differentiable_at whole lit).

Lemma plain_whole_conv e x : convert e = Ok x -> forall z, plain_whole whole e = Some z <-> x = Cst z.
Proof.
  revert x. induction e as [v|n|n t|a IH|o a b IHa IHb|f args IH|a IH] using expr_ind'; intros x; cbn [plain_whole].
  - cbn. unfold number. destruct (whole v) as [[z0|]|]; cbn; [| |discriminate]; intro H; injection H as <-; intro z; split; intro E; try discriminate; now injection E as ->.
  - cbn. intro H. injection H as <-. intro z. split; discriminate.
  - cbn. destruct t; intro H; injection H as <-; intro z1; split; discriminate.
  - cbn [Load_Model.convert]. destruct (convert a); [|discriminate]. cbn. intro H. injection H as <-. intro z. split; discriminate.
  - cbn [Load_Model.convert]. destruct (convert a); [|discriminate]. cbn [bind]. destruct (convert b) as [xb|]; [|discriminate]. cbn [bind].
    intro H. injection H as <-. intro z. split; [discriminate|]. destruct o; cbn [apply_op]; try discriminate. unfold spow. destruct (integer_of xb); discriminate.
  - rewrite convert_fun. destruct (existsb _ _); [|discriminate]. destruct (map_ok convert args) as [xs|]; [|discriminate]. cbn [bind].
    intros H z. split; [discriminate|]. intros ->. unfold call in H. destruct xs as [|? [|? [|]]]; try discriminate. destruct (chars_eqb _ _); [discriminate|]. destruct (chars_eqb _ _); discriminate.
  - exact (IH x).
Qed.
Lemma whole_exponent_conv e x : convert e = Ok x -> integer_of x = whole_exponent whole e.
Proof.
  revert x. induction e as [v|n|n t|a IH|o a b IHa IHb|f args IH|a IH] using expr_ind'; intros x; cbn [whole_exponent].
  - intro H. pose proof (plain_whole_conv _ _ H) as K. cbn in H. unfold number in H. cbn [plain_whole] in *. destruct (whole v) as [[z0|]|]; cbn in H; [| |discriminate]; injection H as <-; reflexivity.
  - cbn. intro H. injection H as <-. reflexivity.
  - cbn. destruct t; intro H; injection H as <-; reflexivity.
  - cbn [Load_Model.convert]. destruct (convert a) as [y|] eqn:E; [|discriminate]. cbn. intro H. injection H as <-.
    pose proof (plain_whole_conv _ _ E) as K. destruct (plain_whole whole a) as [z|].
    + rewrite (proj1 (K z) eq_refl). reflexivity.
    + destruct y; try reflexivity. discriminate (proj2 (K z) eq_refl).
  - cbn [Load_Model.convert plain_whole]. destruct (convert a); [|discriminate]. cbn [bind]. destruct (convert b) as [xb|]; [|discriminate]. cbn [bind].
    intro H. injection H as <-. destruct o; cbn [apply_op]; try reflexivity. unfold spow. destruct (integer_of xb); reflexivity.
  - rewrite convert_fun. cbn [plain_whole]. destruct (existsb _ _); [|discriminate]. destruct (map_ok convert args) as [xs|]; [|discriminate]. cbn [bind].
    intros H. unfold call in H. destruct xs as [|? [|? [|]]]; try discriminate; [injection H as <-; reflexivity|]. destruct (chars_eqb _ _); [injection H as <-; reflexivity|]. destruct (chars_eqb _ _); [injection H as <-; reflexivity|discriminate].
  - exact (IH x).
Qed.

Theorem convert_defined G I p t e x : usual G I -> convert e = Ok x -> bases_ok I p t e -> differentiable_at G I p t e ->
  defined G (at_date I p t) x.
Proof.
  intro HU. revert x. induction e as [v|n|n u|a IH|o a b IHa IHb|f args IH|a IH] using expr_ind'; intros x.
  - cbn. unfold number. destruct (whole v) as [[z|]|] eqn:E; cbn; [| |discriminate]; intro H; injection H as <-; intros _ Hd; cbn; auto.
  - cbn. intro H. injection H as <-. reflexivity.
  - cbn. destruct u; intro H; injection H as <-; reflexivity.
  - cbn [Load_Model.convert Load_Spec.bases_ok Lfoc_Spec.differentiable_at]. destruct (convert a) as [y|]; [|discriminate]. cbn [bind]. intro H. injection H as <-. intro Hb.
    cbn [defined]. now apply IH.
  - cbn [Load_Model.convert Load_Spec.bases_ok Lfoc_Spec.differentiable_at]. destruct (convert a) as [xa|] eqn:Ea; [|discriminate]. cbn [bind].
    destruct (convert b) as [xb|] eqn:Eb; [|discriminate]. cbn [bind]. intro H. injection H as <-. intros (Ha & Hb & Hp) (Da & Db & Do).
    specialize (IHa xa eq_refl Ha Da). specialize (IHb xb eq_refl Hb Db).
    pose proof (convert_value whole lit G I p t a xa HU Ea Ha) as Va. pose proof (convert_value whole lit G I p t b xb HU Eb Hb) as Vb.
    destruct o; cbn [apply_op defined]; auto.
    + split; [exact IHa|]. cbn [inv defined]. split; [exact IHb|]. rewrite Vb. exact Do.
    + unfold spow. rewrite (whole_exponent_conv b xb Eb). destruct (whole_exponent whole b) as [z|]; cbn [defined].
      * split; [exact IHa|]. rewrite Va. exact Do.
      * destruct Do as [D1 D2]. repeat split; auto; [rewrite Va; exact D1|]. cbn [ev Ralg a_mul a_fn]. rewrite Va, Vb. exact D2.
  - rewrite convert_fun. cbn [Load_Spec.bases_ok Lfoc_Spec.differentiable_at]. rewrite !all_Forall. destruct (existsb (chars_eqb f) sympy_functions) eqn:Ek; [|discriminate].
    destruct (map_ok convert args) as [xs|] eqn:E; [|discriminate]. cbn [bind]. intros Hc (Hs & Hu) (Hd & Hdom).
    apply map_ok_F2 in E.
    assert (K : Forall2 (fun a y => defined G (at_date I p t) y /\ ev (Ralg G) (at_date I p t) y = den I p t a) args xs).
    { clear Hc Hs Hdom. induction E as [|a y l r Ha E IHE]; constructor; inversion IH; inversion Hu; inversion Hd; subst; [|auto].
      split; [auto|]. now apply (convert_value whole lit). }
    unfold call in Hc. destruct xs as [|a [|b [|]]]; try discriminate.
    + injection Hc as <-. inversion K as [|a0 ? l0 ? [D1 V1] K']; subst. inversion K'; subst. cbn [defined]. split; [exact D1|]. rewrite V1. exact Hdom.
    + inversion K as [|a0 ? l0 ? [D1 V1] K']; subst. inversion K' as [|a1 ? l1 ? [D2 V2] K2]; subst. inversion K2; subst.
      destruct (chars_eqb f (str "log")) eqn:E1.
      * injection Hc as <-. destruct Hdom as (H1 & H2 & H3). cbn [defined inv]. repeat split; auto; try (rewrite V1; exact H1); try (rewrite V2; exact H2).
        cbn [ev Ralg a_fn]. rewrite V2. exact H3.
      * destruct (chars_eqb f (str "sqrt")) eqn:E2; [|discriminate]. apply chars_eqb_eq in E2. discriminate (Hs E2).
  - cbn [Load_Model.convert Load_Spec.bases_ok Lfoc_Spec.differentiable_at]. intros Hc Hb Hd. now apply IH.
Qed.

Lemma no_occs_params (c : expr F) s : occs c = [] -> In s (written_symbols c) -> exists n, s = SPar n.
Proof.
  induction c as [v|m|m u|x IH|o x y IHa IHb|f args IH|x IH] using expr_ind'; cbn [written_symbols occs]; try easy.
  - intros _ [<-|[]]. eauto.
  - intros E H. apply app_eq_nil in E as [E1 E2]. apply in_app_or in H as [H|H]; auto.
  - intros E H. apply in_flat_map in H as (x & Hx & Hin). rewrite Forall_forall in IH. apply (IH x Hx); [|exact Hin].
    clear -E Hx. induction args as [|y l IHl]; [destruct Hx|]. cbn in E. apply app_eq_nil in E as [E1 E2]. destruct Hx as [<-|Hx]; auto.
Qed.

Variables ord sord : set_order.
Variable aord : list sx -> list sx.
Hypothesis Ho : set_order_ok ord.
Hypothesis Hs : set_order_ok sord.
Hypothesis Hao : forall l, Permutation (aord l) l.

Section OneBlock.
Variable b : Gcn_Model.block F.
Variable obj : Gcn_Model.equation F.
Variable c : option (expr F).
Hypothesis Hpb : problem b obj c.
Variable a : Block_Model.ablock.
Hypothesis Ha : ablock_of whole lit (ExpandTime_Model.expand_block (gblock_of b)) = Ok a.
Hypothesis Hcal : forall e, In e (Block_Model.ab_defs a) -> Block_Model.g_cal e = None.
Notation rep := (rep b).

Lemma rep_near q : dated_near (Gcn_Model.lhs q) -> dated_near (Gcn_Model.rhs q) -> rep q = eq_of q.
Proof.
  intros H1 H2. unfold Load_Proofs2.rep, ExpandTime_Model.replace_eq. rewrite !replace_near_id.
  - destruct q; reflexivity.
  - intros x u Hin. exact (proj2 (H2 x u Hin)).
  - intros x u Hin. exact (proj2 (H1 x u Hin)).
Qed.
(* a written equation and its image *)
Definition image (q : Gcn_Model.equation F) (g : Block_Model.geq) : Prop :=
  convert (Gcn_Model.lhs q) = Ok (Block_Model.g_lhs g) /\ convert (Gcn_Model.rhs q) = Ok (Block_Model.g_rhs g) /\
  Block_Model.g_lm g = Gcn_Model.multiplier q /\ Block_Model.g_min g = minimised q.
Lemma image_of q g : to_geq (eq_of q) = Ok g -> image q g.
Proof.
  unfold Load_Model.to_geq. cbn [eq_of ExpandTime_Model.lhs ExpandTime_Model.rhs]. unfold image.
  destruct (convert (Gcn_Model.lhs q)) as [l|]; [|discriminate]. cbn [bind].
  destruct (convert (Gcn_Model.rhs q)) as [r|]; [|discriminate]. cbn [bind]. intro H. injection H as <-.
  cbn [Block_Model.g_lhs Block_Model.g_rhs Block_Model.g_lm Block_Model.g_min ExpandTime_Model.lagrange]. repeat split; auto.
  unfold has_tag, minimised. cbn [ExpandTime_Model.tags]. induction (Gcn_Model.tags q) as [|u l' IH]; [reflexivity|].
  cbn [map existsb]. rewrite IH. destruct u; reflexivity.
Qed.
Lemma obj_image : exists o, Block_Model.ab_obj a = [o] /\ image obj o.
Proof.
  destruct (parts whole lit b a Ha) as (_ & P2 & _). rewrite (pb_obj _ _ _ Hpb) in P2.
  inversion P2 as [|q o l r E P]; subst. inversion P; subst. exists o. split; [reflexivity|]. apply image_of.
  rewrite rep_near in E; [exact E|apply (pb_near_obj _ _ _ Hpb)|apply (pb_near_obj _ _ _ Hpb)].
Qed.
Lemma cons_image : Forall2 image (Gcn_Model.constraints b) (Block_Model.ab_cons a).
Proof.
  destruct (parts whole lit b a Ha) as (_ & _ & P3 & _). eapply F2_impl; [|exact P3]. intros q g Hq _ E. apply image_of.
  destruct (pb_near_cons _ _ _ Hpb q Hq) as [N1 N2]. cbv beta in E. rewrite (rep_near q N1 N2) in E. exact E.
Qed.
Lemma defines_iff n : Block_Spec.defined_name a n <-> defines b n.
Proof.
  pose proof (pb_defs _ _ _ Hpb) as Hreg. split.
  - intros (e & t & r & He & Hd & _). destruct (def_conv whole lit b Hreg a Ha e He) as (q & Hq & C1 & _). exists q, t. split; [exact Hq|].
    now apply (lhs_back whole lit b Hreg q e n t C1 Hq).
  - intros (q & t & Hq & E). destruct (F2_in_l _ _ _ (proj1 (parts whole lit b a Ha)) q Hq) as (e & He & C).
    rewrite (rep_def b Hreg q Hq) in C. apply (to_geq_inv whole lit) in C as (C1 & _). cbn [eq_of ExpandTime_Model.lhs] in C1.
    exists e, t, (Block_Model.g_rhs e). split; [exact He|]. split; [|split; [reflexivity|now apply Hcal]].
    apply (lhs_back whole lit b Hreg q e n t C1 Hq), E.
Qed.
Lemma controls_image : Block_Model.ab_controls a = map (fun v => match snd v with TI z => SDate (fst v) z | TIss => SSs (fst v) end) (Gcn_Model.controls b).
Proof.
  pose proof Ha as H. unfold ablock_of in H. destruct (map_ok _ (ExpandTime_Model.controls _)) as [cs|] eqn:E1; [|discriminate]. cbn [bind] in H.
  destruct (map_ok _ (ExpandTime_Model.definitions _)) as [df|]; [|discriminate]. cbn [bind] in H.
  destruct (map_ok _ (ExpandTime_Model.objective _)) as [ob|]; [|discriminate]. cbn [bind] in H.
  destruct (map_ok _ (ExpandTime_Model.constraints _)) as [co|]; [|discriminate]. cbn [bind] in H.
  destruct (map_ok _ (ExpandTime_Model.identities _)) as [id|]; [|discriminate]. cbn [bind] in H.
  destruct (map_ok _ (snd _)) as [ca|]; [|discriminate]. cbn [bind] in H. injection H as <-. cbn [Block_Model.ab_controls].
  destruct (expand_shape (gblock_of b)) as (_ & E2 & _). rewrite E2 in E1. cbn [gblock_of ExpandTime_Model.controls] in E1. rewrite map_map in E1.
  pose proof (pb_controls _ _ _ Hpb) as Hc. clear Hcal Ha. revert cs E1. generalize (ExpandTime_Model.deep_dicts (gblock_of b)) as s.
  induction (Gcn_Model.controls b) as [|v l IH]; intros s cs E1; cbn [map map_ok] in E1.
  - injection E1 as <-. reflexivity.
  - destruct (Hc v (or_introl eq_refl)) as (n & t & -> & Hn).
    assert (Er : ExpandTime_Model.replace s (Var (F:=F) (fst (n, TI t)) (snd (n, TI t))) = Var n (TI t)).
    { apply replace_near_id. intros x u [Hin|[]]. injection Hin as <- <-. exact Hn. }
    rewrite Er in E1. unfold control_sym at 1 in E1. cbn [Load_Model.convert bind] in E1.
    match type of E1 with context [map_ok ?f ?m] => destruct (map_ok f m) as [r|] eqn:E; [|discriminate] end. cbn [bind] in E1. injection E1 as <-. cbn [map fst snd].
    apply (f_equal2 cons eq_refl). apply (IH (fun v Hv => Hc v (or_intror Hv)) s r E).
Qed.
Lemma assigned_image short cs gs : Forall2 image cs gs -> forall i, Block_Spec.assigned short i gs = map (fun n => SDate n 0) (multipliers short i cs).
Proof.
  induction 1 as [|q g cs gs (_ & _ & E & _) H IH]; intro i; [reflexivity|]. cbn [Block_Spec.assigned multipliers]. rewrite E.
  destruct (Gcn_Model.multiplier q); cbn [map]; now rewrite IH.
Qed.
Lemma near_image e x : dated_near e -> convert e = Ok x -> Block_Spec.near_dates a x /\ no_ss x.
Proof.
  intros Hn E. split.
  - intros n t Hin _. pose proof (occs_written e n (TI t) (convert_incl whole lit e x E _ Hin)) as Ho'. apply Hn in Ho' as [_ Hr].
    cbn in Hr |- *. assert (t = -1 \/ t = 0 \/ t = 1)%Z as [-> | [-> | ->]] by lia; auto.
  - intros n Hin. pose proof (occs_written e n TIss (convert_incl whole lit e x E _ Hin)) as Ho'. now apply (Hn n TIss).
Qed.
Definition disc_sx : result sx := match c with None => Ok (Cst 1) | Some e => convert e end.
Lemma disc_image o : image obj o -> exists cx, disc_sx = Ok cx /\ Block_Spec.discounted_by o cx.
Proof.
  intros (E1 & E2 & _). unfold disc_sx. destruct (pb_disc _ _ _ Hpb) as [H|V t u e w Hl Hr Hw Hu Hc].
  - exists (Cst 1). split; [reflexivity|]. constructor. intros s Hin.
    assert (Hin' : In s (written_symbols (Gcn_Model.lhs obj) ++ written_symbols (Gcn_Model.rhs obj))).
    { apply in_app_or in Hin as [Hin|Hin]; apply in_or_app; [left|right]; eapply (convert_incl whole lit); eassumption. }
    assert (K : forall n t, s = (match t with TI z => SDate n z | TIss => SSs n end) -> In (n, t) (occs (Gcn_Model.lhs obj) ++ occs (Gcn_Model.rhs obj))).
    { intros n t ->. apply in_app_or in Hin' as [Hi|Hi]; apply in_or_app; [left|right]; now apply occs_written. }
    split.
    + intros n ->. destruct (H n TIss (K n TIss eq_refl)); discriminate.
    + intros n t ->. destruct (H n (TI t) (K n (TI t) eq_refl)) as [E|E]; injection E as ->; auto.
  - rewrite Hl in E1. rewrite Hr in E2. cbn [Load_Model.convert] in E1, E2. injection E1 as E1.
    destruct (convert u) as [ux|] eqn:Eu; [|discriminate]. cbn [bind] in E2.
    destruct (convert e) as [cx|] eqn:Ec; [|discriminate]. cbn [bind] in E2.
    assert (Ew : convert w = Ok (Sy (SDate V 1))) by (destruct Hw as [-> | ->]; reflexivity). rewrite Ew in E2. cbn [bind apply_op] in E2. injection E2 as E2.
    exists cx. split; [reflexivity|]. apply (Block_Spec.bellman_objective o V t ux cx); auto.
    + intro Hin. apply Hu. exact (occs_written u V (TI 1) (convert_incl whole lit u ux Eu _ Hin)).
    + intros s Hin. apply (no_occs_params e s Hc). exact (convert_incl whole lit e cx Ec _ Hin).
Qed.

Local Open Scope R_scope.
Lemma penalty_image G I p t cs gs : Forall2 image cs gs -> usual G I ->
  (forall q, In q cs -> bases_ok I p t (Gcn_Model.lhs q) /\ bases_ok I p t (Gcn_Model.rhs q)) ->
  forall ms, Block_Spec.penalty (Ralg G) (at_date I p t) gs (map (fun n => SDate n 0) ms) = price I p t cs ms.
Proof.
  induction 1 as [|q g cs gs (E1 & E2 & _) H IH]; intros HU Hb ms; [reflexivity|]. destruct ms as [|m ms]; [reflexivity|].
  cbn [map Block_Spec.penalty price]. rewrite IH; [|exact HU|intros; apply Hb; now right].
  destruct (Hb q (or_introl eq_refl)) as [B1 B2].
  rewrite (convert_value whole lit G I p t _ _ HU E1 B1), (convert_value whole lit G I p t _ _ HU E2 B2).
  cbn [at_date]. now rewrite Z.add_0_r.
Qed.
Lemma lagrangian_image G I p t o : image obj o -> Block_Model.ab_obj a = [o] -> good_path whole lit G I p b ->
  Block_Spec.lagrangian (Ralg G) a o (map (fun n => SDate n 0) (multipliers_of b)) (at_date I p t) = period_lagrangian I p t b obj.
Proof.
  intros (E1 & E2 & E3 & E4) Eo HG. pose proof (gp_usual _ _ _ _ _ _ HG) as HU. unfold Block_Spec.lagrangian, period_lagrangian. rewrite E4.
  assert (Ho' : In obj (Gcn_Model.objective b)) by (rewrite (pb_obj _ _ _ Hpb); now left).
  rewrite (convert_value whole lit G I p t _ _ HU E2).
  - rewrite (penalty_image G I p t _ _ cons_image HU); [reflexivity|]. intros q Hq. apply (gp_bases _ _ _ _ _ _ HG). rewrite !in_app_iff. auto.
  - apply (gp_bases _ _ _ _ _ _ HG). rewrite !in_app_iff. auto.
Qed.

Theorem problem_image short : Block_Model.short_name (Block_Model.ab_name a) = Ok short ->
  exists o cx, image obj o /\ disc_sx = Ok cx /\ Block_Spec.optimisation_block a o cx short.
Proof.
  intro Hsh. destruct obj_image as (o & Eo & Im). destruct (disc_image o Im) as (cx & Ec & Hd). exists o, cx. split; [exact Im|]. split; [exact Ec|].
  pose proof Im as (E1 & E2 & E3 & E4). constructor.
  - exact Hsh.
  - exact (defs_ok whole lit b (pb_defs _ _ _ Hpb) a Ha Hcal).
  - exact Eo.
  - rewrite E3. exact (pb_lm _ _ _ Hpb).
  - exact Hd.
  - intro E. pose proof (F2_len _ _ _ cons_image) as L. rewrite E in L. apply (pb_cons _ _ _ Hpb). now destruct (Gcn_Model.constraints b).
  - intros x Hx. rewrite controls_image in Hx. apply in_map_iff in Hx as (v & <- & Hv). destruct (pb_controls _ _ _ Hpb v Hv) as (n & t & -> & _). cbn. eauto.
  - split; [exact (proj1 (near_image _ _ (proj2 (pb_near_obj _ _ _ Hpb)) E2))|]. intros e He.
    destruct (F2_in_r _ _ _ cons_image e He) as (q & Hq & C1 & C2 & _). destruct (pb_near_cons _ _ _ Hpb q Hq) as [N1 N2].
    split; [exact (proj1 (near_image _ _ N1 C1))|exact (proj1 (near_image _ _ N2 C2))].
  - split; [exact (proj2 (near_image _ _ (proj2 (pb_near_obj _ _ _ Hpb)) E2))|]. intros e He.
    destruct (F2_in_r _ _ _ cons_image e He) as (q & Hq & C1 & C2 & _). destruct (pb_near_cons _ _ _ Hpb q Hq) as [N1 N2].
    split; [exact (proj2 (near_image _ _ N1 C1))|exact (proj2 (near_image _ _ N2 C2))].
  - intros n Hn Hdn. apply defines_iff in Hdn. apply (pb_mult _ _ _ Hpb n); [|exact Hdn].
    rewrite (assigned_image short _ _ cons_image) in Hn. apply in_map_iff in Hn as (m & E & Hm). injection E as ->.
    unfold multipliers_of. rewrite (short_is_initials _ _ Hsh) in Hm.
    destruct (ablock_inv whole lit _ _ Ha) as (_ & _ & _ & _ & _ & En). rewrite En in Hm.
    destruct (expand_shape (gblock_of b)) as (_ & _ & _ & _ & _ & En' & _). rewrite En' in Hm. exact Hm.
Qed.
End OneBlock.

Lemma F2_weak {A B C} (P : A -> B -> Prop) (f : C -> B) l r : Forall2 P l (map f r) -> Forall2 (fun x y => P x (f y)) l r.
Proof. revert l. induction r as [|y r IH]; intros l H; inversion H; subst; constructor; auto. Qed.
Local Open Scope R_scope.
Theorem block_focs sss b k obj c : load_block whole lit ord sord aord sss b = Ok k -> problem b obj c ->
  exists static focs, Block_Model.k_sys k = static ++ focs /\ Forall2 (first_order_condition whole lit b obj c) focs (Gcn_Model.controls b).
Proof.
  intros H Hpb. unfold load_block in H.
  destruct (ablock_of whole lit (ExpandTime_Model.expand_block (gblock_of b))) as [a|] eqn:Ea; [|discriminate]. cbn [bind] in H.
  destruct (Block_Model.to_block ord sord a) as [k0|] eqn:Ek; [|discriminate]. cbn [bind] in H.
  destruct (Block_Model.param_dicts ord sord sss k0) as [pd|]; [|discriminate]. cbn [bind] in H.
  destruct (Block_Proofs.to_block_inv ord sord a k0 Ek) as (short & d' & Hsh & Hval & _).
  pose proof (proj1 (Block_Solve.validate_facts a short Hval)) as Hcal0.
  assert (Hcal : forall e, In e (Block_Model.ab_defs a) -> Block_Model.g_cal e = None) by (intros e He; apply Hcal0, in_or_app; auto).
  destruct (problem_image b obj c Hpb a Ea Hcal short Hsh) as (o & cx & Im & Ec & Hopt).
  destruct (Block_Final.block_system ord sord aord Ho Hs Hao a o cx short k0 Hopt Ek) as (k' & eqs & focs & Hk' & Hsys & _ & _ & Hf).
  rewrite H in Hk'. injection Hk' as <-. exists eqs, focs. split; [exact Hsys|].
  rewrite (controls_image b obj c Hpb a Ea Hcal) in Hf. apply F2_weak in Hf. eapply F2_impl; [|exact Hf]. clear Hf Hsys.
  intros f v _ Hv Hfoc x tx -> G I. cbn [fst snd] in Hfoc. destruct (Hfoc G) as (N & HN). exists N.
  intros mv t0 y0 eps H0 HH Heps Hy0 Hmv Hdc Hdd Hdcons.
  assert (Hnear0 : Rabs (y0 - y0) < eps) by (rewrite Rminus_eq_0, Rabs_R0; exact Heps).
  destruct (Hmv y0 Hnear0) as [HG0 _]. pose proof (gp_usual _ _ _ _ _ _ HG0) as HU.
  pose proof (obj_image b obj c Hpb a Ea) as (o' & Eo & _). pose proof (Block_Spec.ob_obj _ _ _ _ Hopt) as Eo'. rewrite Eo in Eo'. injection Eo' as ->.
  assert (Hino : In obj (Gcn_Model.objective b)) by (rewrite (pb_obj _ _ _ Hpb); now left).
  assert (Hx : at_date I (mv y0) t0 (SDate x tx) = y0) by exact Hy0.
  (* the discount factor *)
  assert (Hbc : forall e, c = Some e -> bases_ok I (mv y0) t0 e).
  { intros e ->. pose proof (pb_disc _ _ _ Hpb) as D. inversion D as [|V t u c' w Hl Hr Hw Hu Hc]; subst.
    pose proof (proj2 (gp_bases _ _ _ _ _ _ HG0 obj ltac:(rewrite !in_app_iff; auto) t0)) as B. rewrite Hr in B. cbn [Load_Spec.bases_ok] in B. tauto. }
  assert (Hcv : ev (Ralg G) (at_date I (mv y0) t0) cx = discount_value I (mv y0) t0 c).
  { unfold disc_sx in Ec. destruct c as [e|]; cbn [discount_value].
    - apply (convert_value whole lit); auto.
    - injection Ec as <-. reflexivity. }
  assert (Hcd : defined G (at_date I (mv y0) t0) cx).
  { unfold disc_sx in Ec. destruct c as [e|]; [|injection Ec as <-; exact Coq.Init.Logic.I].
    apply (convert_defined G I (mv y0) t0 e cx); auto. }
  assert (Hlat : forall p j s', later j (at_date (F:=F) I p t0) s' = at_date I p (t0 + j)%Z s') by (intros; apply at_date_later).
  assert (Hms : Block_Spec.assigned short 1 (Block_Model.ab_cons a) = map (fun n => SDate n 0) (multipliers_of b)).
  { rewrite (assigned_image short _ _ (cons_image b obj c Hpb a Ea)). unfold multipliers_of. rewrite (short_is_initials _ _ Hsh).
    destruct (ablock_inv whole lit _ _ Ea) as (_ & _ & _ & _ & _ & En). rewrite En.
    destruct (expand_shape (gblock_of b)) as (_ & _ & _ & _ & _ & En' & _). rewrite En'. reflexivity. }
  specialize (HN (at_date I (mv y0) t0) (fun y => at_date I (mv y) t0) H0 eps HH Heps Hcd).
  rewrite Hx in HN. rewrite Hcv in HN.
  assert (HE : forall y, Rabs (y - y0) < eps ->
     sum_f_R0 (fun k => discount_value I (mv y0) t0 c ^ k * Block_Spec.lagrangian (Ralg G) a o (Block_Spec.assigned short 1 (Block_Model.ab_cons a)) (later (Z.of_nat k) (at_date I (mv y) t0))) H0 =
     sum_f_R0 (fun k => discount_value I (mv y0) t0 c ^ k * period_lagrangian I (mv y) (t0 + Z.of_nat k) b obj) H0).
  { intros y Hy. apply sum_eq. intros j _. f_equal. destruct (Hmv y Hy) as [HG _]. rewrite Hms.
    rewrite <- (lagrangian_image b obj c Hpb a Ea G I (mv y) (t0 + Z.of_nat j) o Im Eo HG).
    assert (Hext : forall e, ev (Ralg G) (later (Z.of_nat j) (at_date I (mv y) t0)) e = ev (Ralg G) (at_date I (mv y) (t0 + Z.of_nat j)) e)
      by (intro e; apply ev_ext; intros s' _; apply Hlat).
    unfold Block_Spec.lagrangian. rewrite Hext. f_equal.
    generalize (map (fun n => SDate n 0) (multipliers_of b)) as ms. generalize (Block_Model.ab_cons a) as cs0. induction cs0 as [|q l IH]; intros [|m ms]; cbn [Block_Spec.penalty]; auto.
    now rewrite !Hext, Hlat, IH. }
  eapply (Block_Foc.derivable_local _ _ _ _ eps Heps HE). apply HN; clear HN HE.
  - intros y Hy. destruct (Hmv y Hy) as [HG Hm]. split.
    + intros s' Hs'. unfold with_value. destruct (sym_eqb s' (SDate x tx)) eqn:E.
      * apply sym_eqb_eq in E. subst s'. cbn [at_date]. destruct (Hm x (t0 + tx)%Z) as [M _]; [|now apply M].
        intro D. apply (Hs' x eq_refl). apply (defines_iff b obj c Hpb a Ea Hcal). exact D.
      * destruct s' as [n|n t|n]; cbn [at_date]; try reflexivity. destruct (Hm n (t0 + t)%Z) as [_ M].
        { intro D. apply (Hs' n eq_refl). apply (defines_iff b obj c Hpb a Ea Hcal). exact D. }
        apply M. intros [-> E']. assert (t = tx) by lia. subst t. rewrite (proj2 (sym_eqb_eq _ _) eq_refl) in E. discriminate.
    + exact (proj2 (path_follows whole lit b (pb_defs _ _ _ Hpb) a Ea G I (mv y) t0 HG)).
  - intros j e He. destruct (def_conv whole lit b (pb_defs _ _ _ Hpb) a Ea e He) as (q & Hq & _ & C2).
    apply (Sym_Diff.defined_ext G (at_date I (mv y0) (t0 + j))); [intros s' _; symmetry; apply Hlat|].
    apply (convert_defined G I (mv y0) _ (Gcn_Model.rhs q)); auto.
    + apply (gp_bases _ _ _ _ _ _ HG0). rewrite !in_app_iff. auto.
    + apply Hdd. rewrite in_app_iff. auto.
  - intros j. apply (Sym_Diff.defined_ext G (at_date I (mv y0) (t0 + j))); [intros s' _; symmetry; apply Hlat|].
    apply (convert_defined G I (mv y0) _ (Gcn_Model.rhs obj)); auto.
    + exact (proj1 (proj2 Im)).
    + apply (gp_bases _ _ _ _ _ _ HG0). rewrite !in_app_iff. auto.
    + apply Hdd. rewrite in_app_iff. right. now left.
  - intros j e He. destruct (F2_in_r _ _ _ (cons_image b obj c Hpb a Ea) e He) as (q & Hq & C1 & C2 & _).
    destruct (gp_bases _ _ _ _ _ _ HG0 q ltac:(rewrite !in_app_iff; auto) (t0 + j)%Z) as [B1 B2]. destruct (Hdcons (t0 + j)%Z q Hq) as [D1 D2].
    split; (apply (Sym_Diff.defined_ext G (at_date I (mv y0) (t0 + j))); [intros s' _; symmetry; apply Hlat|]).
    + now apply (convert_defined G I (mv y0) _ (Gcn_Model.lhs q)).
    + now apply (convert_defined G I (mv y0) _ (Gcn_Model.rhs q)).
Qed.
Local Close Scope R_scope.
Theorem load_focs m sss eqs : load whole lit ord sord aord m = Ok (sss, eqs) -> NoDup (map Gcn_Model.b_name (Gcn_Model.blocks m)) ->
  exists groups, eqs = concat groups /\
    Forall2 (fun b g => forall obj c, problem b obj c ->
        exists static focs, g = static ++ focs /\ Forall2 (first_order_condition whole lit b obj c) focs (Gcn_Model.controls b))
      (filter (fun b => negb (skipped (Gcn_Model.b_name b))) (Gcn_Model.blocks m)) groups.
Proof.
  unfold load. intros H Hn. destruct (extract_ss whole lit ord sord m) as [ss|]; [|discriminate]. cbn [bind] in H.
  destruct (block_dict whole lit ord sord aord ss (Gcn_Model.blocks m) []) as [d|] eqn:Ed; [|discriminate]. cbn [bind] in H. injection H as <- <-.
  destruct (block_dict_shape whole lit ord sord aord ss (Gcn_Model.blocks m) Hn [] d (fun _ _ H => H) Ed) as (ks & E & Hks). cbn in E. subst d.
  exists (map (fun nk => Block_Model.k_sys (snd nk)) ks). split; [now rewrite flat_map_concat_map|]. apply F2_map_r.
  eapply F2_impl; [|exact Hks]. intros b nk _ _ [_ Hk] obj c Hpb. exact (block_focs ss b (snd nk) obj c Hk Hpb).
Qed.
End P.
