(* Completeness, continued: components, blocks, special blocks, files *)
From Verif Require Import Common Expr_Model Expr_Spec Expr_Lex Expr_Proofs SymDict_Model Gcn_Lex Gcn_Model Gcn_Basic Gcn_Expr Gcn_Grammar Gcn_Sound Gcn_Complete Gcn_Complete2 Gcn_Complete3.
Local Open Scope list_scope.
Local Open Scope parser_scope.
Set Default Proof Using "Type".

(* ---- characters of an equation ---- *)
Definition plain (s : chars) : Prop := ~ In "~"%char s.
Lemma plain_app s t : plain s -> plain t -> plain (s ++ t).
Proof. unfold plain. rewrite in_app_iff. tauto. Qed.
Lemma forallb_out (f : ascii -> bool) c s : f c = false -> forallb f s = true -> ~ In c s.
Proof. intros Hc Hs Hi. rewrite forallb_forall in Hs. specialize (Hs c Hi). congruence. Qed.
Lemma ident_out c n : is_idc c = false -> ident n -> ~ In c n.
Proof. intros Hc Hn. apply (forallb_out is_idc); [exact Hc|]. now apply ident_idc. Qed.
Lemma plain_ws s : ws s -> plain s. Proof. now apply (forallb_out is_ws). Qed.
Lemma plain_ident n : ident n -> plain n. Proof. now apply ident_out. Qed.
Lemma plain_digits d : digits d -> plain d. Proof. now apply (forallb_out is_digit). Qed.
Lemma plain_digits1 d : digits1 d -> plain d. Proof. intros [_ H]. now apply plain_digits. Qed.
Lemma plain_cons c s : c <> "~"%char -> plain s -> plain (c :: s).
Proof. unfold plain. cbn. intuition. Qed.
Lemma plain_str (x : string) : existsb (Ascii.eqb "~") (str x) = false -> plain (str x).
Proof. intros H Hi. assert (existsb (Ascii.eqb "~") (str x) = true); [|congruence]. apply existsb_exists. exists "~"%char. split; [exact Hi|]. apply Ascii.eqb_refl. Qed.
Lemma plain_mantissa m : mantissa m -> plain m.
Proof. intros [d H|d1 d2 H1 H2|d H]; [now apply plain_digits1|apply plain_app; [now apply plain_digits1|]|]; (apply plain_cons; [discriminate|]); [now apply plain_digits|now apply plain_digits1]. Qed.
Lemma plain_exponent m : exponent m -> plain m.
Proof.
  intros [|e sg d He Hs Hd]; [now intros []|]. apply plain_cons; [intros ->; cbn in He; intuition discriminate|]. apply plain_app; [|now apply plain_digits1]. destruct Hs as [-> | [-> | ->]]; intros H; cbn in H; intuition discriminate.
Qed.
Lemma plain_numlit t : numlit t -> plain t.
Proof. intros (m & e & -> & Hm & He). apply plain_app; [now apply plain_mantissa|now apply plain_exponent]. Qed.
Lemma plain_tix t ti : tix_text t ti -> plain ti.
Proof.
  intros [w H|w1 w2 H1 H2|w1 d w2 n H1 H2 H3 _|w1 d w2 n H1 H2 H3 _]; repeat apply plain_app; try (now apply plain_ws); try (now apply plain_digits1); [now apply plain_str|].
  apply plain_cons; [discriminate|]. apply plain_app; [now apply plain_digits1|now apply plain_ws].
Qed.
Lemma plain_op o t : op_text o t -> plain t.
Proof. destruct 1; now apply plain_str. Qed.
Ltac pl := repeat (apply plain_app); try (now apply plain_ws); try (now apply plain_ident); try (now apply plain_str); try assumption.
Lemma plain_varref v s : varref_text v s -> plain s.
Proof. intros (w & w1 & ti & -> & H1 & H2 & H3 & H4). pl. now apply (plain_tix (snd v)). Qed.
Lemma plain_tag v s : tag_text v s -> plain s.
Proof. intros (w & n & -> & H1 & H2 & H3). pl. Qed.
Lemma plain_tags l s : sequence tag_text l s -> plain s.
Proof. induction 1 as [|a s l ss Ha Hs IH]; [intros []|]. apply plain_app; [now apply (plain_tag a)|exact IH]. Qed.
Section P.
Context {F : Type} (fread : chars -> F).
Lemma plain_Text : (forall l e s, Text fread l e s -> plain s) /\ (forall l s, Texts fread l s -> plain s).
Proof.
  apply Text_Texts_ind; intros; pl.
  - now apply plain_numlit.
  - now apply (plain_tix t).
  - now apply (plain_op o).
Qed.
Lemma plain_equation e s : equation_text fread e s -> plain s.
Proof.
  intros [ts tt l lt w r rt m mt c ct w1 H1 _ H2 H3 H4 H5 H6 H7]. pl.
  - now apply (plain_tags ts).
  - now apply (proj1 plain_Text LAdd l).
  - now apply (proj1 plain_Text LAdd r).
  - destruct H5 as [|w' n t s9 Hw Hv]; [intros []|]. pl. now apply (plain_varref (n, t)).
  - destruct H6 as [|w' w'' n Ha Hb Hc]; [intros []|]. pl.
Qed.
Lemma equation_semi e s : equation_text fread e s -> In ";"%char s.
Proof. intros [ts tt l lt w r rt m mt c ct w1 _ _ _ _ _ _ _ _]. rewrite !in_app_iff. cbn. tauto. Qed.
End P.
Lemma prefix_semi a : forall (s b r : chars), a ++ b = s ++ r -> ~ In ";"%char a -> In ";"%char s -> exists u, s = a ++ u.
Proof.
  induction a as [|c a IH]; intros s b r E Ha Hs; [exists s; reflexivity|]. destruct s as [|d s]; [contradiction|]. injection E as -> E. cbn in Ha, Hs.
  destruct (IH s b r E) as [u ->]; [tauto|tauto|]. exists u. reflexivity.
Qed.
Lemma no_semi_ws s : ws s -> ~ In ";"%char s. Proof. now apply (forallb_out is_ws). Qed.
Lemma no_semi_ident s : ident s -> ~ In ";"%char s. Proof. now apply ident_out. Qed.
Lemma ident_cases s : (exists n r, t_ident skip s = POk n r) \/ t_ident skip s = PFail.
Proof. unfold t_ident, of_opt. destruct (raw_ident (skip s)) as [[n r]|]; eauto. Qed.
Lemma lit_cases x s : (exists r, t_lit skip x s = POk tt r) \/ t_lit skip x s = PFail.
Proof. unfold t_lit, of_opt. destruct (eat (str x) (skip s)) as [r|]; eauto. Qed.
Lemma oneof_cases l s : (exists n r, t_oneof skip l s = POk n r) \/ t_oneof skip l s = PFail.
Proof. unfold t_oneof, of_opt. destruct (first_of eat (longest l) (skip s)) as [[n r]|]; eauto. Qed.

(* ---- the end of a component ---- *)
Lemma rb_next w r : ws w -> next (w ++ str "}" ++ r) "}".
Proof. intro H. now apply (next_ws w). Qed.
Lemma g_op_f l s : next s "}" -> g_op skip l s = PFail.
Proof.
  intro H. destruct l; cbn [g_op]; try reflexivity; (rewrite alt_r; apply seq_f); (eapply lit_f; [exact H|cbn; discriminate]).
Qed.
Section E.
Context {F : Type} (fread : chars -> F).
Lemma expr_rb f : forall l s, next s "}" -> g_expr skip fread f l s = PFail \/ g_expr skip fread f l s = POut.
Proof.
  induction f as [|f IH]; intros l s H; [now right|]. rewrite g_expr_S.
  assert (K : forall l', (a <~ g_expr skip fread f (tighter l') ; g_loop skip fread f l' a) s = PFail \/ (a <~ g_expr skip fread f (tighter l') ; g_loop skip fread f l' a) s = POut).
  { intro l'. unfold seq. destruct (IH (tighter l') s H) as [-> | ->]; auto. }
  destruct l; [apply K|apply K|apply K| |].
  - rewrite alt_r; [apply IH; exact H|]. apply seq_f. eapply lit_f; [exact H|cbn; discriminate].
  - left. assert (Hi : t_ident skip s = PFail) by (now apply (ident_f s "}")). assert (Hn : t_number skip s = PFail).
    { destruct H as [r Hr]. unfold t_number, of_opt. now rewrite Hr. }
    unfold g_atom, g_variable, g_parameter. repeat (rewrite alt_r); apply seq_f; first [assumption | now apply seq_f | eapply lit_f; [exact H|cbn; discriminate]].
Qed.
Lemma ex_rb s : next s "}" -> p_ex skip fread s = PFail.
Proof. intro H. destruct (expr_rb (enough_fuel s) LAdd s H) as [E|E]; [exact E|]. exfalso. now apply (nout_ex skip skip_len fread s). Qed.
Lemma equation_rb s : next s "}" -> p_equation skip fread s = PFail.
Proof.
  intro H. assert (Ht : many (p_tag skip) s = POk [] s). { unfold many. cbn [many_f]. now rewrite (tag_f s "}" H). }
  assert (Hl : forall x, match str x with d :: _ => d <> "}"%char | [] => False end -> t_lit skip x s = PFail) by (intros x Hx; now apply (lit_f x s "}")).
  unfold p_equation, missing_lhs, missing_rhs, missing_equals, valid_equation. repeat (rewrite alt_r); rewrite (seq_c _ _ _ _ _ Ht).
  - apply seq_f. now apply ex_rb.
  - apply seq_f. now apply ex_rb.
  - apply seq_f. now apply ex_rb.
  - apply seq_f, peek_f, Hl. cbn. discriminate.
Qed.
Lemma cal_item_rb s : next s "}" -> p_cal_item skip fread s = PFail.
Proof.
  intro H. assert (Hi : t_ident skip s = PFail) by (now apply (ident_f s "}")). unfold p_cal_item, p_distribution, missing_tilde. rewrite alt_r; [apply seq_f; now apply equation_rb|].
  rewrite alt_r; [now apply seq_f|]. now apply seq_f, seq_f.
Qed.
Lemma cal_item_c i s r : cal_item_text fread i s -> p_cal_item skip fread (s ++ r) = POk i r.
Proof.
  intro Hx. unfold p_cal_item. destruct Hx as [d t Hd|e t He Hn].
  - apply alt_l, alt_l. now rewrite (seq_c _ _ _ d r (distribution_c d t r Hd)).
  - rewrite alt_r; [now rewrite (seq_c _ _ _ e r (equation_c fread e t r He))|]. pose proof (equation_semi fread e t He) as Hs. rewrite alt_r.
    + unfold missing_tilde. destruct (ident_cases (t ++ r)) as [(n & u & E)|E]; [|now apply seq_f]. rewrite (seq_c _ _ _ n u E). apply seq_f, peek_f.
      destruct (lit_cases "=" u) as [[u1 E1]|E1]; [|now apply seq_f]. rewrite (seq_c _ _ _ tt u1 E1).
      apply ident_s in E as (w & E & Hw & Hi & _). apply lit_s in E1 as (w1 & -> & Hw1). unfold p_wrapper_name, p_dist_name.
      assert (K : forall l x u2, (forall y, In y l -> In y (preliz_wrappers ++ preliz_dists)) -> t_oneof skip l u1 = POk x u2 -> False).
      { intros l x u2 Hl Ex. apply oneof_s in Ex as (w2 & -> & Hw2 & Hx). apply Hl in Hx. assert (Hxi : ident x) by (apply in_app_or in Hx as [Hx|Hx]; [now apply wrappers_ident|now apply dists_ident]).
        destruct (prefix_semi (w ++ n ++ w1 ++ str "=" ++ w2 ++ x) t u2 r) as [v Hv].
        - rewrite E. eqs.
        - rewrite !in_app_iff. pose proof (no_semi_ws w Hw). pose proof (no_semi_ws w1 Hw1). pose proof (no_semi_ws w2 Hw2). pose proof (no_semi_ident n Hi). pose proof (no_semi_ident x Hxi). cbn. intuition discriminate.
        - exact Hs.
        - apply Hn. exists w, n, w1, w2, x, v. rewrite Hv. split; [eqs|auto 10]. }
      rewrite alt_r.
      * destruct (oneof_cases preliz_dists u1) as [(x & u2 & Ex)|Ex]; [|exact Ex]. exfalso. eapply K; [|exact Ex]. intros y Hy. apply in_or_app. now right.
      * destruct (oneof_cases preliz_wrappers u1) as [(x & u2 & Ex)|Ex]; [|exact Ex]. exfalso. eapply K; [|exact Ex]. intros y Hy. apply in_or_app. now left.
    + apply seq_f. unfold p_distribution. destruct (ident_cases (t ++ r)) as [(n & u & E)|E]; [|now apply seq_f]. rewrite (seq_c _ _ _ n u E). apply seq_f.
      destruct (lit_cases "~" u) as [[u1 E1]|E1]; [|exact E1]. exfalso. apply ident_s in E as (w & E & Hw & Hi & _). apply lit_s in E1 as (w1 & -> & Hw1).
      destruct (prefix_semi (w ++ n ++ w1 ++ str "~") t u1 r) as [v Hv].
      * rewrite E. eqs.
      * rewrite !in_app_iff. pose proof (no_semi_ws w Hw). pose proof (no_semi_ws w1 Hw1). pose proof (no_semi_ident n Hi). cbn. intuition discriminate.
      * exact Hs.
      * apply (plain_equation fread e t He). rewrite Hv, !in_app_iff. cbn. tauto.
Qed.
Lemma shock_rb s : next s "}" -> p_shock_item skip s = PFail.
Proof.
  intro H. assert (Hi : t_ident skip s = PFail) by (now apply (ident_f s "}")). unfold p_shock_item, p_varref. rewrite alt_r; [now apply seq_f, seq_f|]. rewrite alt_r; now apply seq_f, seq_f.
Qed.
Lemma optvars_c l s w r : opt_list_text l s -> ws w -> p_optvars skip (s ++ w ++ str "}" ++ r) = POk l (w ++ str "}" ++ r).
Proof.
  intros Hl Hw. unfold p_optvars. destruct Hl as [[-> ->]|(t & w1 & -> & Hl & Hw1)].
  - rewrite (seq_c _ _ _ None (w ++ str "}" ++ r)); [reflexivity|]. apply opt_none. apply seq_f. unfold p_varlist, delimited, p_varref. apply seq_f, seq_f.
    apply (ident_f _ "}"); [now apply rb_next|reflexivity].
  - rewrite (seq_c _ _ _ (Some l) (w ++ str "}" ++ r)); [reflexivity|]. apply opt_some. reassoc. rewrite (seq_c _ _ _ l (w1 ++ str ";" ++ w ++ str "}" ++ r)); [now rewrite (seq_c _ _ _ tt _ (lit_c ";" w1 _ eq_refl Hw1))|].
    apply (delimited_c (p_varref skip) varref_text (fun _ => True)); auto; [exact (proj1 (r_varref skip skip_len (fun t => t)))|intros a s0 q Ha _; now apply varref_c|].
    apply (lit_f "," _ ";"); [now apply (next_ws w1)|discriminate].
Qed.
Lemma kw_end_brace w r : ws w -> kw_end (w ++ str "{" ++ r) = true.
Proof. intro H. now apply (kw_end_ws w "{"). Qed.
Lemma braces_c {A B} kw (p : parser A) (k : A -> B) l body s r : kwok kw -> braces kw body s ->
  (forall w u, ws w -> p (body ++ w ++ str "}" ++ u) = POk l (w ++ str "}" ++ u)) ->
  (t_kwc skip kw >> !(t_lit skip "{") >> l <~ !p ; !(t_lit skip "}") >> !(t_lit skip ";") >> ret (k l)) (s ++ r) = POk (k l) r.
Proof.
  intros Hkw (w & k' & w1 & w2 & w3 & -> & Hw & Hk & Hw1 & Hw2 & Hw3) Hp. reassoc.
  rewrite (seq_c _ _ _ tt _ (kwc_c kw w k' _ Hw Hkw Hk (kw_end_brace w1 _ Hw1))).
  rewrite (seq_c _ _ _ tt _ (cut_c _ _ _ _ (lit_c "{" w1 _ eq_refl Hw1))), (seq_c _ _ _ l _ (cut_c _ _ _ _ (Hp w2 _ Hw2))).
  rewrite (seq_c _ _ _ tt _ (cut_c _ _ _ _ (lit_c "}" w2 _ eq_refl Hw2))). now rewrite (seq_c _ _ _ tt _ (cut_c _ _ _ _ (lit_c ";" w3 _ eq_refl Hw3))).
Qed.
Lemma braces_f kw' body s r kw {B} (q : parser B) : braces kw' body s -> word kw -> word kw' -> kwok kw' -> map lower (str kw) <> map lower (str kw') -> (t_kwc skip kw >> q) (s ++ r) = PFail.
Proof.
  intros (w & k' & w1 & w2 & w3 & -> & Hw & Hk & Hw1 & Hw2 & Hw3) H1 H2 H3 H4. reassoc. apply seq_f. apply (kwc_other kw kw'); auto. now apply (ws_lit_nidc w1 "{").
Qed.
Lemma many_body {A} (p : parser A) (P : A -> chars -> Prop) l b : lens true p -> (forall a s r, P a s -> p (s ++ r) = POk a r) -> (forall s, next s "}" -> p s = PFail) -> sequence P l b ->
  forall w u, ws w -> many p (b ++ w ++ str "}" ++ u) = POk l (w ++ str "}" ++ u).
Proof. intros H1 H2 H3 H4 w u Hw. apply (many_c p P); auto. apply H3. now apply rb_next. Qed.
Lemma eqs_body l b : sequence (equation_text fread) l b -> forall w u, ws w -> many (p_equation skip fread) (b ++ w ++ str "}" ++ u) = POk l (w ++ str "}" ++ u).
Proof. apply many_body; [exact (proj1 (r_equation skip skip_len fread))|intros; now apply equation_c|apply equation_rb]. Qed.
Ltac other H := rewrite alt_r; [|eapply braces_f; [exact H|reflexivity|reflexivity|reflexivity|vm_compute; discriminate]].
Ltac others H := repeat first [other H | apply alt_l].
Lemma valid_component_c c s r : component_text fread c s -> valid_component skip fread (s ++ r) = POk c r.
Proof.
  intro Hx. unfold valid_component, eq_component, p_controls, p_shocks, p_calibration. destruct Hx as [l b t Hl Hb|l b t Hl Hb|l b t Hl Hb|l b t Hl Hb|l b t Hl Hb|l b t Hl Hb|l b t Hl Hb].
  - do 6 apply alt_l. apply (braces_c "definitions" _ _ l b); [reflexivity|exact Hb|now apply eqs_body].
  - do 5 apply alt_l. other Hb. apply (braces_c "controls" _ _ l b); [reflexivity|exact Hb|intros; now apply optvars_c].
  - do 4 apply alt_l. rewrite alt_r; [|other Hb; eapply braces_f; [exact Hb|reflexivity|reflexivity|reflexivity|vm_compute; discriminate]].
    apply (braces_c "objective" _ _ l b); [reflexivity|exact Hb|now apply eqs_body].
  - do 3 apply alt_l. rewrite alt_r; [|repeat (rewrite alt_r); eapply braces_f; first [exact Hb|reflexivity|vm_compute; discriminate]].
    apply (braces_c "constraints" _ _ l b); [reflexivity|exact Hb|now apply eqs_body].
  - do 2 apply alt_l. rewrite alt_r; [|repeat (rewrite alt_r); eapply braces_f; first [exact Hb|reflexivity|vm_compute; discriminate]].
    apply (braces_c "identities" _ _ l b); [reflexivity|exact Hb|now apply eqs_body].
  - apply alt_l. rewrite alt_r; [|repeat (rewrite alt_r); eapply braces_f; first [exact Hb|reflexivity|vm_compute; discriminate]]. rewrite <- !flat_map_concat_map.
    apply (braces_c "shocks" _ (fun l => CShocks (flat_map fst l) (flat_map snd l)) l b); [reflexivity|exact Hb|].
    apply (many_body _ shock_text); [exact (proj1 (r_shock_item skip skip_len (fun t => t)))|intros; now apply shock_c|apply shock_rb|exact Hl].
  - rewrite alt_r; [|repeat (rewrite alt_r); eapply braces_f; first [exact Hb|reflexivity|vm_compute; discriminate]].
    apply (braces_c "calibration" _ _ l b); [reflexivity|exact Hb|].
    apply (many_body _ (cal_item_text fread)); [exact (proj1 (r_cal_item skip skip_len fread))|intros; now apply cal_item_c|apply cal_item_rb|exact Hl].
Qed.
Lemma component_c c s r : component_text fread c s -> p_component skip fread (s ++ r) = POk c r.
Proof. intro H. unfold p_component. apply alt_l. now apply valid_component_c. Qed.
Lemma component_rb s : next s "}" -> p_component skip fread s = PFail.
Proof.
  intro H. assert (Hk : forall kw, match str kw with d :: _ => lower d <> lower "}" | [] => False end -> t_kwc skip kw s = PFail) by (intros kw Hk; now apply (kwc_f kw s "}")).
  assert (Hv : valid_component skip fread s = PFail).
  { unfold valid_component, eq_component, p_controls, p_shocks, p_calibration. repeat (rewrite alt_r); apply seq_f, Hk; vm_compute; discriminate. }
  unfold p_component. rewrite alt_r by exact Hv. unfold nota, seq at 1. rewrite Hv. apply seq_f. now apply (ident_f s "}").
Qed.
Lemma block_c b s r : block_text fread b s -> p_block skip fread (s ++ r) = POk b r.
Proof.
  destruct b as [n cs]. intros (w & k & w1 & w2 & body & w3 & w4 & -> & Hw & Hk & Hw1 & Hne & Hn & Hw2 & Hc & Hw3 & Hw4). cbn [fst snd] in *. reassoc. unfold p_block.
  assert (Hend : kw_end (w1 ++ n ++ w2 ++ str "{" ++ body ++ w3 ++ str "}" ++ w4 ++ str ";" ++ r) = true).
  { destruct w1 as [|x w1]; [congruence|]. apply (kw_end_ws [x] x [] Hw1) || idtac. cbn. cbn in Hw1. apply andb_true_iff in Hw1 as [Hx _]. destruct (is_idc x) eqn:E; [apply idc_not_ws in E; congruence|]. destruct (Ascii.eqb_spec x "$") as [->|]; [discriminate Hx|reflexivity]. }
  rewrite (seq_c _ _ _ tt _ (kwc_c "block" w k _ Hw eq_refl Hk Hend)).
  rewrite (seq_c _ _ _ n _ (cut_c _ _ _ _ (ident_c w1 n _ Hw1 Hn (ws_lit_nidc w2 "{" _ Hw2 eq_refl)))), (seq_c _ _ _ tt _ (cut_c _ _ _ _ (lit_c "{" w2 _ eq_refl Hw2))).
  assert (Hm : many (p_component skip fread) (body ++ w3 ++ str "}" ++ w4 ++ str ";" ++ r) = POk cs (w3 ++ str "}" ++ w4 ++ str ";" ++ r)).
  { apply (many_body _ (component_text fread)); auto; [exact (proj1 (r_component skip skip_len fread))|intros; now apply component_c|apply component_rb]. }
  rewrite (seq_c _ _ _ cs _ (cut_c _ _ _ _ Hm)), (seq_c _ _ _ tt _ (cut_c _ _ _ _ (lit_c "}" w3 _ eq_refl Hw3))). now rewrite (seq_c _ _ _ tt _ (cut_c _ _ _ _ (lit_c ";" w4 _ eq_refl Hw4))).
Qed.
End E.
