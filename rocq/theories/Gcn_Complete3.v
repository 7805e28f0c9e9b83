(* Completeness, continued: distributions, components, blocks, files *)
From Verif Require Import Common Expr_Model Expr_Spec Expr_Lex Expr_Proofs SymDict_Model Gcn_Lex Gcn_Model Gcn_Basic Gcn_Expr Gcn_Grammar Gcn_Sound Gcn_Complete Gcn_Complete2.
Local Open Scope list_scope.
Local Open Scope parser_scope.
Set Default Proof Using "Type".

Scheme arith_text_ind2 := Minimality for arith_text Sort Prop
  with arith_rest_ind2 := Minimality for arith_rest Sort Prop.
Combined Scheme arith_ind from arith_text_ind2, arith_rest_ind2.
Definition op_string (o : dop) : string := match o with DDiv => "/" | DMul => "*" | DAdd => "+" | DSub => "-" end.
Lemma op_string_text o : str (op_string o) = dop_text o. Proof. destruct o; reflexivity. Qed.
Definition op_at (n : nat) : dop := match n with 0 => DDiv | 1 => DMul | 2 => DAdd | _ => DSub end.
Fixpoint lv (f n : nat) : parser dnum :=
  match n with 0 => d_atom skip (p_dnum_f skip f) | S m => d_level skip (op_at m) (op_string (op_at m)) (lv f m) end.
Lemma dnum_lv f : p_dnum_f skip (S f) = lv f 4. Proof. apply dnum_S. Qed.
Lemma op_level o : op_at (dop_level o - 1) = o. Proof. destruct o; reflexivity. Qed.
Lemma lens_lv f n : lens true (lv f n).
Proof.
  induction n as [|n IH]; [apply lens_d_atom; [exact skip_len|apply lens_dnum_f; exact skip_len]|]. cbn [lv]. apply lens_level; [exact skip_len| |exact IH]. rewrite op_string_text. destruct (op_at n); discriminate.
Qed.
Lemma arith_complete :
  (forall n e s, arith_text n e s -> n <= 4 -> forall r f, afol n r -> length (s ++ r) <= f -> lv f n (s ++ r) = POk e r) /\
  (forall o l s, arith_rest o l s -> forall r f m, afol (dop_level o) r -> length (s ++ r) <= f -> length (s ++ r) < m ->
     many_f m (t_lit skip (op_string o) >> lv f (dop_level o - 1)) (s ++ r) = POk l r /\ afol (dop_level o - 1) (s ++ r)).
Proof.
  apply arith_ind.
  - intros w t Hw Ht _ r f Hr _. cbn [lv]. unfold d_atom. apply alt_l. rewrite <- app_assoc. now rewrite (seq_c _ _ _ t r (dnumber_c w t r 0 Hw Ht Hr)).
  - intros w e s w1 Hw _ IH Hw1 _ r f Hr Hf. cbn [lv]. unfold d_atom. repeat rewrite <- app_assoc in *. rewrite alt_r.
    + rewrite (seq_c _ _ _ tt _ (lit_c "(" w _ eq_refl Hw)). assert (Hl : length (s ++ w1 ++ str ")" ++ r) < f) by (rewrite !app_length in *; cbn in *; lia).
      destruct f as [|f]; [lia|]. rewrite dnum_lv. rewrite (seq_c _ _ _ e (w1 ++ str ")" ++ r)); [now rewrite (seq_c _ _ _ tt _ (lit_c ")" w1 _ eq_refl Hw1))|]. apply IH; [lia| |lia].
      exists w1, ")"%char, r. auto 6.
    + apply seq_f. unfold t_dnumber, of_opt. rewrite skip_ws by exact Hw. reflexivity.
  - intros n e s Hn _ IH _ r f Hr Hf. cbn [lv]. unfold d_level. rewrite (seq_c _ _ _ e r); [|apply IH; auto; [lia|apply (afol_weak n (S n)); [lia|exact Hr]]].
    rewrite (seq_c _ _ r [] r); [reflexivity|]. unfold many. cbn [many_f]. rewrite (seq_f (t_lit skip (op_string (op_at n)))); [reflexivity|].
    eapply (afol_op (S n) (op_at n)); [exact Hr| |apply op_string_text]. destruct n as [|[|[|[|n]]]]; cbn; lia.
  - intros o a s l ss _ IHa Hl _ IHr _ r f Hr Hf. rewrite <- app_assoc in *. replace (dop_level o) with (S (dop_level o - 1)) by (destruct o; reflexivity). cbn [lv]. rewrite op_level. unfold d_level.
    assert (H1 : length (ss ++ r) <= f) by (rewrite !app_length in *; lia). destruct (IHr r f (S (length (ss ++ r))) Hr H1 (Nat.lt_succ_diag_r _)) as [H2 H3].
    rewrite (seq_c _ _ _ a (ss ++ r)); [|apply IHa; auto; destruct o; cbn; lia]. erewrite (seq_c _ _ (ss ++ r) l r); [|exact H2]. destruct l; [congruence|reflexivity].
  - intros o r f m Hr _ Hm. cbn [app] in *. split; [|apply (afol_weak _ (dop_level o)); [lia|exact Hr]]. destruct m as [|m]; [lia|]. cbn [many_f].
    rewrite seq_f; [reflexivity|]. apply (afol_op (dop_level o) o); [exact Hr|lia|apply op_string_text].
  - intros o w a s l ss Hw _ IHa _ IHr r f m Hr Hf Hm. repeat rewrite <- app_assoc in *. assert (H1 : length (ss ++ r) <= f) by (rewrite !app_length in *; lia).
    destruct m as [|m]; [lia|]. destruct (IHr r f m Hr H1) as [H2 H3]; [rewrite !app_length in *; destruct o; cbn in *; lia|]. split.
    + cbn [many_f]. rewrite <- (op_string_text o). rewrite (seq_c _ _ _ tt _ (lit_c (op_string o) w _ ltac:(destruct o; reflexivity) Hw)).
      rewrite IHa; [now rewrite H2|destruct o; cbn; lia|exact H3|rewrite !app_length in *; lia].
    + assert (G : exists c, dop_text o = [c]) by (destruct o; eexists; reflexivity). destruct G as [c G]. rewrite G. exists w, c, (s ++ ss ++ r). split; [reflexivity|]. split; [exact Hw|].
      do 4 right. exists o. split; [now rewrite G|]. destruct o; cbn; lia.
Qed.
Lemma dnum_c e s r : arith_text 4 e s -> afol 4 r -> p_dnum skip (s ++ r) = POk e r.
Proof. intros H Hr. unfold p_dnum. rewrite dnum_lv. apply (proj1 arith_complete 4 e s H); auto. Qed.
(* ---- distribution calls ---- *)
Definition arg_fol (s : chars) : Prop := exists w c r, s = w ++ c :: r /\ ws w /\ (c = ","%char \/ c = ")"%char).
Lemma arg_afol s : arg_fol s -> afol 4 s.
Proof. intros (w & c & r & -> & Hw & Hc). exists w, c, r. tauto. Qed.
Lemma arg_next s : arg_fol s -> head_not_idc s /\ kw_end s = true.
Proof. intros (w & c & r & -> & Hw & Hc). split; [apply ws_eq_nidc|apply kw_end_ws]; auto; destruct Hc as [-> | ->]; (reflexivity || discriminate). Qed.
Lemma dnum_f_ident w n r : ws w -> ident n -> p_dnum skip (w ++ n ++ r) = PFail.
Proof.
  intros Hw Hn. destruct n as [|c n]; [contradiction|]. destruct Hn as [Hc _]. assert (Hx : next (w ++ (c :: n) ++ r) c) by (apply (next_ws w c (n ++ r) Hw); now apply id0_not_ws).
  destruct Hx as [u Hu]. unfold p_dnum. rewrite dnum_lv. cbn [lv op_at op_string]. unfold d_level. do 4 apply seq_f. unfold d_atom. rewrite alt_r.
  - apply seq_f. apply (lit_f "(" _ c); [exists u; exact Hu|]. cbn. intros <-. discriminate.
  - apply seq_f. unfold t_dnumber, of_opt. rewrite Hu. unfold raw_dnumber, p_sign. assert (Ascii.eqb c "+" = false /\ Ascii.eqb c "-" = false) as [-> ->] by (split; apply Ascii.eqb_neq; intros ->; discriminate).
    cbn [orb]. unfold p_mantissa. assert (is_digit c = false) as Hd by (now apply id0_not_digit). cbn [span]. rewrite Hd. assert (Ascii.eqb c "." = false) as -> by (apply Ascii.eqb_neq; intros ->; discriminate). reflexivity.
Qed.
Lemma darg_c a s r : darg_text a s -> arg_fol r -> p_darg skip (s ++ r) = POk a r.
Proof.
  destruct a as [n v]. intros (w & w1 & t & -> & Hw & Hn & Hw1 & Hv) Hr. cbn [fst snd] in *. unfold p_darg. reassoc.
  rewrite (seq_c _ _ _ n _ (ident_c w n _ Hw Hn (ws_lit_nidc w1 "=" _ Hw1 eq_refl))), (seq_c _ _ _ tt _ (lit_c "=" w1 _ eq_refl Hw1)). destruct (arg_next r Hr) as [Hh Hk].
  rewrite (seq_c _ _ _ v r); [reflexivity|]. destruct Hv as [e s He|w2 H2|w2 x H2 Hx Hne].
  - apply alt_l, alt_l. now rewrite (seq_c _ _ _ e r (dnum_c e s r He (arg_afol r Hr))).
  - apply alt_l. reassoc. rewrite alt_r.
    + rewrite (seq_c _ _ _ tt r); [reflexivity|]. unfold t_kw, of_opt. rewrite skip_ws by exact H2. change (skip (str "None" ++ r)) with (str "None" ++ r). now rewrite eat_app, Hk.
    + apply seq_f. apply dnum_f_ident; [exact H2|]. split; reflexivity.
  - reassoc. rewrite alt_r.
    + now rewrite (seq_c _ _ _ x r (ident_c w2 x r H2 Hx Hh)).
    + rewrite alt_r; [|apply seq_f; now apply dnum_f_ident]. apply seq_f. unfold t_kw, of_opt. rewrite skip_ws by exact H2. rewrite ident_skip by exact Hx.
      destruct (eat (str "None") (x ++ r)) as [u|] eqn:E; [|reflexivity]. apply eat_sound in E. destruct (prefix_word (str "None") x r u eq_refl (ident_idc x Hx) Hh E) as [[<- _]|(c & y & z & Hc & -> & _)]; [congruence|].
      cbn. now rewrite Hc.
Qed.
Lemma args_c l s r : commas darg_text l s -> (exists w u, r = w ++ str ")" ++ u /\ ws w) -> delimited skip (p_darg skip) (s ++ r) = POk l r.
Proof.
  intros Hl (w & u & -> & Hw). apply (delimited_c (p_darg skip) darg_text arg_fol).
  - exact (proj1 (r_darg skip skip_len (fun t => t))).
  - intros a t v. apply darg_c.
  - intros v t Hv. exists v, ","%char, t. auto.
  - exact Hl.
  - exists w, ")"%char, u. auto.
  - apply (lit_f "," _ ")"); [now apply (next_ws w)|discriminate].
Qed.
Lemma call_c c s r : call_text c s -> p_dist_call skip (s ++ r) = POk c r.
Proof.
  destruct c as [n l]. intros (w & w1 & a & w2 & -> & Hw & Hi & Hw1 & Ha & Hw2). cbn [fst snd] in *. unfold p_dist_call. reassoc.
  rewrite (seq_c _ _ _ n _ (oneof_c preliz_dists w n _ dists_ident Hi Hw (ws_lit_nidc w1 "(" _ Hw1 eq_refl))), (seq_c _ _ _ tt _ (lit_c "(" w1 _ eq_refl Hw1)).
  destruct Ha as [[-> ->]|Ha].
  - rewrite (seq_c _ _ _ None (w2 ++ str ")" ++ r)); [now rewrite (seq_c _ _ _ tt _ (lit_c ")" w2 _ eq_refl Hw2))|]. apply opt_none. unfold delimited. apply seq_f. unfold p_darg. apply seq_f.
    apply (ident_f _ ")"); [now apply (next_ws w2)|reflexivity].
  - rewrite (seq_c _ _ _ (Some l) (w2 ++ str ")" ++ r)); [now rewrite (seq_c _ _ _ tt _ (lit_c ")" w2 _ eq_refl Hw2))|]. apply opt_some. apply args_c; [exact Ha|]. exists w2, r. auto.
Qed.
Lemma disjoint_names n x : In n preliz_dists -> In x preliz_wrappers -> x <> n.
Proof.
  intros Hn Hx ->. assert (G : forallb (fun n => negb (existsb (chars_eqb n) preliz_wrappers)) preliz_dists = true) by (vm_compute; reflexivity).
  pose proof (proj1 (forallb_forall _ _) G n Hn) as H. cbn beta in H. apply negb_true_iff in H. assert (existsb (chars_eqb n) preliz_wrappers = true); [|congruence].
  apply existsb_exists. exists n. split; [exact Hx|]. now apply chars_eqb_eq.
Qed.
Lemma wrapped_f c s r : call_text c s -> p_wrapped skip (s ++ r) = PFail.
Proof.
  destruct c as [n l]. intros (w & w1 & a & w2 & -> & Hw & Hi & Hw1 & Ha & Hw2). cbn [fst snd] in *. unfold p_wrapped. reassoc. set (R := w1 ++ str "(" ++ a ++ w2 ++ str ")" ++ r).
  assert (HR : head_not_idc R) by (now apply (ws_lit_nidc w1 "(")). unfold seq at 1. destruct (p_wrapper_name skip (w ++ n ++ R)) as [x u| | |] eqn:E; try reflexivity;
    try (unfold p_wrapper_name, t_oneof, of_opt in E; destruct (first_of _ _ _) as [[]|]; discriminate).
  apply seq_f. unfold p_wrapper_name, t_oneof, of_opt in E. rewrite skip_ws in E by exact Hw. rewrite ident_skip in E by (now apply dists_ident).
  destruct (first_of eat (longest preliz_wrappers) (n ++ R)) as [[x' u']|] eqn:Ef; [|discriminate]. injection E as <- <-. apply first_s in Ef as [Hx He]. apply (proj1 (longest_In _ _)) in Hx. apply eat_sound in He.
  destruct (prefix_word x' n R u' (ident_idc _ (wrappers_ident _ Hx)) (ident_idc _ (dists_ident _ Hi)) HR He) as [[-> _]|(c & y & z & Hc & -> & _)]; [now apply (disjoint_names n n) in Hi|].
  apply (lit_f "(" _ c); [exists y; apply skip_nonws; now apply idc_not_ws|]. cbn. intros <-. discriminate.
Qed.
Lemma dist_expr_c c wr s r : dist_call_text c wr s -> p_dist_expr skip (s ++ r) = POk (c, wr) r.
Proof.
  intros [c' s' Hc|w x w1 c' s' l a w2 Hw Hx Hw1 Hc Ha Hw2]; unfold p_dist_expr.
  - apply alt_l, alt_l. rewrite alt_r by (now apply (wrapped_f c')). now rewrite (seq_c _ _ _ c' r (call_c c' s' r Hc)).
  - apply alt_l, alt_l, alt_l. unfold p_wrapped. reassoc. rewrite (seq_c _ _ _ x _ (oneof_c preliz_wrappers w x _ wrappers_ident Hx Hw (ws_lit_nidc w1 "(" _ Hw1 eq_refl))).
    rewrite (seq_c _ _ _ tt _ (lit_c "(" w1 _ eq_refl Hw1)), (seq_c _ _ _ c' _ (cut_c _ _ _ _ (call_c c' s' _ Hc))).
    destruct Ha as [[-> ->]|(w3 & a' & -> & H3 & Ha)].
    + rewrite (seq_c _ _ _ None (w2 ++ str ")" ++ r)); [now rewrite (seq_c _ _ _ tt _ (cut_c _ _ _ _ (lit_c ")" w2 _ eq_refl Hw2)))|].
      apply cut_c, opt_none, seq_f. apply (lit_f "," _ ")"); [now apply (next_ws w2)|discriminate].
    + rewrite (seq_c _ _ _ (Some l) (w2 ++ str ")" ++ r)); [now rewrite (seq_c _ _ _ tt _ (cut_c _ _ _ _ (lit_c ")" w2 _ eq_refl Hw2)))|].
      apply cut_c, opt_some. reassoc. rewrite (seq_c _ _ _ tt _ (lit_c "," w3 _ eq_refl H3)). apply args_c; [exact Ha|]. exists w2, r. auto.
Qed.
Lemma init_c {A} (p : parser A) (P : A -> chars -> Prop) i t w r : init_text P i t -> ws w -> (forall a s, P a s -> p (s ++ w ++ str ";" ++ r) = POk a (w ++ str ";" ++ r)) ->
  opt (t_lit skip "=" >> p) (t ++ w ++ str ";" ++ r) = POk i (w ++ str ";" ++ r).
Proof.
  intros Hi Hw Hp. destruct i as [e|]; unfold init_text in Hi.
  - destruct Hi as (v & s & -> & Hv & He). apply opt_some. reassoc. rewrite (seq_c _ _ _ tt _ (lit_c "=" v _ eq_refl Hv)). now apply Hp.
  - subst t. apply opt_none, seq_f. apply (lit_f "=" _ ";"); [now apply (next_ws w)|discriminate].
Qed.
Lemma distribution_c d s r : distribution_text d s -> p_distribution skip (s ++ r) = POk d r.
Proof.
  destruct d as [n nm args wr ini]. intros (w & w1 & c & i & w2 & -> & Hw & Hn & Hw1 & Hc & Hi & Hw2). cbn [rd_par rd_name rd_args rd_wrapper rd_init] in *. unfold p_distribution. reassoc.
  rewrite (seq_c _ _ _ n _ (ident_c w n _ Hw Hn (ws_lit_nidc w1 "~" _ Hw1 eq_refl))), (seq_c _ _ _ tt _ (lit_c "~" w1 _ eq_refl Hw1)).
  rewrite (seq_c _ _ _ _ _ (cut_c _ _ _ _ (dist_expr_c _ wr c _ Hc))). rewrite (seq_c _ _ _ ini (w2 ++ str ";" ++ r)).
  - now rewrite (seq_c _ _ _ tt _ (cut_c _ _ _ _ (lit_c ";" w2 _ eq_refl Hw2))).
  - apply cut_c. apply (init_c _ (arith_text 4)); auto. intros a s9 Ha. apply dnum_c; [exact Ha|]. exists w2, ";"%char, r. auto 6.
Qed.
Lemma shock_c x s1 r : shock_text x s1 -> p_shock_item skip (s1 ++ r) = POk x r.
Proof.
  intros Hx; destruct Hx as [l t w Hl Hw|v t w c i w1 d Hv Hw Hd Hc Hi Hw1]; unfold p_shock_item; reassoc.
  - assert (G : exists v t' rest, t ++ w ++ str ";" ++ r = t' ++ rest /\ varref_text v t' /\
      ((exists l' u w0, l = v :: l' /\ l' <> [] /\ rest = w0 ++ str "," ++ u ++ w ++ str ";" ++ r /\ ws w0 /\ commas varref_text l' u) \/ (l = [v] /\ rest = w ++ str ";" ++ r))).
    { destruct Hl as [a s1 Ha|a s1 w0 l' ss Ha Hw0 Hl']; [exists a, s1, (w ++ str ";" ++ r); auto|]. exists a, s1, (w0 ++ str "," ++ ss ++ w ++ str ";" ++ r). split; [eqs|]. split; [exact Ha|]. left.
      exists l', ss, w0. split; [reflexivity|]. split; [destruct Hl'; discriminate|auto]. }
    destruct G as (v & t' & rest & -> & Hv & G).
    assert (Nt : t_lit skip "~" rest = PFail).
    { destruct G as [(l' & u & w0 & _ & _ & -> & Hw0 & _)|[_ ->]]; [apply (lit_f "~" _ ","); [now apply (next_ws w0)|discriminate]|apply (lit_f "~" _ ";"); [now apply (next_ws w)|discriminate]]. }
    destruct G as [(l' & u & w0 & -> & _ & -> & Hw0 & Hu)|[-> ->]].
    + apply alt_l. rewrite alt_r; [|rewrite (seq_c _ _ _ v _ (varref_c v t' _ Hv)); now apply seq_f].
      rewrite (seq_c _ _ _ v _ (varref_c v t' _ Hv)), (seq_c _ _ _ tt _ (lit_c "," w0 _ eq_refl Hw0)).
      rewrite (seq_c _ _ _ l' (w ++ str ";" ++ r)); [now rewrite (seq_c _ _ _ tt _ (lit_c ";" w _ eq_refl Hw))|].
      apply (delimited_c (p_varref skip) varref_text (fun _ => True)); auto; [exact (proj1 (r_varref skip skip_len (fun t => t)))|intros a s1 q Ha _; now apply varref_c|].
      apply (lit_f "," _ ";"); [now apply (next_ws w)|discriminate].
    + rewrite alt_r; [rewrite (seq_c _ _ _ v _ (varref_c v t' _ Hv)); now rewrite (seq_c _ _ _ tt _ (lit_c ";" w _ eq_refl Hw))|].
      rewrite alt_r; [|rewrite (seq_c _ _ _ v _ (varref_c v t' _ Hv)); now apply seq_f]. rewrite (seq_c _ _ _ v _ (varref_c v t' _ Hv)). apply seq_f. apply (lit_f "," _ ";"); [now apply (next_ws w)|discriminate].
  - apply alt_l, alt_l. destruct d as [n nm args wr ini]. cbn [rd_par rd_name rd_args rd_wrapper rd_init] in *. subst n. rewrite (seq_c _ _ _ v _ (varref_c v t _ Hv)), (seq_c _ _ _ tt _ (lit_c "~" w _ eq_refl Hw)).
    rewrite (seq_c _ _ _ _ _ (dist_expr_c _ wr c _ Hc)). assert (G : exists o, ini = option_map DN o /\ opt (t_lit skip "=" >> t_number skip) (i ++ w1 ++ str ";" ++ r) = POk o (w1 ++ str ";" ++ r)).
    { destruct ini as [e|]; unfold init_text in Hi.
      - destruct Hi as (v1 & s1 & -> & Hv1 & (v2 & tx & -> & -> & Hv2 & Hnl)). exists (Some tx). split; [reflexivity|].
        apply (init_c _ (fun tx s => exists v2, s = v2 ++ tx /\ ws v2 /\ numlit tx)); auto; [exists v1, (v2 ++ tx); eauto 6|].
        intros a s9 (v3 & -> & H3 & H4). reassoc. rewrite number_eq. rewrite p_number_complete; auto. apply wod_of; [now apply (ws_lit_nidc w1 ";")|]. intros x y E ->. destruct w1 as [|z w1]; [discriminate|]. injection E as -> _. discriminate.
      - subst i. exists None. split; [reflexivity|]. apply opt_none, seq_f. apply (lit_f "=" _ ";"); [now apply (next_ws w1)|discriminate]. }
    destruct G as (o & -> & G). rewrite (seq_c _ _ _ o _ G). now rewrite (seq_c _ _ _ tt _ (lit_c ";" w1 _ eq_refl Hw1)).
Qed.
