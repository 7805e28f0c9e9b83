(* Completeness, continued: special blocks and files; the parser accepts exactly the grammar *)
From Verif Require Import Common Expr_Model Expr_Spec Expr_Lex Expr_Proofs SymDict_Model Gcn_Lex Gcn_Model Gcn_Spec Gcn_Basic Gcn_Expr Gcn_Proofs Gcn_Grammar Gcn_Sound Gcn_Complete Gcn_Complete2 Gcn_Complete3 Gcn_Complete4.
Local Open Scope list_scope.
Local Open Scope parser_scope.
Set Default Proof Using "Type".

Lemma raw_ident_f s : match s with c :: _ => is_id0 c = false | [] => True end -> raw_ident s = None.
Proof. destruct s as [|c s]; [reflexivity|]. cbn. now intros ->. Qed.
(* what follows the words of an option's name *)
Definition wfol (s : chars) : Prop := exists w r, s = w ++ str "=" ++ r /\ ws w.
Lemma wfol_nidc s : wfol s -> head_not_idc s.
Proof. intros (w & r & -> & Hw). now apply (ws_lit_nidc w "="). Qed.
Lemma wfol_words s n : wfol s -> raw_words n s = ([], s).
Proof.
  intros (w & r & -> & Hw). destruct n as [|n]; [reflexivity|]. cbn [raw_words]. destruct (span (Ascii.eqb " ") (w ++ str "=" ++ r)) as [sp u] eqn:E. destruct sp as [|c sp]; [reflexivity|].
  pose proof E as E0. apply span_sound in E as (E & Hs & _). rewrite raw_ident_f; [reflexivity|]. clear E0.
  assert (G : forall w sp u, ws w -> w ++ str "=" ++ r = sp ++ u -> forallb (Ascii.eqb " ") sp = true -> match u with c :: _ => is_id0 c = false | [] => True end).
  { clear. induction w as [|x w IH]; intros sp u Hw E Hs.
    - destruct sp as [|y sp]; [destruct u as [|c u]; [exact I|]; injection E as <- _; reflexivity|]. injection E as <- _. discriminate Hs.
    - cbn in Hw. apply andb_true_iff in Hw as [Hx Hw]. destruct sp as [|y sp]; [destruct u as [|c u]; [exact I|]; injection E as <- _; destruct (is_id0 x) eqn:E; [apply id0_not_ws in E; congruence|reflexivity]|].
      injection E as -> E. cbn in Hs. apply andb_true_iff in Hs as [_ Hs]. now apply (IH sp u Hw E Hs). }
  exact (G w (c :: sp) u Hw E Hs).
Qed.
Lemma words_split s : words s -> exists n x, s = n ++ x /\ ident n /\ (x = [] \/ exists sp s', x = sp ++ s' /\ sp <> [] /\ forallb (Ascii.eqb " ") sp = true /\ words s').
Proof. intros [n Hn|n sp s' Hn Hne Hs Hw]; [exists n, []; rewrite app_nil_r; auto|exists n, (sp ++ s'); split; [reflexivity|]; split; [exact Hn|right; eauto 6]]. Qed.
Lemma raw_words_c s : words s -> forall n x r, s = n ++ x -> ident n -> (x = [] \/ exists sp s', x = sp ++ s' /\ sp <> [] /\ forallb (Ascii.eqb " ") sp = true /\ words s') ->
  forall k, length x <= k -> wfol r -> raw_words k (x ++ r) = (x, r) /\ head_not_idc (x ++ r).
Proof.
  intros _. intros n x r _ _ Hx k. revert k r. 
  assert (G : forall m x, length x <= m -> (x = [] \/ exists sp s', x = sp ++ s' /\ sp <> [] /\ forallb (Ascii.eqb " ") sp = true /\ words s') ->
    forall k r, length x <= k -> wfol r -> raw_words k (x ++ r) = (x, r) /\ head_not_idc (x ++ r)).
  { clear. induction m as [|m IH]; intros x Hm Hx k r Hk Hr.
    - destruct x; [|cbn in Hm; lia]. cbn [app]. split; [now apply wfol_words|now apply wfol_nidc].
    - destruct Hx as [-> |(sp & s' & -> & Hne & Hsp & Hw)]; [cbn [app]; split; [now apply wfol_words|now apply wfol_nidc]|].
      destruct sp as [|c sp]; [congruence|]. assert (Hc : Ascii.eqb " " c = true) by (cbn in Hsp; now apply andb_true_iff in Hsp as [? _]). apply Ascii.eqb_eq in Hc. subst c. split.
      + destruct k as [|k]; [cbn in Hk; lia|]. cbn [raw_words]. destruct (words_split s' Hw) as (n & x & -> & Hn & Hx).
        rewrite !app_length in *. assert (Lx : length x <= m) by (destruct n; [contradiction|]; cbn in Hm; lia). assert (Lk : length x <= k) by (destruct n; [contradiction|]; cbn in Hk; lia).
        destruct (IH x Lx Hx k r Lk Hr) as [E1 E2]. rewrite <- app_assoc. rewrite span_complete; [|exact Hsp|]. 
        * rewrite <- app_assoc. rewrite (raw_ident_c n (x ++ r) Hn E2). rewrite E1. reflexivity.
        * rewrite <- app_assoc. destruct n as [|d n]; [contradiction|]. intros e u E. injection E as <- _. destruct Hn as [Hd _]. destruct (Ascii.eqb_spec " " d) as [<-|]; [discriminate Hd|reflexivity].
      + intros d u E. injection E as <- _. reflexivity. }
  intros k r Hk Hr. now apply (G (length x)).
Qed.
Lemma option_key_c w n r : ws w -> words n -> wfol r -> t_option_key skip (w ++ n ++ r) = POk n r.
Proof.
  intros Hw Hn Hr. destruct (words_split n Hn) as (m & x & -> & Hm & Hx). unfold t_option_key, of_opt. rewrite skip_ws by exact Hw. rewrite <- app_assoc. rewrite ident_skip by exact Hm.
  destruct (raw_words_c (m ++ x) Hn m x r eq_refl Hm Hx (length (x ++ r))) as [E1 E2]; [rewrite app_length; lia|exact Hr|]. now rewrite raw_ident_c, E1 by assumption.
Qed.
Lemma value_c v s w r : optval_text v s -> ws w -> forall w2, ws w2 -> p_option_value skip (w2 ++ s ++ w ++ str ";" ++ r) = POk v (w ++ str ";" ++ r).
Proof.
  intros Hv Hw w2 Hw2. assert (Hend : kw_end (w ++ str ";" ++ r) = true) by (now apply (kw_end_ws w ";")). assert (Hh : head_not_idc (w ++ str ";" ++ r)) by (now apply (ws_lit_nidc w ";")).
  unfold p_option_value. destruct Hv as [k Hk|k Hk|n Hn H1 H2].
  - apply alt_l, alt_l. now rewrite (seq_c _ _ _ tt _ (kwc_c "TRUE" w2 k _ Hw2 eq_refl Hk Hend)).
  - apply alt_l. rewrite alt_r; [now rewrite (seq_c _ _ _ tt _ (kwc_c "FALSE" w2 k _ Hw2 eq_refl Hk Hend))|]. apply seq_f. apply (kwc_other "TRUE" "FALSE"); auto; [reflexivity|reflexivity|reflexivity|vm_compute; discriminate].
  - assert (K : forall kw, word kw -> ~ keyword kw n -> t_kwc skip kw (w2 ++ n ++ w ++ str ";" ++ r) = PFail).
    { intros kw Hkw Hnk. unfold t_kwc, of_opt. rewrite skip_ws, ident_skip by assumption. destruct (eat_ci (str kw) (n ++ w ++ str ";" ++ r)) as [u|] eqn:E; [|reflexivity].
      apply eat_ci_s in E as (k2 & E & Hk2). destruct (prefix_word k2 n _ u (lower_word _ _ Hk2 Hkw) (ident_idc n Hn) Hh E) as [[-> _]|(c & y & z & Hc & -> & _)]; [contradiction|]. cbn. now rewrite Hc. }
    rewrite alt_r; [now rewrite (seq_c _ _ _ n _ (ident_c w2 n _ Hw2 Hn Hh))|]. rewrite alt_r; apply seq_f; apply K; auto; reflexivity.
Qed.
Lemma option_c o s r : option_text o s -> p_option_entry skip (s ++ r) = POk o r.
Proof.
  destruct o as [k v]. intros (w & w1 & w2 & t & w3 & -> & Hw & Hk & Hw1 & Hw2 & Hv & Hw3). cbn [fst snd] in *. reassoc. unfold p_option_entry.
  rewrite (seq_c _ _ _ k (w1 ++ str "=" ++ w2 ++ t ++ w3 ++ str ";" ++ r)); [|apply option_key_c; auto; exists w1, (w2 ++ t ++ w3 ++ str ";" ++ r); auto].
  rewrite (seq_c _ _ _ tt _ (cut_c _ _ _ _ (lit_c "=" w1 _ eq_refl Hw1))), (seq_c _ _ _ v _ (cut_c _ _ _ _ (value_c v t w3 r Hv Hw3 w2 Hw2))).
  now rewrite (seq_c _ _ _ tt _ (cut_c _ _ _ _ (lit_c ";" w3 _ eq_refl Hw3))).
Qed.
Lemma option_rb s : next s "}" -> p_option_entry skip s = PFail.
Proof. intros [r Hr]. unfold p_option_entry. apply seq_f. unfold t_option_key, of_opt. now rewrite Hr. Qed.
(* ---- assumptions ---- *)
Definition afol2 (s : chars) : Prop := exists w c r, s = w ++ c :: r /\ ws w /\ (c = ","%char \/ c = ";"%char).
Lemma assumption_item_c n s r : assumption_item_text n s -> afol2 r -> p_assumption_item skip (s ++ r) = POk n r.
Proof.
  intros Hn (w1 & c & u & -> & Hw1 & Hc). unfold p_assumption_item. destruct Hn as [[t Hv]|(w & -> & Hw & Hn)].
  - apply alt_l. now rewrite (seq_c _ _ _ (n, t) _ (varref_c (n, t) s _ Hv)).
  - reassoc. assert (Hh : head_not_idc (w1 ++ c :: u)) by (apply ws_eq_nidc; [exact Hw1|destruct Hc as [-> | ->]; reflexivity]). rewrite alt_r; [now apply ident_c|]. unfold p_varref. apply seq_f.
    rewrite (seq_c _ _ _ n _ (ident_c w n _ Hw Hn Hh)). apply seq_f. unfold p_tix. apply seq_f. apply (lit_f "[" _ c); [apply next_ws; [exact Hw1|]|]; destruct Hc as [-> | ->]; (reflexivity || discriminate).
Qed.
Lemma assumptions_ident m : In m gcn_assumptions -> ident m /\ map lower m = m.
Proof.
  intro H. split; [revert m H; apply all_ident; vm_compute; reflexivity|]. assert (G : forallb (fun m => chars_eqb (map lower m) m) gcn_assumptions = true) by (vm_compute; reflexivity).
  apply chars_eqb_eq. exact (proj1 (forallb_forall _ _) G m H).
Qed.
Lemma subblock_c a s r : subblock_text a s -> p_subblock skip (s ++ r) = POk a r.
Proof.
  destruct a as [n l]. intros (w & k & w1 & t & w2 & w3 & w4 & -> & Hw & Hi & Hk & Hw1 & Hl & Hw2 & Hw3 & Hw4). cbn [fst snd] in *. reassoc. unfold p_subblock. apply alt_l.
  rewrite (seq_c _ _ _ n _ (oneof_ci_c gcn_assumptions w k n _ assumptions_ident Hi Hk Hw (ws_lit_nidc w1 "{" _ Hw1 eq_refl))).
  rewrite (seq_c _ _ _ tt _ (cut_c _ _ _ _ (lit_c "{" w1 _ eq_refl Hw1))).
  assert (Hd : delimited skip (p_assumption_item skip) (t ++ w2 ++ str ";" ++ w3 ++ str "}" ++ w4 ++ str ";" ++ r) = POk l (w2 ++ str ";" ++ w3 ++ str "}" ++ w4 ++ str ";" ++ r)).
  { apply (delimited_c (p_assumption_item skip) assumption_item_text afol2).
    - exact (proj1 (proj2 (r_special_parts skip skip_len (fun t => t)))).
    - intros; now apply assumption_item_c.
    - intros v u Hv. exists v, ","%char, u. auto.
    - exact Hl.
    - exists w2, ";"%char, (w3 ++ str "}" ++ w4 ++ str ";" ++ r). auto.
    - apply (lit_f "," _ ";"); [now apply (next_ws w2)|discriminate]. }
  rewrite (seq_c _ _ _ l _ (cut_c _ _ _ _ Hd)), (seq_c _ _ _ tt _ (cut_c _ _ _ _ (lit_c ";" w2 _ eq_refl Hw2))), (seq_c _ _ _ tt _ (cut_c _ _ _ _ (lit_c "}" w3 _ eq_refl Hw3))).
  now rewrite (seq_c _ _ _ tt _ (cut_c _ _ _ _ (lit_c ";" w4 _ eq_refl Hw4))).
Qed.
Lemma subblock_rb s : next s "}" -> p_subblock skip s = PFail.
Proof.
  intro H. unfold p_subblock. rewrite alt_r; apply seq_f; [now apply (ident_f s "}")|]. apply (oneof_ci_f _ s "}"); [|exact H|reflexivity]. intros m Hm. now apply assumptions_ident.
Qed.
Ltac other H := rewrite alt_r; [|eapply braces_f; [exact H|reflexivity|reflexivity|reflexivity|vm_compute; discriminate]].
Lemma special_c x s r : special_text x s -> p_special skip (s ++ r) = POk x r.
Proof.
  intro Hx. unfold p_special, p_options, p_tryreduce, p_assumptions. destruct Hx as [l b t Hl Hb|l b t Hl Hb|l b t Hl Hb].
  - do 2 apply alt_l. apply (braces_c "options" _ _ l b); [reflexivity|exact Hb|].
    apply (many_body _ option_text); [exact (proj1 (r_special_parts skip skip_len (fun t => t)))|intros; now apply option_c|apply option_rb|exact Hl].
  - apply alt_l. other Hb. apply (braces_c "tryreduce" _ (fun v => STryreduce (map fst v)) l b); [reflexivity|exact Hb|intros; now apply optvars_c].
  - rewrite alt_r; [|other Hb; eapply braces_f; [exact Hb|reflexivity|reflexivity|reflexivity|vm_compute; discriminate]].
    apply (braces_c "assumptions" _ _ l b); [reflexivity|exact Hb|].
    apply (many_body _ subblock_text); [exact (proj2 (proj2 (r_special_parts skip skip_len (fun t => t))))|intros; now apply subblock_c|apply subblock_rb|exact Hl].
Qed.
(* ---- files ---- *)
Section E.
Context {F : Type} (fread : chars -> F).
Lemma block_other b s r kw {B} (q : parser B) : block_text fread b s -> word kw -> map lower (str kw) <> map lower (str "block") -> (t_kwc skip kw >> q) (s ++ r) = PFail.
Proof.
  intros (w & k & w1 & w2 & body & w3 & w4 & -> & Hw & Hk & Hw1 & Hne & _) H1 H2. reassoc. apply seq_f. apply (kwc_other kw "block"); auto; [reflexivity|reflexivity|].
  destruct w1 as [|c w1]; [congruence|]. cbn in Hw1. apply andb_true_iff in Hw1 as [Hc _]. intros d u E. injection E as <- _. destruct (is_idc c) eqn:Ec; [apply idc_not_ws in Ec; congruence|reflexivity].
Qed.
Lemma kwc_alone kw s : @seq unit unit (t_kwc skip kw) (fun _ => ret tt) s = PFail -> t_kwc skip kw s = PFail.
Proof. unfold seq, t_kwc, of_opt. destruct (eat_ci (str kw) (skip s)) as [r|]; [|reflexivity]. destruct (kw_end r); [discriminate|reflexivity]. Qed.
Lemma special_block b s r : block_text fread b s -> p_special skip (s ++ r) = PFail.
Proof.
  intro H. unfold p_special, p_options, p_tryreduce, p_assumptions. repeat (rewrite alt_r); eapply block_other; [exact H|reflexivity|vm_compute; discriminate|exact H|reflexivity|vm_compute; discriminate|exact H|reflexivity|vm_compute; discriminate].
Qed.
Lemma top_c b s r : block_text fread b s -> p_top skip fread (s ++ r) = POk b r.
Proof.
  intro H. unfold p_top. rewrite alt_r; [now apply block_c|]. apply seq_f. unfold component_keyword.
  repeat (rewrite alt_r); apply kwc_alone; eapply block_other; first [exact H | reflexivity | vm_compute; discriminate].
Qed.
Lemma skip_all w : ws w -> skip w = [].
Proof. intro H. rewrite <- (app_nil_r w). now rewrite skip_ws. Qed.
Lemma top_end w : ws w -> p_top skip fread w = PFail.
Proof.
  intro H. assert (K : forall kw, str kw <> [] -> t_kwc skip kw w = PFail). { intros kw Hk. unfold t_kwc, of_opt. rewrite skip_all by exact H. destruct (str kw); [congruence|reflexivity]. }
  unfold p_top, p_block, component_keyword. rewrite alt_r; apply seq_f; [apply K; discriminate|]. repeat (rewrite alt_r); apply K; discriminate.
Qed.
Lemma end_c w : ws w -> t_end skip w = POk tt [].
Proof. intro H. unfold t_end. now rewrite skip_all. Qed.
Lemma file_c x s : file_text fread x s -> p_file skip fread s = POk x [].
Proof.
  destruct x as [sp bs]. intros (t1 & t2 & w & -> & H1 & H2 & Hne & Hw). cbn [fst snd] in *. unfold p_file. destruct H2 as [|b s bs ss Hb Hbs]; [congruence|]. reassoc.
  rewrite (seq_c _ _ _ sp (s ++ ss ++ w)); [|apply (many_c _ special_text); auto; [exact (proj1 (r_special skip skip_len (fun t => t)))|intros; now apply special_c|now apply (special_block b)]].
  rewrite (seq_c _ _ _ b _ (top_c b s _ Hb)). rewrite (seq_c _ _ _ bs w); [now rewrite (seq_c _ _ _ tt _ (end_c w Hw))|].
  apply (many_c _ (block_text fread)); auto; [exact (proj1 (r_top skip skip_len fread))|intros; now apply top_c|now apply top_end].
Qed.
Lemma full_c {A} (p : parser A) a t w : p (t ++ w) = POk a w -> ws w -> (x <~ p ; t_end skip >> ret x) (t ++ w) = POk a [].
Proof. intros H Hw. rewrite (seq_c _ _ _ a w H). now rewrite (seq_c _ _ _ tt _ (end_c w Hw)). Qed.
End E.
