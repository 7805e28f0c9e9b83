(* Completeness, continued: equations and distributions *)
From Verif Require Import Common Expr_Model Expr_Spec Expr_Lex Expr_Proofs SymDict_Model Gcn_Lex Gcn_Model Gcn_Basic Gcn_Expr Gcn_Grammar Gcn_Sound Gcn_Complete.
Local Open Scope list_scope.
Local Open Scope parser_scope.
Set Default Proof Using "Type".
Ltac reassoc := repeat rewrite <- app_assoc.

Lemma raw_ident_c n r : ident n -> head_not_idc r -> raw_ident (n ++ r) = Some (n, r).
Proof.
  destruct n as [|c n]; [contradiction|]. intros [H1 H2] Hr. cbn. rewrite H1. rewrite span_complete; [reflexivity|exact H2|]. intros d u E. exact (Hr d u E).
Qed.
Lemma tag_of_c n t : map lower n = tag_name t -> tag_of n = Some t.
Proof. unfold tag_of. intros ->. destruct t; reflexivity. Qed.
Lemma tag_c t s r : tag_text t s -> head_not_idc r -> p_tag skip (s ++ r) = POk t r.
Proof.
  intros (w & n & -> & Hw & Hn & Ht) Hr. unfold p_tag. rewrite (seq_c _ _ _ n r); [now rewrite (tag_of_c n t Ht)|]. unfold t_tag_name, of_opt. reassoc. rewrite skip_ws by exact Hw.
  change (skip (str "@" ++ n ++ r)) with (str "@" ++ n ++ r). rewrite eat_app. now rewrite raw_ident_c.
Qed.
Lemma tag_f s c : next s c -> c <> "@"%char -> p_tag skip s = PFail.
Proof.
  intros [r Hr] Hc. unfold p_tag. apply seq_f. unfold t_tag_name, of_opt. rewrite Hr. cbn [str list_ascii_of_string eat]. destruct (Ascii.eqb_spec "@" c); [congruence|reflexivity].
Qed.
Lemma tags_c l t r c : sequence tag_text l t -> detached l r -> next r c -> c <> "@"%char -> many (p_tag skip) (t ++ r) = POk l r.
Proof.
  intros Hs Hd Hn Hc. apply (many_cf (p_tag skip) tag_text head_not_idc); auto.
  - exact (proj1 (r_tag skip skip_len)).
  - intros a s u. apply tag_c.
  - intros a s u (w & n & -> & Hw & _). reassoc. now apply (ws_lit_nidc w "@").
  - intro Hl. destruct Hd as [Hd|Hd]; [congruence|]. intros d u ->. exact Hd.
  - now apply (tag_f r c).
Qed.
Lemma start_neq c d : start_char c -> is_idc d = false -> d <> "."%char -> d <> "("%char -> d <> "-"%char -> d <> c.
Proof. intros [H|[H|[H|H]]] H1 H2 H3 H4 ->; congruence. Qed.
Inductive closing : chars -> Prop :=
| closing_of w c r : ws w -> c = ":"%char \/ c = ";"%char -> closing (w ++ c :: r)
| closing_arrow w r : ws w -> closing (w ++ str "->" ++ r).
Lemma closing_next s : closing s -> exists c, next s c /\ (c = ":"%char \/ c = ";"%char \/ c = "-"%char).
Proof.
  intros [w c r Hw Hc|w r Hw].
  - exists c. split; [apply next_ws; [exact Hw|destruct Hc as [-> | ->]; reflexivity]|tauto].
  - exists "-"%char. split; [now apply (next_ws w)|auto].
Qed.
Section E.
Context {F : Type} (fread : chars -> F).
Lemma start_next e t r : Text fread LAdd e t -> exists c, next (t ++ r) c /\ start_char c.
Proof. intro H. apply (proj1 (text_starts fread)) in H. apply (starts_skip LAdd t r) in H as (c & u & E & Hc & _). exists c. split; [exists u; exact E|exact Hc]. Qed.
Lemma rhs_c e t r : Text fread LAdd e t -> closing r -> p_ex skip fread (t ++ r) = POk e r.
Proof.
  intros Ht [w c u Hw Hc|w u Hw].
  - apply ex_complete; [exact Ht|]. unfold follow_ok. rewrite skip_ws by exact Hw. destruct Hc as [-> | ->]; reflexivity.
  - apply ex_complete_loop; [exact Ht| |]; now apply (arrow_follow fread e).
Qed.
Lemma equation_c e s r : equation_text fread e s -> p_equation skip fread (s ++ r) = POk e r.
Proof.
  intros [ts tt l lt w rr rt m mt c ct w1 Hts Hd Hl Hw Hr Hm Hc Hw1]. reassoc.
  set (R := mt ++ ct ++ w1 ++ str ";" ++ r).
  assert (HC : closing (ct ++ w1 ++ str ";" ++ r)).
  { destruct Hc as [|v v1 n Hv Hv1 Hn]; [apply closing_of; auto|]. reassoc. now apply closing_arrow. }
  assert (HR : closing R).
  { unfold R. destruct Hm as [|v n ti u Hv _]; [exact HC|]. reassoc. apply closing_of; auto. }
  destruct (start_next l lt (w ++ str "=" ++ rt ++ R) Hl) as (cl & Ncl & Scl). destruct (start_next rr rt R Hr) as (cr & Ncr & Scr).
  assert (Ets : many (p_tag skip) (tt ++ lt ++ w ++ str "=" ++ rt ++ R) = POk ts (lt ++ w ++ str "=" ++ rt ++ R)).
  { apply (tags_c ts tt _ cl); auto; [|intro; subst; destruct Scl as [H|[H|[H|H]]]; discriminate]. destruct Hd as [Hd|Hd]; [now left|]. right.
    destruct lt as [|x lt]; [|exact Hd]. exfalso. now apply (text_nonempty fread LAdd l []). }
  assert (El : p_ex skip fread (lt ++ w ++ str "=" ++ rt ++ R) = POk l (w ++ str "=" ++ rt ++ R)).
  { apply ex_complete; [exact Hl|]. unfold follow_ok. rewrite skip_ws by exact Hw. reflexivity. }
  assert (Eq : t_lit skip "=" (w ++ str "=" ++ rt ++ R) = POk Datatypes.tt (rt ++ R)) by (apply lit_c; [reflexivity|exact Hw]).
  assert (Er : p_ex skip fread (rt ++ R) = POk rr R) by (now apply rhs_c).
  destruct (closing_next R HR) as (cR & NR & CR). destruct (closing_next _ HC) as (cC & NC & CC).
  unfold p_equation. rewrite alt_r.
  - unfold valid_equation. rewrite (seq_c _ _ _ _ _ Ets), (seq_c _ _ _ _ _ El), (seq_c _ _ _ _ _ Eq), (seq_c _ _ _ _ _ Er).
    rewrite (seq_c _ _ R None R); [|unfold post_rhs_check; apply opt_none, seq_f; unfold alt; rewrite !(lit_f _ R cR NR); try reflexivity; cbn; intro; subst; intuition discriminate].
    rewrite (seq_c _ _ R m (ct ++ w1 ++ str ";" ++ r)).
    + rewrite (seq_c _ _ (ct ++ w1 ++ str ";" ++ r) c (w1 ++ str ";" ++ r)).
      * rewrite (seq_c _ _ _ Datatypes.tt r (lit_c ";" w1 r eq_refl Hw1)). reflexivity.
      * destruct Hc as [|v v1 n Hv Hv1 Hn].
        { apply opt_none. unfold p_calibrating. apply seq_f. apply (lit_f "->" _ ";"); [now apply (next_ws w1)|discriminate]. }
        apply opt_some. unfold p_calibrating. reassoc. rewrite (seq_c _ _ _ Datatypes.tt _ (lit_c "->" v _ eq_refl Hv)). apply ident_c; auto. now apply (ws_lit_nidc w1 ";").
    + unfold R. destruct Hm as [|v n ti u Hv Hu].
      { apply opt_none. unfold p_multiplier. apply seq_f. destruct Hc as [|v v1 n Hv Hv1 Hn].
        - apply (lit_f ":" _ ";"); [now apply (next_ws w1)|discriminate].
        - apply (lit_f ":" _ "-"); [reassoc; now apply (next_ws v)|discriminate]. }
      apply opt_some. unfold p_multiplier. reassoc. rewrite (seq_c _ _ _ Datatypes.tt _ (lit_c ":" v _ eq_refl Hv)).
      destruct Hu as (w2 & w3 & tx & -> & H2 & Hn & H3 & Ht). cbn [fst snd] in *. reassoc. rewrite (seq_c _ _ _ n _ (ident_c w2 n _ H2 Hn (ws_lit_nidc w3 "[" _ H3 eq_refl))).
      now rewrite (seq_c _ _ _ ti _ (tix_c w3 ti tx _ H3 Ht)).
  - rewrite alt_r.
    + unfold missing_equals. rewrite (seq_c _ _ _ _ _ Ets), (seq_c _ _ _ _ _ El). apply seq_f. unfold nota. now rewrite Eq.
    + rewrite alt_r.
      * unfold missing_rhs. rewrite (seq_c _ _ _ _ _ Ets), (seq_c _ _ _ _ _ El), (seq_c _ _ _ _ _ Eq). apply seq_f, peek_f. unfold alt.
        rewrite !(lit_f _ _ cr Ncr); try reflexivity; apply start_neq; auto; discriminate.
      * unfold missing_lhs. rewrite (seq_c _ _ _ _ _ Ets). apply seq_f, peek_f. apply (lit_f _ _ cl Ncl). apply start_neq; auto; discriminate.
Qed.
End E.
(* ---- arithmetic in distributions ---- *)
Definition afol (n : nat) (s : chars) : Prop :=
  exists w c r, s = w ++ c :: r /\ ws w /\ (c = ","%char \/ c = ")"%char \/ c = ";"%char \/ c = "="%char \/ exists o, [c] = dop_text o /\ n < dop_level o).
Lemma afol_char n c : (c = ","%char \/ c = ")"%char \/ c = ";"%char \/ c = "="%char \/ exists o, [c] = dop_text o /\ n < dop_level o) -> is_idc c = false /\ c <> "."%char /\ is_ws c = false /\ c <> "$"%char.
Proof. intros [-> |[-> |[-> |[-> |(o & H & _)]]]]; [repeat split; discriminate..|]. destruct o; injection H as ->; repeat split; discriminate. Qed.
Lemma afol_op n o s : afol n s -> dop_level o <= n -> forall w, str w = dop_text o -> t_lit skip w s = PFail.
Proof.
  intros (w & c & r & -> & Hw & Hc) Hl x Hx. apply (lit_f x _ c); [apply next_ws; [exact Hw|apply (afol_char n c Hc)]|]. rewrite Hx.
  destruct Hc as [-> |[-> |[-> |[-> |(o' & H & Ho)]]]]; [destruct o; discriminate..|]. assert (o <> o') by (intros ->; lia). destruct o', o; try congruence; injection H as ->; discriminate.
Qed.
Lemma afol_head n s : afol n s -> head_not_idc s /\ (forall c r, s = c :: r -> c <> "."%char).
Proof.
  intros (w & c & r & -> & Hw & Hc). destruct (afol_char n c Hc) as (H1 & H2 & H3 & _). split; [now apply ws_eq_nidc|]. intros d u E. destruct w as [|x w]; injection E as -> _; [exact H2|].
  cbn in Hw. intros ->. discriminate.
Qed.
Lemma afol_weak n m s : n <= m -> afol m s -> afol n s.
Proof. intros H (w & c & r & -> & Hw & Hc). exists w, c, r. split; [reflexivity|]. split; [exact Hw|]. destruct Hc as [Hc|[Hc|[Hc|[Hc|(o & H1 & H2)]]]]; auto 6. do 4 right. exists o. split; [exact H1|lia]. Qed.
Lemma sign_c sg m r : sg = [] \/ sg = str "+" \/ sg = str "-" -> (exists c u, m = c :: u /\ (is_digit c = true \/ c = "."%char)) -> p_sign (sg ++ m ++ r) = (sg, m ++ r).
Proof.
  intros [-> |[-> | ->]] (c & u & -> & Hc); [|reflexivity..]. cbn. assert (Ascii.eqb c "+" = false /\ Ascii.eqb c "-" = false) as [-> ->]; [|reflexivity].
  split; apply Ascii.eqb_neq; intros ->; destruct Hc; discriminate.
Qed.
Lemma wod_of s : head_not_idc s -> (forall c r, s = c :: r -> c <> "."%char) -> word_or_dot s = false.
Proof. intros H1 H2. destruct s as [|c r]; [reflexivity|]. cbn. rewrite (H1 c r eq_refl). destruct (Ascii.eqb_spec c "."); [exfalso; now apply (H2 c r)|reflexivity]. Qed.
Lemma dnumber_c w t s n : ws w -> dnumber t -> afol n s -> t_dnumber skip (w ++ t ++ s) = POk t s.
Proof.
  intros Hw Ht Hs. apply afol_head in Hs as [H1 H2]. pose proof (wod_of s H1 H2) as Hwd. unfold t_dnumber, of_opt. rewrite skip_ws by exact Hw.
  assert (G : forall sg m ex, sg = [] \/ sg = str "+" \/ sg = str "-" -> mantissa m -> exponent ex -> (match m with c :: _ => Ascii.eqb c "." = true -> ex = [] | [] => True end) ->
    raw_dnumber (skip ((sg ++ m ++ ex) ++ s)) = Some (sg ++ m ++ ex, s)).
  { clear t Ht. intros sg m ex Hsg Hm Hex Hdot. pose proof (mantissa_head m Hm) as Hh. reassoc.
    assert (skip (sg ++ m ++ ex ++ s) = sg ++ m ++ ex ++ s) as ->.
    { destruct Hsg as [-> |[-> | ->]]; [|reflexivity..]. destruct Hh as (c & u & -> & Hc). cbn [app]. apply skip_nonws. now apply numhead_not_ws. }
    unfold raw_dnumber. rewrite sign_c by auto. rewrite p_mantissa_complete; [|exact Hm|..].
    - destruct m as [|c m]; [destruct Hh as (? & ? & H & _); discriminate|]. destruct (Ascii.eqb c ".") eqn:Ec; [rewrite (Hdot eq_refl); rewrite app_nil_r; reflexivity|]. now rewrite p_exponent_complete.
    - exact (exponent_head_nd ex s Hex Hwd).
    - exact (exponent_head_ndot ex s Hex Hwd). }
  destruct Ht as [sg d ex Hsg Hd Hex|sg d1 d2 ex Hsg Hd1 Hd2 Hex|sg d Hsg Hd].
  - rewrite G; auto; [now constructor|]. destruct Hd as [_ Hd]. destruct d as [|c d]; [exact I|]. cbn in Hd. intro E. apply Ascii.eqb_eq in E as ->. discriminate.
  - replace (sg ++ d1 ++ str "." ++ d2 ++ ex) with (sg ++ (d1 ++ "."%char :: d2) ++ ex) by eqs. rewrite G; auto; [now constructor|]. destruct Hd1 as [Hn Hd1].
    destruct d1 as [|c d1]; [congruence|]. cbn in Hd1 |- *. intro E. apply Ascii.eqb_eq in E as ->. discriminate.
  - replace (sg ++ str "." ++ d) with (sg ++ ("."%char :: d) ++ []) by (now rewrite app_nil_r). rewrite G; auto; [now constructor|constructor].
Qed.
