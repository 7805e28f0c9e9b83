(* A successful parse consumes a segment in which every visible '[' is followed by a visible ']'. *)
From Verif Require Import Common Expr_Model Expr_Spec Expr_Lex SymDict_Model Gcn_Lex Gcn_Model Gcn_Spec Gcn_Basic Gcn_Sim Gcn_Layout.
Local Open Scope list_scope.
Local Open Scope parser_scope.

Definition bal {A} (p : parser A) : Prop := forall s a r, p s = POk a r -> exists u, codes s = u ++ codes r /\ closed u.
Definition nok {A} (p : parser A) : Prop := forall s a r, p s <> POk a r.
Definition eats {A} (p : parser A) (w : chars) : Prop := forall s a r, p s = POk a r -> codes s = w ++ codes r.
Lemma nok_fatal {A} : nok (@fatal A). Proof. discriminate. Qed.
Lemma nok_seq {A B} (p : parser A) (k : A -> parser B) : (forall a, nok (k a)) -> nok (seq p k).
Proof. intros H s a r. unfold seq. destruct (p s); try discriminate. apply H. Qed.
Lemma bal_nok {A} (p : parser A) : nok p -> bal p. Proof. intros H s a r E. now apply H in E. Qed.
Lemma bal_ret {A} (a : A) : bal (ret a). Proof. intros s b r H. injection H as <- <-. exists []. split; [reflexivity|apply closed_nil]. Qed.
Lemma bal_seq {A B} (p : parser A) (k : A -> parser B) : bal p -> (forall a, bal (k a)) -> bal (seq p k).
Proof.
  intros Hp Hk s a r H. unfold seq in H. destruct (p s) as [x r'| | |] eqn:E; try discriminate.
  destruct (Hp _ _ _ E) as (u & -> & Hu). destruct (Hk _ _ _ _ H) as (v & -> & Hv). exists (u ++ v). split; [now rewrite app_assoc|now apply closed_app].
Qed.
Lemma bal_cut {A} (p : parser A) : bal p -> bal (cut p).
Proof. intros H s a r E. apply (H s a r). unfold cut in E. destruct (p s); congruence. Qed.
Lemma bal_alt {A} (p q : parser A) : bal p -> bal q -> bal (alt p q).
Proof.
  intros Hp Hq s a r E. unfold alt in E. destruct (p s) as [x y| | |] eqn:Ep; try discriminate; [injection E as <- <-; exact (Hp _ _ _ Ep)|exact (Hq _ _ _ E)].
Qed.
Lemma bal_opt {A} (p : parser A) : bal p -> bal (opt p).
Proof.
  intros H s a r E. unfold opt in E. destruct (p s) as [x y| | |] eqn:Ep; try discriminate; injection E as <- <-; [exact (H _ _ _ Ep)|].
  exists []. split; [reflexivity|apply closed_nil].
Qed.
Lemma bal_peek {A} (p : parser A) : bal (peek p).
Proof. intros s a r E. unfold peek in E. destruct (p s); try discriminate. injection E as <- <-. exists []. split; [reflexivity|apply closed_nil]. Qed.
Lemma bal_nota {A} (p : parser A) : bal (nota p).
Proof. intros s a r E. unfold nota in E. destruct (p s); try discriminate; injection E as <- <-; exists []; (split; [reflexivity|apply closed_nil]). Qed.
Lemma bal_many {A} (p : parser A) : bal p -> bal (many p).
Proof.
  intros H s. unfold many. generalize (S (length s)). intro n. revert s. induction n as [|n IH]; intros s a r E; cbn [many_f] in E; [discriminate|].
  destruct (p s) as [x r'| | |] eqn:Ep; try discriminate.
  - destruct (many_f n p r') as [l r''| | |] eqn:Em; try discriminate. injection E as <- <-.
    destruct (H _ _ _ Ep) as (u & -> & Hu). destruct (IH _ _ _ Em) as (v & -> & Hv). exists (u ++ v). split; [now rewrite app_assoc|now apply closed_app].
  - injection E as <- <-. exists []. split; [reflexivity|apply closed_nil].
Qed.

(* ---- tokens ---- *)
Definition plain (c : ascii) : bool := code c && negb (Ascii.eqb c "[").
Lemma codes_app u r : forallb code u = true -> codes (u ++ r) = u ++ codes r.
Proof. induction u as [|c u IH]; intro H; [reflexivity|]. cbn in H. apply andb_true_iff in H as [H1 H2]. cbn [app]. rewrite codes_code by exact H1. now rewrite IH. Qed.
Lemma plain_code u : forallb plain u = true -> forallb code u = true.
Proof. intro H. apply forallb_forall. intros x Hx. apply (proj1 (forallb_forall _ _) H) in Hx. now apply andb_true_iff in Hx as [? _]. Qed.
Lemma plain_closed u : forallb plain u = true -> closed u.
Proof. intro H. apply closed_none. intro Hx. now apply (proj1 (forallb_forall _ _) H) in Hx. Qed.
Lemma plain_sub (f : ascii -> bool) u : (forall c, f c = true -> plain c = true) -> forallb f u = true -> forallb plain u = true.
Proof. intros H Hu. apply forallb_forall. intros x Hx. apply H. now apply (proj1 (forallb_forall _ _) Hu). Qed.
Lemma plain_app u v : forallb plain (u ++ v) = (forallb plain u && forallb plain v)%bool. Proof. apply forallb_app. Qed.
Lemma idc_plain c : is_idc c = true -> plain c = true.
Proof. destruct c as [[] [] [] [] [] [] [] []]; cbn; intro H; try discriminate H; reflexivity. Qed.
Lemma digit_plain c : is_digit c = true -> plain c = true.
Proof. intro H. apply idc_plain. unfold is_idc. rewrite H. apply orb_true_r. Qed.
Lemma id0_plain c : is_id0 c = true -> plain c = true.
Proof. intro H. apply idc_plain. unfold is_idc. now rewrite H. Qed.
Lemma lower_plain c d : plain c = true -> Ascii.eqb (lower c) (lower d) = true -> plain d = true.
Proof.
  intros Hc E. destruct (plain d) eqn:Hd; [reflexivity|]. exfalso.
  assert (Hd' : In d [" "; "010"; "009"; "013"; "#"; "["]%char).
  { unfold plain in Hd. apply andb_false_iff in Hd as [Hd|Hd]; [apply noncode_cases in Hd; cbn in *; tauto|]. apply negb_false_iff, Ascii.eqb_eq in Hd. subst. cbn. tauto. }
  cbn [In] in Hd'. repeat (destruct Hd' as [<-|Hd']); try contradiction; destruct c as [[] [] [] [] [] [] [] []]; discriminate E || discriminate Hc.
Qed.
Definition rawp {A} (f : chars -> option (A * chars)) : Prop := forall s a r, f s = Some (a, r) -> exists u, s = u ++ r /\ forallb plain u = true.
Lemma bal_rawp {A} (f : chars -> option (A * chars)) : rawp f -> bal (of_opt (fun s => f (skipc s))).
Proof.
  intros H s a r E. unfold of_opt in E. destruct (f (skipc s)) as [[x r']|] eqn:Ef; [|discriminate]. injection E as <- <-.
  destruct (H _ _ _ Ef) as (u & Eu & Hu). exists u. split; [|now apply plain_closed]. rewrite <- codes_skipc, Eu. now apply codes_app, plain_code.
Qed.
Lemma bal_lit w : forallb plain (str w) = true -> bal (t_lit skipc w).
Proof.
  intro Hw. apply (bal_rawp (fun s => match eat (str w) s with Some r => Some (tt, r) | None => None end)). intros s a r H.
  destruct (eat (str w) s) eqn:E; [|discriminate]. injection H as <- <-. apply eat_sound in E. eauto.
Qed.
Lemma rawp_ident : rawp raw_ident.
Proof.
  intros s a r H. unfold raw_ident in H. destruct s as [|c s]; [discriminate|]. destruct (is_id0 c) eqn:Ei; [|discriminate].
  destruct (span is_idc s) as [x y] eqn:E. injection H as <- <-. apply span_sound in E as (-> & Hx & _). exists (c :: x). split; [reflexivity|].
  cbn. rewrite (id0_plain c Ei). cbn. now apply (plain_sub is_idc); [apply idc_plain|].
Qed.
Lemma bal_ident : bal (t_ident skipc). Proof. apply bal_rawp, rawp_ident. Qed.
Lemma plain_digits d : forallb is_digit d = true -> forallb plain d = true.
Proof. apply plain_sub, digit_plain. Qed.
Lemma plain_mantissa m : mantissa m -> forallb plain m = true.
Proof.
  intros [d [_ H]|d1 d2 [_ H1] H2|d [_ H]]; rewrite ?forallb_app; cbn; rewrite ?plain_digits by assumption; reflexivity.
Qed.
Lemma plain_exponent e : exponent e -> forallb plain e = true.
Proof.
  intros H. destruct H as [|c sg d Hc Hsg [_ Hd]]; [reflexivity|]. cbn. rewrite forallb_app, (plain_digits d Hd), andb_true_r.
  destruct Hc as [-> | ->]; destruct Hsg as [-> |[-> | ->]]; reflexivity.
Qed.
Lemma rawp_number : rawp raw_number.
Proof.
  intros s a r H. unfold raw_number in H. destruct (p_mantissa s) as [[m r1]|] eqn:E; [|discriminate]. destruct (p_exponent r1) as [ex r2] eqn:E2.
  destruct (word_or_dot r2); [discriminate|]. injection H as <- <-. apply p_mantissa_sound in E as [-> Hm]. apply p_exponent_sound in E2 as [-> He].
  exists (m ++ ex). split; [now rewrite app_assoc|]. now rewrite forallb_app, plain_mantissa, plain_exponent.
Qed.
Lemma sign_plain s a r : p_sign s = (a, r) -> s = a ++ r /\ forallb plain a = true.
Proof.
  unfold p_sign. destruct s as [|c s]; intro H; [injection H as <- <-; auto|]. destruct (_ || _)%bool eqn:E; injection H as <- <-; [|auto].
  split; [reflexivity|]. apply orb_true_iff in E as [E|E]; apply Ascii.eqb_eq in E as ->; reflexivity.
Qed.
Lemma rawp_dnumber : rawp raw_dnumber.
Proof.
  intros s a r H. unfold raw_dnumber in H. destruct (p_sign s) as [sg r0] eqn:E0. apply sign_plain in E0 as [-> H0].
  destruct (p_mantissa r0) as [[m r1]|] eqn:E; [|discriminate]. apply p_mantissa_sound in E as [-> Hm]. destruct m as [|c m]; [discriminate|].
  destruct (Ascii.eqb c ".").
  - injection H as <- <-. exists (sg ++ c :: m). split; [now rewrite <- app_assoc|]. now rewrite forallb_app, H0, plain_mantissa.
  - destruct (p_exponent r1) as [ex r2] eqn:E2. apply p_exponent_sound in E2 as [-> He]. injection H as <- <-. exists (sg ++ (c :: m) ++ ex).
    split; [now rewrite <- !app_assoc|]. now rewrite !forallb_app, H0, plain_mantissa, plain_exponent.
Qed.
Lemma rawp_int : rawp raw_int.
Proof.
  intros s a r H. unfold raw_int in H. destruct s as [|c s]; [discriminate|]. destruct (Ascii.eqb c "-") eqn:Ec.
  - apply Ascii.eqb_eq in Ec as ->. destruct (span is_digit s) as [d r'] eqn:E. apply span_sound in E as (-> & Hd & _). destruct (undec d); [|discriminate]. injection H as <- <-.
    exists ("-"%char :: d). split; [reflexivity|]. cbn. now apply plain_digits.
  - destruct (span is_digit (c :: s)) as [d r'] eqn:E. apply span_sound in E as (-> & Hd & _). destruct (undec d); [|discriminate]. injection H as <- <-.
    exists d. split; [reflexivity|]. now apply plain_digits.
Qed.
Lemma eat_ci_plain w : forall s r, forallb plain w = true -> eat_ci w s = Some r -> exists u, s = u ++ r /\ forallb plain u = true.
Proof.
  induction w as [|c w IH]; intros s r Hw H; [cbn in H; injection H as <-; exists []; auto|]. destruct s as [|d s]; cbn [eat_ci] in H; [discriminate|].
  destruct (Ascii.eqb (lower c) (lower d)) eqn:E; [|discriminate]. cbn in Hw. apply andb_true_iff in Hw as [Hc Hw]. destruct (IH _ _ Hw H) as (u & -> & Hu).
  exists (d :: u). split; [reflexivity|]. cbn. now rewrite (lower_plain c d Hc E).
Qed.
Lemma bal_kw w : forallb plain (str w) = true -> bal (t_kw skipc w).
Proof.
  intro Hw. apply (bal_rawp (fun s => match eat (str w) s with Some r => if kw_end r then Some (tt, r) else None | None => None end)). intros s a r H.
  destruct (eat (str w) s) eqn:E; [|discriminate]. destruct (kw_end _); [|discriminate]. injection H as <- <-. apply eat_sound in E. eauto.
Qed.
Lemma bal_kwc w : forallb plain (str w) = true -> bal (t_kwc skipc w).
Proof.
  intro Hw. apply (bal_rawp (fun s => match eat_ci (str w) s with Some r => if kw_end r then Some (tt, r) else None | None => None end)). intros s a r H.
  destruct (eat_ci (str w) s) eqn:E; [|discriminate]. destruct (kw_end _); [|discriminate]. injection H as <- <-. now apply eat_ci_plain in E.
Qed.
Lemma first_of_in (f : chars -> chars -> option chars) names s a r : first_of f names s = Some (a, r) -> In a names /\ f a s = Some r.
Proof.
  induction names as [|n l IH]; cbn [first_of]; intro H; [discriminate|]. destruct (f n s) as [r'|] eqn:E; [injection H as <- <-; split; [now left|exact E]|].
  apply IH in H as [H1 H2]. split; [now right|exact H2].
Qed.
Lemma bal_oneof names : forallb (forallb plain) names = true -> bal (t_oneof skipc names).
Proof.
  intro Hn. apply (bal_rawp (first_of eat (longest names))). intros s a r H. apply first_of_in in H as [H1 H2]. apply longest_in in H1.
  apply eat_sound in H2. exists a. split; [exact H2|]. now apply (proj1 (forallb_forall _ _) Hn).
Qed.
Lemma bal_oneof_ci names : forallb (forallb plain) names = true -> bal (t_oneof_ci skipc names).
Proof.
  intro Hn. apply (bal_rawp (first_of eat_ci (longest names))). intros s a r H. apply first_of_in in H as [H1 H2]. apply longest_in in H1.
  apply (eat_ci_plain a); [|exact H2]. now apply (proj1 (forallb_forall _ _) Hn).
Qed.
Lemma bal_tag_name : bal (t_tag_name skipc).
Proof.
  apply (bal_rawp (fun s => match eat (str "@") s with Some r => raw_ident r | None => None end)). intros s a r H.
  destruct (eat (str "@") s) eqn:E; [|discriminate]. apply eat_sound in E as ->. apply rawp_ident in H as (u & -> & Hu). exists ("@"%char :: u). split; [reflexivity|exact Hu].
Qed.
Lemma bal_end : bal (t_end skipc).
Proof.
  intros s a r H. unfold t_end in H. destruct (skipc s) eqn:E; [|discriminate]. injection H as <- <-. exists []. split; [|apply closed_nil].
  rewrite <- codes_skipc, E. reflexivity.
Qed.
Lemma codes_spaces sp r : forallb (Ascii.eqb " ") sp = true -> codes (sp ++ r) = codes r.
Proof. induction sp as [|c sp IH]; intro H; [reflexivity|]. cbn [forallb] in H. apply andb_true_iff in H as [Hc H]. apply Ascii.eqb_eq in Hc as <-. apply (IH H). Qed.
Lemma bal_words n : forall s a r, raw_words n s = (a, r) -> exists u, codes s = u ++ codes r /\ forallb plain u = true.
Proof.
  induction n as [|n IH]; intros s a r H; cbn [raw_words] in H; [injection H as <- <-; exists []; auto|].
  destruct (span (Ascii.eqb " ") s) as [sp r0] eqn:E. apply span_sound in E as (-> & Hsp & _). destruct sp as [|c sp]; [injection H as <- <-; exists []; auto|].
  destruct (raw_ident r0) as [[w r1]|] eqn:Ei; [|injection H as <- <-; exists []; auto]. apply rawp_ident in Ei as (u & -> & Hu).
  destruct (raw_words n r1) as [ws r2] eqn:Ew. apply IH in Ew as (v & Ev & Hv). injection H as <- <-. exists (u ++ v).
  rewrite codes_spaces, codes_app, Ev by (assumption || now apply plain_code). split; [now rewrite app_assoc|]. now rewrite forallb_app, Hu, Hv.
Qed.
Lemma bal_option_key : bal (t_option_key skipc).
Proof.
  intros s a r H. unfold t_option_key, of_opt in H. destruct (raw_ident (skipc s)) as [[w r0]|] eqn:E; [|discriminate].
  destruct (raw_words (length r0) r0) as [ws r1] eqn:Ew. injection H as <- <-. apply rawp_ident in E as (u & Eu & Hu). apply bal_words in Ew as (v & Ev & Hv).
  exists (u ++ v). split; [|apply plain_closed; now rewrite forallb_app, Hu, Hv]. rewrite <- codes_skipc, Eu, codes_app, Ev by now apply plain_code. now rewrite app_assoc.
Qed.
Lemma bal_delimited {A} (p : parser A) : bal p -> bal (delimited skipc p).
Proof.
  intro H. unfold delimited. apply bal_seq; [exact H|intro]. apply bal_seq; [|intro; apply bal_ret]. apply bal_many, bal_seq; [now apply bal_lit|intro; exact H].
Qed.
(* bracketed pieces *)
Lemma lit_codes w s r : forallb code (str w) = true -> t_lit skipc w s = POk tt r -> codes s = str w ++ codes r.
Proof.
  intros Hw H. unfold t_lit, of_opt in H. destruct (eat (str w) (skipc s)) eqn:E; [|discriminate]. injection H as <-. apply eat_sound in E.
  rewrite <- codes_skipc, E. now apply codes_app.
Qed.
Lemma closed_bracket x u : ~ In "["%char x -> closed u -> closed (x ++ "["%char :: u ++ ["]"%char]).
Proof.
  intros Hx Hu. apply closed_app; [now apply closed_none|]. intros [|c y] z E.
  - injection E as <-. apply in_or_app. right. now left.
  - injection E as _ E. assert (K : closed (u ++ ["]"%char])) by (apply closed_app; [exact Hu|apply closed_none; intros [K|[]]; discriminate]). exact (K y z E).
Qed.
Definition closer {A} (q : parser A) : Prop := forall s a r, q s = POk a r -> codes s = "]"%char :: codes r.
Lemma bal_bracket {A B C} w x (p : parser A) (q : parser C) (k : A -> parser B) : str w = x ++ ["["%char] -> forallb code x = true ->
  closed x -> bal p -> closer q -> (forall a, bal (k a)) -> bal (t_lit skipc w >> (a <~ p ; q >> k a)).
Proof.
  intros Ew Hx Hxc Hp Hq Hk s b r H. unfold seq in H. destruct (t_lit skipc w s) as [[] r1| | |] eqn:E1; try discriminate.
  destruct (p r1) as [a r2| | |] eqn:E2; try discriminate. destruct (q r2) as [z r3| | |] eqn:E3; try discriminate.
  apply lit_codes in E1; [|rewrite Ew, forallb_app, Hx; reflexivity]. apply Hq in E3.
  destruct (Hp _ _ _ E2) as (u & Eu & Hu). destruct (Hk a _ _ _ H) as (v & Ev & Hv).
  exists ((x ++ "["%char :: u ++ ["]"%char]) ++ v). split.
  - rewrite E1, Ew, Eu, E3, Ev. rewrite <- !app_assoc; cbn [app]; rewrite <- !app_assoc; reflexivity.
  - apply closed_app; [|exact Hv]. apply closed_app; [exact Hxc|]. apply (closed_bracket []); [tauto|exact Hu].
Qed.

Section Rules.
Context {F : Type} (fread : chars -> F).
Ltac nokb := repeat first [apply nok_fatal | apply nok_seq; intro].
Ltac balb :=
  lazymatch goal with
  | |- forall _, _ => intro; balb
  | |- bal (match ?x with _ => _ end) => destruct x; balb
  | |- bal (seq _ _) => first [solve [apply bal_nok; nokb] | apply bal_seq; [balb|intro; balb]]
  | |- bal (ret _) => apply bal_ret
  | |- bal fail => apply bal_nok; discriminate
  | |- bal fatal => apply bal_nok; discriminate
  | |- bal (cut _) => apply bal_cut; balb
  | |- bal (alt _ _) => apply bal_alt; balb
  | |- bal (opt _) => apply bal_opt; balb
  | |- bal (peek _) => apply bal_peek
  | |- bal (nota _) => apply bal_nota
  | |- bal (many _) => apply bal_many; balb
  | |- bal (delimited _ _) => apply bal_delimited; balb
  | |- bal (t_lit _ _) => apply bal_lit; reflexivity
  | |- bal (t_kw _ _) => apply bal_kw; reflexivity
  | |- bal (t_kwc _ _) => apply bal_kwc; first [reflexivity | assumption]
  | |- bal (t_ident _) => apply bal_ident
  | |- bal (t_number _) => apply (bal_rawp raw_number), rawp_number
  | |- bal (t_dnumber _) => apply (bal_rawp raw_dnumber), rawp_dnumber
  | |- bal (t_int _) => apply (bal_rawp raw_int), rawp_int
  | |- bal (t_tag_name _) => apply bal_tag_name
  | |- bal (t_option_key _) => apply bal_option_key
  | |- bal (t_end _) => apply bal_end
  | |- bal (t_oneof _ _) => apply bal_oneof; reflexivity
  | |- bal (t_oneof_ci _ _) => apply bal_oneof_ci; reflexivity
  | |- bal _ => eauto
  end.
Lemma closer_lit : closer (t_lit skipc "]"). Proof. intros s [] r H. now apply lit_codes in H. Qed.
Lemma closer_cut {A} (q : parser A) : closer q -> closer (cut q).
Proof. intros H s a r E. apply (H s a r). unfold cut in E. destruct (q s); congruence. Qed.
Lemma bal_tix : bal (p_tix skipc).
Proof.
  unfold p_tix. apply (bal_bracket "[" []); [reflexivity|reflexivity|apply closed_nil| |apply closer_lit|intro; apply bal_ret]. unfold raw_tix. balb.
Qed.
Lemma bal_g_op l : bal (g_op skipc l). Proof. unfold g_op. destruct l; balb. Qed.
Lemma bal_expr_all f :
  (forall l, bal (g_expr skipc fread f l)) /\ (forall l a, bal (g_loop skipc fread f l a)) /\ bal (g_args skipc fread f).
Proof.
  pose proof bal_tix. pose proof bal_g_op. induction f as [|f (IHe & IHl & IHa)]; [repeat split; intros; intros s x r E; discriminate|]. split; [|split].
  - intro l. rewrite !g_expr_S. destruct l; try (apply bal_seq; [apply IHe|intro; apply IHl]); [balb|]. unfold g_atom, g_variable, g_parameter.
    repeat apply bal_alt; [|balb..].
    apply (bal_bracket "E[][" ["E"; "["; "]"]%char); [reflexivity|reflexivity| |now apply bal_cut|apply closer_cut, closer_lit|intro; apply bal_ret].
    apply (closed_bracket ["E"%char] []); [cbn; intros [K|[]]; discriminate|apply closed_nil].
  - intros l a. rewrite !g_loop_S. apply bal_seq; [balb|]. intros [[o b]|]; [apply IHl|apply bal_ret].
  - rewrite !g_args_S. balb.
Qed.
Lemma bal_ex : bal (p_ex skipc fread). Proof. intro s. apply (proj1 (bal_expr_all (enough_fuel s))). Qed.
Lemma bal_dnum_f n : bal (p_dnum_f skipc n).
Proof. induction n as [|n IH]; [intros s a r E; discriminate|]. rewrite dnum_S. unfold d_level, d_atom. balb. Qed.
Lemma bal_dnum : bal (p_dnum skipc). Proof. intro s. apply bal_dnum_f. Qed.
Lemma bal_varref : bal (p_varref skipc). Proof. pose proof bal_tix. unfold p_varref. balb. Qed.
Lemma bal_equation : bal (p_equation skipc fread).
Proof.
  pose proof bal_tix. pose proof bal_ex.
  unfold p_equation, missing_lhs, missing_rhs, missing_equals, valid_equation, post_rhs_check, p_multiplier, p_calibrating, p_tag. balb.
Qed.
Lemma bal_dist_expr : bal (p_dist_expr skipc).
Proof.
  pose proof bal_dnum.
  unfold p_dist_expr, p_wrapped, unknown_wrapper, unknown_dist, p_dist_call, p_darg, p_dist_name, p_wrapper_name. balb.
Qed.
Lemma bal_valid_component : bal (valid_component skipc fread).
Proof.
  pose proof bal_dist_expr. pose proof bal_dnum. pose proof bal_varref. pose proof bal_equation.
  unfold valid_component, eq_component, p_controls, p_shocks, p_calibration, p_cal_item, p_shock_item, p_optvars, p_varlist, p_distribution, missing_tilde, p_dist_name, p_wrapper_name. balb.
Qed.
Lemma bal_block : bal (p_block skipc fread).
Proof. pose proof bal_valid_component. unfold p_block, p_component. balb. Qed.
Lemma bal_special : bal (p_special skipc).
Proof.
  pose proof bal_varref. unfold p_special, p_options, p_tryreduce, p_assumptions, p_subblock, p_option_entry, p_option_value, p_assumption_item, p_optvars, p_varlist. balb.
Qed.
Lemma bal_file : bal (p_file skipc fread).
Proof. pose proof bal_block. pose proof bal_special. unfold p_file, p_top, component_keyword. balb. Qed.
End Rules.
