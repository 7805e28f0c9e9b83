(* Lexical lemmas for the expression parser. *)
From Verif Require Import Common Expr_Model Expr_Spec.
Local Open Scope list_scope.

Lemma skip_ws w s : ws w -> skip (w ++ s) = skip s.
Proof.
  unfold ws. induction w as [|c w IH]; intro H; [reflexivity|].
  cbn in H. apply andb_true_iff in H as [Hc H]. cbn. rewrite Hc. auto.
Qed.
Lemma skip_split s : exists w, s = w ++ skip s /\ ws w.
Proof.
  induction s as [|c s [w [E H]]].
  - exists []. split; reflexivity.
  - cbn. destruct (is_ws c) eqn:Ec.
    + exists (c :: w). split; [cbn; f_equal; exact E|]. unfold ws in *. cbn. rewrite Ec. exact H.
    + exists []. split; reflexivity.
Qed.
Lemma skip_head s c r : skip s = c :: r -> is_ws c = false.
Proof.
  induction s as [|d s IH]; [discriminate|]. cbn. destruct (is_ws d) eqn:E; [exact IH|].
  intro H; injection H as -> ->. exact E.
Qed.
Lemma skip_idem s : skip (skip s) = skip s.
Proof. induction s as [|d s IH]; [reflexivity|]. cbn. destruct (is_ws d) eqn:E; [exact IH|]. cbn. rewrite E. reflexivity. Qed.
Lemma skip_nonws c s : is_ws c = false -> skip (c :: s) = c :: s.
Proof. intro H. cbn. rewrite H. reflexivity. Qed.

Lemma eat_app w s : eat w (w ++ s) = Some s.
Proof. induction w as [|c w IH]; [destruct s; reflexivity|]. cbn. rewrite Ascii.eqb_refl. exact IH. Qed.
Lemma eat_sound w : forall s r, eat w s = Some r -> s = w ++ r.
Proof.
  induction w as [|c w IH]; intros s r H.
  - destruct s; cbn in H; injection H as <-; reflexivity.
  - destruct s as [|d s]; [discriminate|]. cbn in H. destruct (Ascii.eqb_spec c d) as [->|]; [|discriminate].
    cbn. f_equal. auto.
Qed.

(* A literal token is non-empty and starts with a non-blank. *)
Definition tok (w : string) : Prop := match str w with c :: _ => is_ws c = false | [] => False end.
Lemma lit_complete (w0 : string) v s : tok w0 -> ws v -> lit w0 (v ++ str w0 ++ s) = Some s.
Proof.
  intros Ht Hv. unfold lit. rewrite skip_ws by exact Hv.
  unfold tok in Ht. destruct (str w0) as [|c r] eqn:E; [contradiction|].
  cbn [app]. rewrite skip_nonws by exact Ht. change (c :: r ++ s) with ((c :: r) ++ s). apply eat_app.
Qed.
Lemma lit_sound (w0 : string) s r : lit w0 s = Some r -> exists v, s = v ++ str w0 ++ r /\ ws v.
Proof.
  unfold lit. intro H. apply eat_sound in H. destruct (skip_split s) as [v [E Hv]].
  exists v. rewrite H in E. auto.
Qed.
Lemma lit_head_neq (w0 : string) c0 w1 s c r :
  str w0 = c0 :: w1 -> skip s = c :: r -> c <> c0 -> lit w0 s = None.
Proof.
  intros E Hs Hn. unfold lit. rewrite E, Hs. cbn. destruct (Ascii.eqb_spec c0 c); [congruence|reflexivity].
Qed.
Lemma lit_nil (w0 : string) c0 w1 s : str w0 = c0 :: w1 -> skip s = [] -> lit w0 s = None.
Proof. intros E Hs. unfold lit. rewrite E, Hs. reflexivity. Qed.

Lemma span_complete f a s : forallb f a = true -> (forall c r, s = c :: r -> f c = false) -> span f (a ++ s) = (a, s).
Proof.
  induction a as [|c a IH]; intros Ha Hs.
  - cbn. destruct s as [|c r]; [reflexivity|]. cbn. rewrite (Hs _ _ eq_refl). reflexivity.
  - cbn in Ha. apply andb_true_iff in Ha as [Hc Ha]. cbn. rewrite Hc, IH by assumption. reflexivity.
Qed.
Lemma span_sound f : forall s a b, span f s = (a, b) ->
  s = a ++ b /\ forallb f a = true /\ (forall c r, b = c :: r -> f c = false).
Proof.
  induction s as [|c s IH]; intros a b H; cbn in H.
  - injection H as <- <-. repeat split. discriminate.
  - destruct (f c) eqn:E.
    + destruct (span f s) as [a' b'] eqn:Es. injection H as <- <-.
      destruct (IH _ _ eq_refl) as (-> & Hf & Hb). repeat split; [cbn; rewrite E, Hf; reflexivity|exact Hb].
    + injection H as <- <-. repeat split. intros c' r' H; injection H as -> ->. exact E.
Qed.

(* character classes *)
Lemma id0_idc c : is_id0 c = true -> is_idc c = true.
Proof. unfold is_idc. intros ->. reflexivity. Qed.
Lemma digit_idc c : is_digit c = true -> is_idc c = true.
Proof. unfold is_idc. intros ->. apply orb_true_r. Qed.
Lemma id0_not_ws c : is_id0 c = true -> is_ws c = false.
Proof. destruct c as [[] [] [] [] [] [] [] []]; cbn; intro H; try reflexivity; discriminate H. Qed.
Lemma digit_not_ws c : is_digit c = true -> is_ws c = false.
Proof. destruct c as [[] [] [] [] [] [] [] []]; cbn; intro H; try reflexivity; discriminate H. Qed.
Lemma id0_not_digit c : is_id0 c = true -> is_digit c = false.
Proof. destruct c as [[] [] [] [] [] [] [] []]; cbn; intro H; try reflexivity; discriminate H. Qed.
Lemma idc_not_ws c : is_idc c = true -> is_ws c = false.
Proof.
  unfold is_idc. intro H. apply orb_true_iff in H as [H|H]; [apply id0_not_ws|apply digit_not_ws]; exact H.
Qed.
Lemma idc_neq c d : is_idc c = true -> is_idc d = false -> c <> d.
Proof. congruence. Qed.

Definition head_not_idc (s : chars) : Prop := forall c r, s = c :: r -> is_idc c = false.

Lemma p_ident_complete w n s : ws w -> ident n -> head_not_idc s -> p_ident (w ++ n ++ s) = Some (n, s).
Proof.
  intros Hw Hn Hs. unfold p_ident. rewrite skip_ws by exact Hw.
  destruct n as [|c n]; [contradiction|]. destruct Hn as [Hc Hn]. cbn [app].
  rewrite skip_nonws by (apply id0_not_ws; exact Hc). rewrite Hc, span_complete by assumption. reflexivity.
Qed.
Lemma p_ident_sound s n r : p_ident s = Some (n, r) ->
  exists w, s = w ++ n ++ r /\ ws w /\ ident n /\ head_not_idc r.
Proof.
  unfold p_ident. destruct (skip_split s) as [w [E Hw]]. destruct (skip s) as [|c s'] eqn:Es; [discriminate|].
  destruct (is_id0 c) eqn:Ec; [|discriminate]. destruct (span is_idc s') as [a b] eqn:Esp.
  intro H; injection H as <- <-. apply span_sound in Esp as (-> & Ha & Hb).
  exists w. repeat split; assumption.
Qed.
Lemma p_ident_none s : (forall c r, skip s = c :: r -> is_id0 c = false) -> p_ident s = None.
Proof.
  intro H. unfold p_ident. destruct (skip s) as [|c r] eqn:E; [reflexivity|]. rewrite (H _ _ eq_refl). reflexivity.
Qed.

(* numbers *)
Lemma digits_app a b : digits a -> digits b -> digits (a ++ b).
Proof. unfold digits. rewrite forallb_app. intros -> ->. reflexivity. Qed.

Lemma not_digit_of_wod s : word_or_dot s = false -> forall c r, s = c :: r -> is_digit c = false.
Proof.
  intros H c r ->. cbn in H. apply orb_false_iff in H as [H _]. unfold is_idc in H. apply orb_false_iff in H. tauto.
Qed.
Lemma exponent_head_nd e s : exponent e -> word_or_dot s = false -> forall c r, e ++ s = c :: r -> is_digit c = false.
Proof.
  intros He Hs c r E. destruct He as [|e sg d He Hsg Hd].
  - eapply not_digit_of_wod; eauto.
  - cbn in E. injection E as -> _. destruct He as [->| ->]; reflexivity.
Qed.
Lemma exponent_head_ndot e s : exponent e -> word_or_dot s = false -> forall c r, e ++ s = c :: r -> c <> "."%char.
Proof.
  intros He Hs c r E. destruct He as [|e sg d He Hsg Hd].
  - cbn in E. subst s. cbn in Hs. apply orb_false_iff in Hs as [_ Hs]. intros ->. discriminate Hs.
  - cbn in E. injection E as -> _. destruct He as [->| ->]; discriminate.
Qed.
Lemma p_exponent_complete e s : exponent e -> word_or_dot s = false -> p_exponent (e ++ s) = (e, s).
Proof.
  intros He Hs. destruct He as [|e sg d He Hsg [Hd1 Hd2]].
  - cbn [app]. unfold p_exponent. destruct s as [|c s]; [reflexivity|].
    destruct ((c =? "e") || (c =? "E"))%char eqn:E; [|reflexivity].
    exfalso. apply orb_true_iff in E as [E|E]; apply Ascii.eqb_eq in E; subst c; discriminate Hs.
  - cbn [app]. unfold p_exponent.
    replace ((e =? "e") || (e =? "E"))%char with true by (destruct He as [->| ->]; reflexivity).
    rewrite <- app_assoc.
    assert (p_sign (sg ++ d ++ s) = (sg, d ++ s)) as ->.
    { destruct Hsg as [->|[->| ->]]; try reflexivity. cbn [app]. destruct d as [|x d]; [congruence|].
      cbn. unfold digits in Hd2. cbn in Hd2. apply andb_true_iff in Hd2 as [Hx _].
      destruct ((x =? "+") || (x =? "-"))%char eqn:E; [|reflexivity].
      apply orb_true_iff in E as [E|E]; apply Ascii.eqb_eq in E; subst x; discriminate Hx. }
    rewrite span_complete by (auto; apply not_digit_of_wod; exact Hs).
    destruct d; [congruence|reflexivity].
Qed.
Lemma p_mantissa_complete m s : mantissa m ->
  (forall c r, s = c :: r -> is_digit c = false) -> (forall c r, s = c :: r -> c <> "."%char) ->
  p_mantissa (m ++ s) = Some (m, s).
Proof.
  intros Hm Hs Hd. unfold p_mantissa. destruct Hm as [d [Hd1 Hd2]|d1 d2 [H1 H2] H3|d [Hd1 Hd2]].
  - rewrite span_complete by assumption. destruct d as [|x d]; [congruence|].
    destruct s as [|c s]; [reflexivity|]. destruct (Ascii.eqb_spec c "."); [exfalso; eapply Hd; eauto|reflexivity].
  - rewrite <- app_assoc. rewrite span_complete; [|exact H2|cbn; intros c r E; injection E as <- _; reflexivity].
    destruct d1 as [|x d1]; [congruence|]. cbn [app]. rewrite Ascii.eqb_refl.
    rewrite span_complete by assumption. reflexivity.
  - assert (span is_digit (("."%char :: d) ++ s) = (@nil ascii, "."%char :: d ++ s)) as -> by reflexivity.
    rewrite Ascii.eqb_refl. rewrite span_complete by assumption. destruct d; [congruence|reflexivity].
Qed.
Lemma mantissa_head m : mantissa m -> exists c r, m = c :: r /\ (is_digit c = true \/ c = "."%char).
Proof.
  intros [d [H1 H2]|d1 d2 [H1 H2] H3|d [H1 H2]].
  - destruct d as [|c d]; [congruence|]. unfold digits in H2. cbn in H2. apply andb_true_iff in H2 as [H2 _]. eauto.
  - destruct d1 as [|c d1]; [congruence|]. unfold digits in H2. cbn in H2. apply andb_true_iff in H2 as [H2 _].
    exists c, (d1 ++ "."%char :: d2). auto.
  - eauto.
Qed.
Lemma numlit_head t : numlit t -> exists c r, t = c :: r /\ (is_digit c = true \/ c = "."%char).
Proof.
  intros (m & e & -> & Hm & _). destruct (mantissa_head m Hm) as (c & r & -> & H). exists c, (r ++ e). auto.
Qed.
Lemma numhead_not_ws c : is_digit c = true \/ c = "."%char -> is_ws c = false.
Proof. intros [H| ->]; [apply digit_not_ws; exact H|reflexivity]. Qed.
Lemma p_number_complete w t s : ws w -> numlit t -> word_or_dot s = false -> p_number (w ++ t ++ s) = Some (t, s).
Proof.
  intros Hw Ht Hs. unfold p_number. rewrite skip_ws by exact Hw.
  destruct (numlit_head t Ht) as (c & r & E & Hc).
  assert (skip (t ++ s) = t ++ s) as ->.
  { rewrite E. cbn [app]. apply skip_nonws, numhead_not_ws, Hc. }
  destruct Ht as (m & e & -> & Hm & He). rewrite <- app_assoc.
  rewrite p_mantissa_complete; [|exact Hm|apply exponent_head_nd; assumption|apply exponent_head_ndot; assumption].
  rewrite p_exponent_complete by assumption. rewrite Hs. reflexivity.
Qed.
Lemma p_exponent_sound s a b : p_exponent s = (a, b) -> s = a ++ b /\ exponent a.
Proof.
  unfold p_exponent. destruct s as [|c s]; [intro H; injection H as <- <-; split; [reflexivity|constructor]|].
  destruct ((c =? "e") || (c =? "E"))%char eqn:E.
  - destruct (p_sign s) as [sg r] eqn:Esg. destruct (span is_digit r) as [d r'] eqn:Ed.
    apply span_sound in Ed as (-> & Hd & _).
    assert (Hsg : s = sg ++ d ++ r' /\ (sg = [] \/ sg = ["+"%char] \/ sg = ["-"%char])).
    { destruct s as [|x s]; cbn in Esg; [injection Esg as <- E'; split; [exact E'|auto]|].
      destruct ((x =? "+") || (x =? "-"))%char eqn:Ex.
      - injection Esg as <- <-. split; [reflexivity|]. apply orb_true_iff in Ex as [Ex|Ex]; apply Ascii.eqb_eq in Ex; subst; auto.
      - injection Esg as <- E'. split; [exact E'|auto]. }
    destruct Hsg as [-> Hsg]. destruct d as [|x d].
    + intro H; injection H as <- <-. split; [reflexivity|constructor].
    + intro H; injection H as <- <-. split; [cbn; rewrite <- app_assoc; reflexivity|].
      constructor; [|exact Hsg|split; [discriminate|exact Hd]].
      apply orb_true_iff in E as [E|E]; apply Ascii.eqb_eq in E; subst; auto.
  - intro H; injection H as <- <-. split; [reflexivity|constructor].
Qed.
Lemma p_mantissa_sound s a b : p_mantissa s = Some (a, b) -> s = a ++ b /\ mantissa a.
Proof.
  unfold p_mantissa. destruct (span is_digit s) as [d1 r1] eqn:E. apply span_sound in E as (-> & Hd & _).
  destruct d1 as [|x d1].
  - destruct r1 as [|c r2]; [discriminate|]. destruct (Ascii.eqb_spec c ".") as [->|]; [|discriminate].
    destruct (span is_digit r2) as [d2 r3] eqn:E2. apply span_sound in E2 as (-> & Hd2 & _).
    destruct d2 as [|y d2]; [discriminate|]. intro H; injection H as <- <-. split; [reflexivity|].
    apply mant_frac. split; [discriminate|exact Hd2].
  - destruct r1 as [|c r2].
    + intro H; injection H as <- <-. split; [reflexivity|]. apply mant_int. split; [discriminate|exact Hd].
    + destruct (Ascii.eqb_spec c ".") as [->|].
      * destruct (span is_digit r2) as [d2 r3] eqn:E2. apply span_sound in E2 as (-> & Hd2 & _).
        intro H; injection H as <- <-. split; [cbn; rewrite <- app_assoc; reflexivity|].
        change (x :: d1 ++ "."%char :: d2) with ((x :: d1) ++ "."%char :: d2). apply mant_dot; [split; [discriminate|exact Hd]|exact Hd2].
      * intro H; injection H as <- <-. split; [reflexivity|]. apply mant_int. split; [discriminate|exact Hd].
Qed.
Lemma p_number_sound s t r : p_number s = Some (t, r) -> exists w, s = w ++ t ++ r /\ ws w /\ numlit t.
Proof.
  unfold p_number. destruct (skip_split s) as [w [E Hw]]. destruct (p_mantissa (skip s)) as [[m r0]|] eqn:Em; [|discriminate].
  apply p_mantissa_sound in Em as [Em Hm]. destruct (p_exponent r0) as [ex r'] eqn:Ee. apply p_exponent_sound in Ee as [-> He].
  destruct (word_or_dot r'); [discriminate|]. intro H; injection H as <- <-.
  exists w. rewrite Em in E. rewrite <- app_assoc. repeat split; try assumption. exists m, ex. auto.
Qed.
Lemma p_number_none s : (forall c r, skip s = c :: r -> is_digit c = false /\ c <> "."%char) -> p_number s = None.
Proof.
  intro H. unfold p_number, p_mantissa. destruct (skip s) as [|c r] eqn:E; [reflexivity|].
  destruct (H _ _ eq_refl) as [Hd Hn]. cbn. rewrite Hd. destruct (Ascii.eqb_spec c "."); [contradiction|reflexivity].
Qed.

(* time indices *)
Lemma ws_head_not w s : ws w -> forall c r, w ++ "]"%char :: s = c :: r -> is_idc c = false.
Proof.
  intros Hw c r E. destruct w as [|d w]; cbn in E.
  - injection E as <- _. reflexivity.
  - injection E as -> _. unfold ws in Hw. cbn in Hw. apply andb_true_iff in Hw as [Hc _].
    destruct (is_idc c) eqn:Ei; [|reflexivity]. apply idc_not_ws in Ei. congruence.
Qed.
Lemma nd_of_nidc c : is_idc c = false -> is_digit c = false.
Proof. unfold is_idc. intro H. apply orb_false_iff in H. tauto. Qed.

Lemma digits1_head d : digits1 d -> exists c r, d = c :: r /\ is_digit c = true.
Proof.
  intros [H1 H2]. destruct d as [|c d]; [congruence|]. unfold digits in H2. cbn in H2. apply andb_true_iff in H2 as [H2 _]. eauto.
Qed.
Lemma digit_neq c d : is_digit c = true -> is_digit d = false -> c <> d.
Proof. congruence. Qed.

Lemma undec_nil : undec [] = None.
Proof. reflexivity. Qed.

Lemma p_time_index_complete w t ti s : ws w -> tix_text t ti ->
  p_time_index (w ++ str "[" ++ ti ++ str "]" ++ s) = Some (t, s).
Proof.
  intros Hw Ht. unfold p_time_index. rewrite (lit_complete "[" w) by (auto; reflexivity).
  assert (Hend : forall w2, ws w2 -> lit "]" (w2 ++ str "]" ++ s) = Some s).
  { intros w2 H2. apply (lit_complete "]" w2); [reflexivity|exact H2]. }
  destruct Ht as [w0 H0|w1 w2 H1 H2|w1 d w2 n H1 H2 Hd Hn|w1 d w2 n H1 H2 Hd Hn].
  - unfold p_tix_content, p_int. rewrite skip_ws by exact H0. cbn [str list_ascii_of_string app].
    rewrite (skip_nonws "]"%char) by reflexivity. 
    change (Ascii.eqb "]" "-") with false. cbn [span is_digit]. cbn.
    replace (p_kw "ss" (w0 ++ "]"%char :: s)) with (@None chars).
    + specialize (Hend w0 H0). cbn in Hend. rewrite Hend. reflexivity.
    + unfold p_kw. rewrite (lit_head_neq "ss" "s"%char ["s"%char] _ "]"%char s); [reflexivity|reflexivity| |discriminate].
      rewrite skip_ws by exact H0. reflexivity.
  - unfold p_tix_content.
    assert (Hsk : skip ((w1 ++ str "ss" ++ w2) ++ str "]" ++ s) = str "ss" ++ w2 ++ str "]" ++ s).
    { rewrite <- !app_assoc. rewrite skip_ws by exact H1. reflexivity. }
    assert (p_int ((w1 ++ str "ss" ++ w2) ++ str "]" ++ s) = None) as ->.
    { unfold p_int. rewrite Hsk. reflexivity. }
    unfold p_kw. rewrite <- !app_assoc. rewrite (lit_complete "ss" w1) by (auto; reflexivity).
    destruct (w2 ++ str "]" ++ s) as [|c r] eqn:E.
    + destruct w2; discriminate E.
    + rewrite (ws_head_not w2 s H2 c r E). rewrite <- E, Hend by exact H2. reflexivity.
  - unfold p_tix_content.
    assert (p_int ((w1 ++ d ++ w2) ++ str "]" ++ s) = Some (Z.of_N n, w2 ++ str "]" ++ s)) as ->.
    { unfold p_int. rewrite <- !app_assoc. rewrite skip_ws by exact H1.
      destruct (digits1_head d Hd) as (c & r & -> & Hc). cbn [app]. rewrite skip_nonws by (apply digit_not_ws; exact Hc).
      destruct (Ascii.eqb_spec c "-"); [subst; discriminate|].
      change (c :: r ++ w2 ++ str "]" ++ s) with ((c :: r) ++ w2 ++ str "]" ++ s).
      rewrite span_complete; [rewrite Hn; reflexivity|apply Hd|].
      intros c' r' E. eapply nd_of_nidc, (ws_head_not w2 s H2), E. }
    rewrite Hend by exact H2. reflexivity.
  - unfold p_tix_content.
    assert (p_int ((w1 ++ "-"%char :: d ++ w2) ++ str "]" ++ s) = Some (- Z.of_N n, w2 ++ str "]" ++ s)%Z) as ->.
    { unfold p_int. rewrite <- !app_assoc. rewrite skip_ws by exact H1. cbn [app]. rewrite skip_nonws by reflexivity.
      cbn [Ascii.eqb Bool.eqb]. rewrite <- !app_assoc.
      rewrite span_complete; [rewrite Hn; reflexivity|apply Hd|].
      intros c' r' E. eapply nd_of_nidc, (ws_head_not w2 s H2), E. }
    rewrite Hend by exact H2. reflexivity.
Qed.

Lemma undec_digits1 d n : digits d -> undec d = Some n -> digits1 d.
Proof. intros Hd Hn. split; [|exact Hd]. intros ->. discriminate Hn. Qed.

Lemma p_int_sound s z r : p_int s = Some (z, r) ->
  exists w d n, ws w /\ digits1 d /\ undec d = Some n /\
   ((s = w ++ d ++ r /\ z = Z.of_N n) \/ (s = w ++ "-"%char :: d ++ r /\ z = (- Z.of_N n)%Z)).
Proof.
  unfold p_int. destruct (skip_split s) as [w [E Hw]]. destruct (skip s) as [|c s'] eqn:Es; [discriminate|].
  destruct (Ascii.eqb_spec c "-") as [->|Hc].
  - destruct (span is_digit s') as [d r'] eqn:Ed. apply span_sound in Ed as (-> & Hd & _).
    destruct (undec d) as [n|] eqn:En; [|discriminate]. intro H; injection H as <- <-.
    exists w, d, n. split; [exact Hw|]. split; [split; [intros ->; discriminate En|exact Hd]|]. split; [exact En|]. right. auto.
  - destruct (span is_digit (c :: s')) as [d r'] eqn:Ed. apply span_sound in Ed as (E' & Hd & _).
    destruct (undec d) as [n|] eqn:En; [|discriminate]. intro H; injection H as <- <-.
    exists w, d, n. rewrite E' in E. split; [exact Hw|]. split; [split; [intros ->; discriminate En|exact Hd]|]. split; [exact En|]. left; auto.
Qed.
Lemma p_time_index_sound s t r : p_time_index s = Some (t, r) ->
  exists w ti, s = w ++ str "[" ++ ti ++ str "]" ++ r /\ ws w /\ tix_text t ti.
Proof.
  unfold p_time_index. destruct (lit "[" s) as [r0|] eqn:E0; [|discriminate].
  apply lit_sound in E0 as (w & -> & Hw). destruct (p_tix_content r0) as [t' r'] eqn:Ec.
  destruct (lit "]" r') as [r''|] eqn:E1; [|discriminate]. intro H; injection H as <- <-.
  apply lit_sound in E1 as (w2 & -> & Hw2). unfold p_tix_content in Ec.
  destruct (p_int r0) as [[z r1]|] eqn:Ei.
  - injection Ec as <- ->. apply p_int_sound in Ei as (w1 & d & n & H1 & Hd & Hn & [[-> ->]|[-> ->]]).
    + exists w, (w1 ++ d ++ w2). split; [rewrite <- !app_assoc; reflexivity|]. split; [exact Hw|]. constructor; assumption.
    + exists w, (w1 ++ "-"%char :: d ++ w2). split; [rewrite <- !app_assoc; cbn; rewrite <- !app_assoc; reflexivity|]. split; [exact Hw|]. constructor; assumption.
  - destruct (p_kw "ss" r0) as [r1|] eqn:Ek.
    + injection Ec as <- ->. unfold p_kw in Ek. destruct (lit "ss" r0) as [r2|] eqn:El; [|discriminate].
      assert (r2 = w2 ++ str "]" ++ r'') as ->.
      { destruct r2 as [|c r2]; [injection Ek as Ek; exact Ek|]. destruct (is_idc c); [discriminate|injection Ek as Ek; exact Ek]. }
      apply lit_sound in El as (w1 & -> & H1).
      exists w, (w1 ++ str "ss" ++ w2). split; [rewrite <- !app_assoc; reflexivity|]. split; [exact Hw|]. constructor; assumption.
    + injection Ec as <- ->. exists w, w2. repeat split; try assumption. constructor; assumption.
Qed.
