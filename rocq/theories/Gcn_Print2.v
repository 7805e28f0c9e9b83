(* Printed blocks are texts of the grammar *)
From Verif Require Import Common Expr_Model Expr_Spec Expr_Lex Expr_Proofs Expr_RoundTrip SymDict_Model Gcn_Lex Gcn_Model Gcn_Basic Gcn_Grammar Gcn_Expr Gcn_Sound Gcn_Complete Gcn_Complete5 Gcn_Meaning Gcn_Build Gcn_Print.
Local Open Scope list_scope.
Set Default Proof Using "Type".

Definition lines (l : list chars) : chars := concat (map (fun x => x ++ newline) l).
Lemma lines_app l l' : lines (l ++ l') = lines l ++ lines l'.
Proof. unfold lines. now rewrite map_app, concat_app. Qed.
Lemma lines_map {A} (f : A -> chars) l : lines (map f l) = concat (map (fun x => f x ++ newline) l).
Proof. unfold lines. now rewrite map_map. Qed.
Lemma join_lines l last : join newline (l ++ [last]) = lines l ++ last.
Proof. apply join_nl. Qed.
Lemma kw_self k : keyword k (str k).
Proof. reflexivity. Qed.
Definition body_text (body : list chars) : chars := newline ++ lines (map (fun x => indent ++ indent ++ x ++ str ";") body).
Lemma braces_print kw body b v : body <> [] -> body_text body = b ++ v -> ws v ->
  exists s, lines (component_lines kw body) = indent ++ s ++ newline ++ newline /\ forall w, ws w -> braces kw b (w ++ s).
Proof.
  intros Hb E Hv. exists (str kw ++ (newline ++ indent) ++ str "{" ++ body_text body ++ indent ++ str "}" ++ [] ++ str ";"). split.
  - destruct body as [|x0 body]; [congruence|]. unfold component_lines. rewrite !lines_app. unfold body_text. unfold lines at 1 3. cbn [map concat]. repeat rewrite <- app_assoc. reflexivity.
  - intros w Hw. rewrite E. exists w, (str kw), (newline ++ indent), (v ++ indent), []. split; [repeat rewrite <- app_assoc; reflexivity|]. split; [exact Hw|]. split; [apply kw_self|]. split; [reflexivity|]. split; [now apply ws_app|reflexivity].
Qed.
Section P.
Context {F : Type} (fprint fstr : F -> chars) (fread : chars -> F).
Notation pr := (print_expression fprint).
(* a component printed from a list of statements *)
Lemma component_print {A B} (P : A -> chars -> Prop) kw (f : B -> A) (p : B -> chars) (c : component F) l : l <> [] ->
  (forall b, In b l -> writes P (f b) (p b ++ str ";")) ->
  (forall t s, sequence P (map f l) t -> braces kw t s -> component_text fread c s) ->
  loose (component_text fread) [c] (lines (component_lines kw (map p l))).
Proof.
  intros Hne Hp Hc. assert (L : loose P (map f l) (body_text (map p l))).
  { unfold body_text. apply loose_lead; [reflexivity|]. rewrite map_map, lines_map.
    pose proof (loose_map P f (fun x => p x ++ str ";") (indent ++ indent) newline l eq_refl eq_refl Hp) as L.
    erewrite map_ext in L; [exact L|]. intro x. cbn beta. repeat rewrite <- app_assoc. reflexivity. }
  apply loose_seq in L as (t & v & E & Hs & Hv).
  destruct (braces_print kw (map p l) t v) as (s & -> & Hb); [intro X; apply map_eq_nil in X; contradiction|exact E|exact Hv|].
  change (indent ++ s ++ newline ++ newline) with (indent ++ s ++ (newline ++ newline)). apply loose_cons; [reflexivity| |now apply loose_nil].
  intros w Hw. apply (Hc t); [exact Hs|now apply Hb].
Qed.
Definition component_list {B} (mk : list B -> component F) (l : list B) : list (component F) := match l with [] => [] | _ => [mk l] end.
Lemma component_lines_nil kw : lines (component_lines kw []) = [].
Proof. reflexivity. Qed.
Lemma equations_print kw mk l : (forall e, In e l -> printable fprint fread e) ->
  (forall es t s, sequence (equation_text fread) es t -> braces kw t s -> component_text fread (mk es) s) ->
  loose (component_text fread) (component_list mk (map untagged l)) (lines (component_lines kw (map (print_equation fprint) l))).
Proof.
  intros Hl Hc. destruct l as [|e l]; [now apply loose_nil|]. apply (component_print (equation_text fread) kw untagged (print_equation fprint) (mk (map untagged (e :: l)))); [discriminate| |eauto].
  intros b Hb. apply equation_print. auto.
Qed.
(* one line: C[], L[]; *)
Lemma list_print kw l : l <> [] -> (forall v, In v l -> ident (fst v)) ->
  exists s b, lines (component_lines kw (one_line (map print_var l))) = indent ++ s ++ newline ++ newline /\ commas varref_text l b /\ forall w, ws w -> braces kw (b ++ [] ++ str ";") (w ++ s).
Proof.
  intros Hne Hl. set (j := join (str ", ") (map print_var l)). assert (E1 : one_line (map print_var l) = [j]) by (destruct l; [congruence|reflexivity]). rewrite E1.
  destruct (braces_print kw [j] ((newline ++ indent ++ indent ++ j) ++ [] ++ str ";") newline) as (s & Es & Hb); [discriminate| |reflexivity|].
  { unfold body_text, lines. cbn [map concat]. rewrite app_nil_r. repeat rewrite <- app_assoc. reflexivity. }
  exists s, (newline ++ indent ++ indent ++ j). split; [exact Es|]. split; [|exact Hb].
  rewrite <- (map_id l) at 1. replace (newline ++ indent ++ indent ++ j) with ((newline ++ indent ++ indent) ++ join (str ", ") (map print_var l)) by (repeat rewrite <- app_assoc; reflexivity).
  apply commas_join; [exact Hne|reflexivity|]. intros v Hv. apply var_print. auto.
Qed.
Lemma controls_print l : (forall v, In v l -> ident (fst v)) ->
  loose (component_text fread) (component_list (@CControls F) l) (lines (component_lines "controls" (one_line (map print_var l)))).
Proof.
  intro Hl. destruct l as [|v l]; [now apply loose_nil|]. destruct (list_print "controls" (v :: l)) as (s & b & E & Hc & Hb); [discriminate|exact Hl|]. rewrite E.
  apply loose_cons; [reflexivity| |now apply loose_nil]. intros w Hw. apply (comp_controls fread _ (b ++ [] ++ str ";")); [|now apply Hb]. right. exists b, []. split; [reflexivity|]. split; [exact Hc|reflexivity].
Qed.
Lemma shocks_print l : (forall v, In v l -> ident (fst v)) ->
  loose (component_text fread) (component_list (fun l => @CShocks F l []) l) (lines (component_lines "shocks" (one_line (map print_var l)))).
Proof.
  intro Hl. destruct l as [|v l]; [now apply loose_nil|]. destruct (list_print "shocks" (v :: l)) as (s & b & E & Hc & Hb); [discriminate|exact Hl|]. rewrite E.
  apply loose_cons; [reflexivity| |now apply loose_nil]. intros w Hw. pose proof (comp_shocks fread [(v :: l, [])] ((b ++ [] ++ str ";") ++ []) (w ++ s)) as X. cbn [map fst snd concat] in X. rewrite !app_nil_r in X. apply X.
  - rewrite <- (app_nil_r (b ++ [] ++ str ";")). apply (sequence_cons shock_text _ (b ++ [] ++ str ";")); [|constructor]. exact (shock_list (v :: l) b [] Hc eq_refl).
  - exact (Hb w Hw).
Qed.
(* ---- calibration ---- *)
(* n = X..., where the right side begins with a distribution's or wrapper's name, is taken for a distribution without "~" *)
Definition mistakable (e : equation F) : Prop := exists n x r, lhs e = Par n /\ In x (preliz_wrappers ++ preliz_dists) /\ pr (rhs e) 0 = x ++ r.
Lemma names_ident x : In x (preliz_wrappers ++ preliz_dists) -> ident x.
Proof. intro H. apply in_app_or in H as [H|H]; [now apply wrappers_ident|now apply dists_ident]. Qed.
Lemma ident_head n : ident n -> exists c r, n = c :: r /\ is_ws c = false.
Proof. destruct n as [|c r]; [contradiction|]. intros [H _]. exists c, r. split; [reflexivity|now apply id0_not_ws]. Qed.
Lemma pr_head e : wf fprint fread e -> forall p, exists c r, pr e p = c :: r /\ is_ws c = false.
Proof.
  induction e as [v|n|n t|a IH|o a b IHa IHb|f args IH|a IH] using expr_ind'; intros Hw p; cbn [print_expression wf] in *.
  - destruct (numlit_head _ (proj1 Hw)) as (c & r & -> & H). exists c, r. split; [reflexivity|now apply numhead_not_ws].
  - now apply ident_head.
  - destruct (ident_head n Hw) as (c & r & -> & H). exists c, (r ++ tix_str t). auto.
  - exists "-"%char, (pr a 4). auto.
  - cbv zeta. destruct (prec o <? p); [eexists; eexists; split; reflexivity|]. destruct (IHa (proj1 Hw) (prec o)) as (c & r & -> & H). eexists; eexists; split; [reflexivity|exact H].
  - destruct (ident_head f (proj1 Hw)) as (c & r & -> & H). eexists; eexists; split; [reflexivity|exact H].
  - eexists; eexists; split; reflexivity.
Qed.
Definition tail_text (e : equation F) : chars :=
  match multiplier e with Some (c :: n) => str " : " ++ (c :: n) ++ str "[]" | _ => [] end ++ match calibrating e with Some (c :: n) => str " -> " ++ (c :: n) | _ => [] end ++ str ";".
Lemma print_equation_eq e : print_equation fprint e ++ str ";" = pr (lhs e) 0 ++ str " = " ++ pr (rhs e) 0 ++ tail_text e.
Proof. unfold print_equation, tail_text. destruct (multiplier e) as [[|a m]|]; destruct (calibrating e) as [[|b c]|]; repeat rewrite <- app_assoc; reflexivity. Qed.
Lemma tail_head e : exists c r, tail_text e = c :: r /\ is_idc c = false.
Proof. unfold tail_text. destruct (multiplier e) as [[|a m]|]; destruct (calibrating e) as [[|b c]|]; cbn; eexists; eexists; split; reflexivity. Qed.
Lemma not_mistaken e w : ws w -> printable fprint fread e -> ~ mistakable e -> ~ looks_like_distribution (w ++ print_equation fprint e ++ str ";").
Proof.
  intros Hw (H1 & H2 & H3 & H4 & _) Hm (w' & n & w1 & w2 & x & r & E & Hw' & Hn & Hw1 & Hw2 & Hx). apply Hm. rewrite print_equation_eq in E.
  pose proof (ex_complete fread (lhs e) (w ++ pr (lhs e) 0) (str " = " ++ pr (rhs e) 0 ++ tail_text e) (side_text fprint fread (lhs e) w Hw H1 H2) eq_refl) as X.
  assert (T : Text fread LAdd (Par n) (w' ++ n)) by (eapply text_weaken; [|apply T_par; eassumption]; cbn; lia).
  pose proof (ex_complete fread (Par n) (w' ++ n) (w1 ++ str "=" ++ w2 ++ x ++ r) T) as Y.
  rewrite <- app_assoc in X, Y. rewrite E in X. rewrite X in Y. assert (Z : follow_ok LAdd (w1 ++ str "=" ++ w2 ++ x ++ r) = true) by (unfold follow_ok; rewrite skip_ws by exact Hw1; reflexivity). specialize (Y Z). injection Y as El Er.
  exists n, x. assert (Es : str " " ++ pr (rhs e) 0 ++ tail_text e = w2 ++ x ++ r).
  { apply (f_equal (lit "=")) in Er. change (lit "=" (str " " ++ str "=" ++ (str " " ++ pr (rhs e) 0 ++ tail_text e)) = lit "=" (w1 ++ str "=" ++ w2 ++ x ++ r)) in Er. rewrite !lit_complete in Er by (reflexivity || exact Hw1). congruence. }
  apply (f_equal skip) in Es. rewrite (skip_ws (str " ")) in Es by reflexivity. rewrite (skip_ws w2) in Es by exact Hw2. destruct (pr_head (rhs e) H3 0) as (c & q & Ep & Hc). rewrite Ep in Es. cbn [app] in Es. rewrite skip_nonws in Es by exact Hc.
  destruct (ident_head x (names_ident x Hx)) as (c' & q' & Ex & Hc'). rewrite Ex in Es. cbn [app] in Es. rewrite skip_nonws in Es by exact Hc'. change (c :: q ++ tail_text e) with ((c :: q) ++ tail_text e) in Es. rewrite <- Ep in Es. change (c' :: q' ++ r) with ((c' :: q') ++ r) in Es. rewrite <- Ex in Es.
  apply app_eq_app in Es as (l & [[-> _]|[Exl Et]]); [exists l; auto|]. destruct l as [|d l]; [rewrite app_nil_r in Exl; exists []; rewrite app_nil_r; auto|].
  exfalso. destruct (tail_head e) as (c0 & r0 & Eh & Hh). rewrite Eh in Et. injection Et as -> _. pose proof (names_ident x Hx) as Hid. apply ident_idc in Hid. rewrite Exl, forallb_app in Hid. apply andb_true_iff in Hid as [_ Hid]. cbn in Hid. rewrite Hh in Hid. discriminate.
Qed.
Definition item_ok (i : item F) : Prop := match i with IDist d => dist_ok fstr fread d | IEqn e => printable fprint fread e /\ ~ mistakable e end.
Definition raw_item (i : item F) : rawdist + equation F := match i with IDist d => inl (raw_of fstr d) | IEqn e => inr (untagged e) end.
Definition plain_item (i : item F) : item F := match i with IDist d => IDist d | IEqn e => IEqn (untagged e) end.
Lemma item_print i : item_ok i -> writes (cal_item_text fread) (raw_item i) (print_item fprint fstr i ++ str ";").
Proof.
  destruct i as [d|e]; cbn [item_ok raw_item print_item].
  - intros H w Hw. constructor. now apply (dist_print fstr fread).
  - intros [H1 H2] w Hw. constructor; [now apply (equation_print fprint fread)|now apply not_mistaken].
Qed.
Lemma calibration_print l : (forall i, In i l -> item_ok i) ->
  loose (component_text fread) (component_list (@CCalibration F) (map raw_item l)) (lines (component_lines "calibration" (map (print_item fprint fstr) l))).
Proof.
  intros Hl. destruct l as [|e l]; [now apply loose_nil|]. apply (component_print (cal_item_text fread) "calibration" raw_item (print_item fprint fstr) (CCalibration (map raw_item (e :: l)))); [discriminate| |].
  - intros b Hb. apply item_print. auto.
  - intros t s Hs Hb. now apply (comp_calibration fread _ t).
Qed.
(* ---- blocks ---- *)
Definition block_ok (b : block F) : Prop :=
  ident (b_name b) /\ (forall e, In e (definitions b ++ objective b ++ constraints b ++ identities b) -> printable fprint fread e) /\
  (forall v, In v (controls b ++ shocks b) -> ident (fst v)) /\ (forall i, In i (calibration b) -> item_ok i).
Definition raw_block (b : block F) : chars * list (component F) :=
  (b_name b, component_list (@CDefinitions F) (map untagged (definitions b)) ++ component_list (@CControls F) (controls b) ++
    component_list (@CObjective F) (map untagged (objective b)) ++ component_list (@CConstraints F) (map untagged (constraints b)) ++
    component_list (@CIdentities F) (map untagged (identities b)) ++ component_list (fun l => @CShocks F l []) (shocks b) ++
    component_list (@CCalibration F) (map raw_item (calibration b))).
(* what a printed block keeps: no tags, no distributions of shocks *)
Definition plain_block (b : block F) : block F :=
  Block (b_name b) (map untagged (definitions b)) (controls b) (map untagged (objective b)) (map untagged (constraints b)) (map untagged (identities b)) (shocks b) [] (map plain_item (calibration b)).
Lemma block_print b : block_ok b -> writes (block_text fread) (raw_block b) (print_block fprint fstr b).
Proof.
  intros (Hn & He & Hv & Hi) w Hw. unfold print_block. rewrite !app_assoc, join_lines.
  repeat rewrite <- app_assoc. rewrite !lines_app.
  assert (L : loose (component_text fread) (snd (raw_block b)) (lines (component_lines "definitions" (map (print_equation fprint) (definitions b))) ++ lines (component_lines "controls" (one_line (map print_var (controls b)))) ++ lines (component_lines "objective" (map (print_equation fprint) (objective b))) ++ lines (component_lines "constraints" (map (print_equation fprint) (constraints b))) ++ lines (component_lines "identities" (map (print_equation fprint) (identities b))) ++ lines (component_lines "shocks" (one_line (map print_var (shocks b)))) ++ lines (component_lines "calibration" (map (print_item fprint fstr) (calibration b))))).
  { unfold raw_block. cbn [snd].
    apply loose_app; [apply equations_print; [intros e H; apply He; rewrite !in_app_iff; tauto|intros; eapply comp_definitions; eassumption]|].
    apply loose_app; [apply controls_print; intros v H; apply Hv; rewrite !in_app_iff; tauto|].
    apply loose_app; [apply equations_print; [intros e H; apply He; rewrite !in_app_iff; tauto|intros; eapply comp_objective; eassumption]|].
    apply loose_app; [apply equations_print; [intros e H; apply He; rewrite !in_app_iff; tauto|intros; eapply comp_constraints; eassumption]|].
    apply loose_app; [apply equations_print; [intros e H; apply He; rewrite !in_app_iff; tauto|intros; eapply comp_identities; eassumption]|].
    apply loose_app; [apply shocks_print; intros v H; apply Hv; rewrite !in_app_iff; tauto|].
    apply calibration_print. exact Hi. }
  apply (loose_lead _ newline) in L; [|reflexivity]. apply loose_seq in L as (t & v & E & Hs & Hvw).
  exists w, (str "block"), (str " "), newline, t, v, []. split.
  - repeat rewrite <- app_assoc. repeat rewrite <- app_assoc in E. rewrite (app_assoc t v). rewrite <- E. unfold lines at 1. cbn [map concat fst raw_block]. repeat rewrite <- app_assoc. reflexivity.
  - split; [exact Hw|]. split; [apply kw_self|]. split; [reflexivity|]. split; [discriminate|]. split; [exact Hn|]. split; [reflexivity|]. split; [exact Hs|]. split; [exact Hvw|reflexivity].
Qed.
End P.
