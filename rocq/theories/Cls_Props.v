(* C148.  From a pyparsing exception to the error the user sees. *)
From Verif Require Import Common Err_Model Err_Spec Err_Proofs Err_Props Errs_Model Cls_Model.
Local Open Scope list_scope.

Section C.
Variable title : nat -> chars.
Variable fixes : nat -> list chars.
Variable suggest : chars -> list chars.
Notation convert := (convert_exception title fixes suggest).

(* ---- specification ---- *)
Definition occurs (s t : chars) : Prop := exists a b, t = a ++ s ++ b.
Definition asks_for (x : exception) (token : string) : Prop := occurs (str "Expected '" ++ str token ++ str "'") (emsg x).
Definition found_word (x : exception) : chars := strip_quotes (efound x).
Definition plain (x : exception) : Prop := ~ occurs SEPARATOR (emsg x).
Definition at_end (x : exception) : Prop := occurs (str "end of text") (lower (found_word x)).
Definition parenthesis (x : exception) : Prop := found_word x = str "(" \/ found_word x = str ")" \/ asks_for x ")" \/ asks_for x "(".
Definition semicolon (x : exception) : Prop :=
  asks_for x ";" \/ eexpected x = str ";" \/ eexpected x = str "';'" \/
  In (lower (found_word x)) (map str ["definitions"; "controls"; "objective"; "constraints"; "identities"; "shocks"; "calibration"]%string) \/
  (asks_for x "}" /\ (exists c r, found_word x = c :: r /\ is_alpha c = true) /\ ~ at_end x).
Definition brace (x : exception) : Prop :=
  found_word x = str "{" \/ found_word x = str "}" \/ ((asks_for x "{" \/ asks_for x "}") /\ (found_word x = [] \/ at_end x)).
Definition right_hand_side (x : exception) : Prop := asks_for x "+" \/ occurs (str "operations") (lower (emsg x)).

Lemma contains_spec s t : contains s t = true <-> occurs s t. Proof. apply contains_iff. Qed.
Lemma among_spec s l : among s l = true <-> In s l.
Proof. unfold among. rewrite existsb_exists. split; [intros (x & H & E); apply chars_eqb_eq in E; now subst|intros H; exists s; split; [easy|apply chars_eqb_refl]]. Qed.
Ltac b2p := rewrite ?Bool.andb_true_iff, ?Bool.orb_true_iff, ?Bool.negb_true_iff, ?contains_spec, ?among_spec.
Lemma not_contains s t : contains s t = false <-> ~ occurs s t.
Proof. rewrite <- contains_spec. destruct (contains s t); intuition congruence. Qed.
Lemma paren_spec x : is_paren_error (emsg x) (found_word x) = true <-> parenthesis x.
Proof.
  unfold is_paren_error, parenthesis. destruct (among (found_word x) (map str [")"; "("]%string)) eqn:E.
  - split; [|easy]. intros _. apply among_spec in E. cbn [map In] in E. destruct E as [E|[E|[]]]; rewrite <- E; auto.
  - rewrite Bool.orb_true_iff, !contains_spec. assert (~ In (found_word x) (map str [")"; "("]%string)) as N by (rewrite <- among_spec; congruence). cbn [map In] in N.
    unfold asks_for. split; [tauto|]. intros [H|[H|H]]; [destruct N; auto|destruct N; auto|exact H].
Qed.
Lemma semicolon_spec x : is_semicolon_error (emsg x) (eexpected x) (found_word x) = true <-> semicolon x.
Proof.
  unfold is_semicolon_error, semicolon. destruct (contains (quote ";") (emsg x) || among (eexpected x) (map str [";"; "';'"]%string))%bool eqn:E.
  - split; [|easy]. intros _. apply Bool.orb_true_iff in E. rewrite contains_spec, among_spec in E. cbn [map In] in E. destruct E as [E|[E|[E|[]]]]; [left; exact E|rewrite <- E; auto|rewrite <- E; auto].
  - apply Bool.orb_false_iff in E as [E1 E2]. apply not_contains in E1. assert (~ In (eexpected x) (map str [";"; "';'"]%string)) as N by (rewrite <- among_spec; congruence). cbn [map In] in N.
    unfold is_component. destruct (among (lower (found_word x)) component_keywords) eqn:E3.
    + split; [|easy]. intros _. apply among_spec in E3. auto 6.
    + assert (~ In (lower (found_word x)) component_keywords) as N3 by (rewrite <- among_spec; congruence).
      rewrite !Bool.andb_true_iff, Bool.negb_true_iff, contains_spec, not_contains. unfold at_end. split.
      * intros [[A B] C]. right. right. right. right. split; [exact A|]. split; [|exact C]. destruct (found_word x) as [|c r]; [discriminate|]. eauto.
      * intros [H|[H|[H|[H|(A & (c & r & -> & B) & D)]]]]; [now destruct E1|destruct N; auto|destruct N; auto|now destruct N3|]. auto.
Qed.
Lemma brace_spec x : is_brace_error (emsg x) (found_word x) = true <-> brace x.
Proof.
  unfold is_brace_error, brace. destruct (among (found_word x) (map str ["{"; "}"]%string)) eqn:E.
  - split; [|easy]. intros _. apply among_spec in E. cbn [map In] in E. destruct E as [E|[E|[]]]; rewrite <- E; auto.
  - assert (~ In (found_word x) (map str ["{"; "}"]%string)) as N by (rewrite <- among_spec; congruence). cbn [map In] in N.
    rewrite Bool.andb_true_iff, !Bool.orb_true_iff, !contains_spec. unfold at_end, asks_for. split.
    + intros [A [B|B]]; right; right; (split; [exact A|]); [left|right]; [now destruct (found_word x)|exact B].
    + intros [H|[H|[A [B|B]]]]; [destruct N; auto|destruct N; auto| |]; (split; [exact A|]); [left; now rewrite B|now right].
Qed.
Lemma rhs_spec x : is_missing_rhs_error (emsg x) = true <-> right_hand_side x.
Proof. unfold is_missing_rhs_error, right_hand_side. now rewrite Bool.orb_true_iff, !contains_spec. Qed.

(* ---- failures of pyparsing itself ---- *)
Lemma plain_decode x : plain x -> decode (emsg x) (efound x) = (emsg x, 0, efound x, []).
Proof. intros P. unfold decode. now rewrite (proj2 (not_contains _ _) P). Qed.
Lemma plain_convert x text f : plain x -> convert x text f = new_grammar (structural_message title x) ENone (efound x) (Some (error_location text (eloc x) (efound x) f)) [] (structural_code x) SError (structural_annotation title x) (structural_notes fixes x) [].
Proof. intros P. unfold convert_exception. now rewrite plain_decode. Qed.
(* The code: by the first of these descriptions that fits, and E000 if none does. *)
Theorem C148_structural x text f : plain x ->
  (code (convert x text f) = Some 7 <-> parenthesis x) /\
  (code (convert x text f) = Some 1 <-> ~ parenthesis x /\ semicolon x) /\
  (code (convert x text f) = Some 2 <-> ~ parenthesis x /\ ~ semicolon x /\ brace x) /\
  (code (convert x text f) = Some 5 <-> ~ parenthesis x /\ ~ semicolon x /\ ~ brace x /\ right_hand_side x) /\
  (code (convert x text f) = Some 0 <-> ~ parenthesis x /\ ~ semicolon x /\ ~ brace x /\ ~ right_hand_side x).
Proof.
  intros P. rewrite plain_convert by easy. cbn [code new_grammar new_error]. unfold structural_code. fold (found_word x).
  pose proof (paren_spec x) as A. pose proof (semicolon_spec x) as B. pose proof (brace_spec x) as C. pose proof (rhs_spec x) as D.
  destruct (is_paren_error (emsg x) (found_word x)); [assert (parenthesis x) by (now apply A); intuition discriminate|assert (~ parenthesis x) by (rewrite <- A; discriminate)].
  destruct (is_semicolon_error (emsg x) (eexpected x) (found_word x)); [assert (semicolon x) by (now apply B); intuition discriminate|assert (~ semicolon x) by (rewrite <- B; discriminate)].
  destruct (is_brace_error (emsg x) (found_word x)); [assert (brace x) by (now apply C); intuition discriminate|assert (~ brace x) by (rewrite <- C; discriminate)].
  destruct (is_missing_rhs_error (emsg x)); [assert (right_hand_side x) by (now apply D); intuition discriminate|assert (~ right_hand_side x) by (rewrite <- D; discriminate); intuition discriminate].
Qed.
(* What it says: the catalogue's title and fixes for its code, or all of pyparsing's message. *)
Theorem C148_structural_text x text f c : plain x -> code (convert x text f) = Some c ->
  (c = 0 -> (exists r, message (convert x text f) = str "Syntax error: " ++ emsg x ++ r) /\ notes (convert x text f) = []) /\
  (c <> 0 -> (exists r, message (convert x text f) = title c ++ r) /\ notes (convert x text f) = fixes c).
Proof.
  intros P. rewrite plain_convert by easy. cbn [code new_grammar new_error message notes]. intros H. injection H as H.
  assert (forall m, exists r, grammar_message m (expected_list ENone) (efound x) = m ++ r) as G.
  { intros m. unfold grammar_message. cbn [expected_list]. destruct (efound x); [exists []; now rewrite app_nil_r|eexists; reflexivity]. }
  unfold structural_message, structural_notes. rewrite H. split; intros N.
  - subst c. rewrite N. split; [|easy]. destruct (G (str "Syntax error: " ++ emsg x)) as (r & ->). exists r. now rewrite <- app_assoc.
  - split; [|now destruct c]. destruct c as [|[|c]]; [easy| |apply G]. destruct (is_component (strip_quotes (efound x))); [|apply G].
    destruct (G (title 1 ++ str " after previous statement")) as (r & ->). exists (str " after previous statement" ++ r). now rewrite <- app_assoc.
Qed.
(* ---- failures raised by the grammar with a code ---- *)
Theorem C148_kept s l m c found suggs exp pf text f : c <> 0 -> c < length code_names -> clean SEPARATOR m -> clean SEPARATOR found ->
  contains SEPARATOR (join comma suggs) = false -> (forall x, In x suggs -> ~ In ","%char x) ->
  let e := convert (Exception (msg (new_failure s l m c found suggs)) exp pf l) text f in
  code e = Some c /\ (exists r, message e = m ++ r) /\ contains found (message e) = true /\ where_ e = Some (error_location text l found f) /\
  (exists pre, notes e = pre ++ fixes c /\ length pre <= 1) /\
  ((forall n, In n (fixes c) -> ~ occurs (str "Did you mean") n) ->
     notes e = match (match c, suggest found with 13, own :: _ => Some own | _, _ => hd_error (filter no_blank suggs) end) with
               | Some best => (str "Did you mean '" ++ best ++ str "'?") :: fixes c
               | None => fixes c
               end).
Proof.
  intros N L Cm Cf Hs Hx. cbn zeta. unfold convert_exception. cbn [emsg efound eloc]. rewrite C130_survives by easy.
  destruct c as [|c]; [easy|]. cbn [code new_grammar new_error message where_ notes]. split; [easy|].
  split; [unfold grammar_message; cbn [expected_list]; destruct found; [exists []; now rewrite app_nil_r|eexists; reflexivity]|].
  split. { apply contains_iff. unfold grammar_message. cbn [expected_list]. destruct found as [|a found]; [eexists [], _; reflexivity|]. exists (m ++ str ". Found '"), (str "'"). unfold quoted. now rewrite <- !app_assoc. }
  split; [easy|].
  set (suggs' := filter no_blank suggs). unfold semantic_notes.
  set (own := match S c with 13 => match suggest found with s0 :: _ => [did_you_mean s0] | [] => [] end | _ => [] end).
  assert ((own = [] /\ (match S c, suggest found with 13, own :: _ => Some own | _, _ => hd_error suggs' end) = hd_error suggs') \/
          exists b, own = [did_you_mean b] /\ (match S c, suggest found with 13, own :: _ => Some own | _, _ => hd_error suggs' end) = Some b) as O.
  { unfold own. do 12 (destruct c as [|c]; [now left|]). destruct c as [|c]; [|now left]. destruct (suggest found) as [|b t]; [now left|right; now exists b]. }
  assert (forall b, contains (str "Did you mean") (did_you_mean b) = true) as Dm.
  { intros b. apply contains_iff. exists [], (str " '" ++ b ++ str "'?"). unfold did_you_mean. now rewrite app_nil_l. }
  clearbody own. split.
  - destruct O as [[-> _]|(b & -> & _)].
    + cbn [app]. destruct suggs' as [|s0 t]; [exists []; cbn; auto|]. destruct (existsb _ (fixes (S c))); [exists []; cbn; auto|]. exists [did_you_mean s0]. cbn. auto.
    + cbn [app existsb]. rewrite Dm. cbn [orb]. destruct suggs'; exists [did_you_mean b]; cbn; auto.
  - intros F. assert (existsb (contains (str "Did you mean")) (fixes (S c)) = false) as X.
    { apply Bool.not_true_iff_false. intros X. apply existsb_exists in X as (n & Hn & X). apply contains_iff in X. destruct (F n Hn X). }
    destruct O as [[-> ->]|(b & -> & ->)]; cbn [app existsb]; [|rewrite Dm; cbn [orb]; destruct suggs'; reflexivity].
    rewrite X. destruct suggs' as [|s0 t]; reflexivity.
Qed.
(* The suggestions themselves are never on the error. *)
Theorem C148_suggestions x text f : suggs (convert x text f) = [] /\ sev (convert x text f) = SError /\ context (convert x text f) = [].
Proof.
  unfold convert_exception. destruct (decode (emsg x) (efound x)) as [[[m c] fo] su]. destruct c; auto.
Qed.
End C.
(* ---- examples and what is false ---- *)
Definition t0 (c : nat) : chars := nth c (map str ["Syntax error"; "Missing semicolon"; "Unbalanced braces"]%string) (str "Other").
Definition f0 (c : nat) : list chars := [str "Check the line"].
Notation conv := (convert_exception t0 f0 (fun _ => [])).
(* where pyparsing expected a semicolon but found a parenthesis, the error is about parentheses *)
Theorem C148_semicolon_refuted : ~ (forall x text f, plain x -> asks_for x ";" -> code (conv x text f) = Some 1).
Proof.
  intros H. assert (code (conv (Exception (str "Expected ';'") [] (str "')'") 3) [] []) = Some 1) as E; [apply H|vm_compute in E; discriminate E].
  - intros (a & b & E). assert (contains SEPARATOR (str "Expected ';'") = true) as C by (apply contains_iff; eauto). vm_compute in C. discriminate C.
  - exists [], []. reflexivity.
Qed.
Theorem C148_suggestions_refuted : ~ (forall s l m c found su exp pf text f, c <> 0 -> suggs (conv (Exception (msg (new_failure s l m c found su)) exp pf l) text f) = su).
Proof. intros H. specialize (H [] 0 (str "Unknown distribution") 19 (str "Bta") [str "Beta"] [] [] [] [] ltac:(discriminate)). vm_compute in H. discriminate H. Qed.
Theorem C148_case : let x := Exception (str "Expected '}'") [] (str "'Objective'") 8 in
  plain x /\ ~ parenthesis x /\ semicolon x /\
  message (conv x (str "  K[] ; objective") []) = str "Missing semicolon after previous statement. Found ''Objective''" /\
  let e := conv (Exception (msg (new_failure [] 0 (str "Unknown distribution") 19 (str "Bta") [str "Beta"])) [] [] 0) (str "a ~ Bta();") [] in
  code e = Some 19 /\ notes e = [str "Did you mean 'Beta'?"; str "Check the line"] /\ message e = str "Unknown distribution. Found 'Bta'".
Proof.
  cbn zeta. split; [|split; [|split; [|split; [vm_compute; reflexivity|split; [vm_compute; reflexivity|split; vm_compute; reflexivity]]]]].
  - intros (a & b & E). assert (contains SEPARATOR (str "Expected '}'") = true) as C by (apply contains_iff; eauto). vm_compute in C. discriminate C.
  - rewrite <- paren_spec. vm_compute. discriminate.
  - apply (proj1 (semicolon_spec (fun _ => []) _)). vm_compute. reflexivity.
Qed.
