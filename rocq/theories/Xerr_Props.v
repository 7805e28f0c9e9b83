(* C163: what the user sees when a single expression cannot be parsed *)
From Verif Require Import Common Err_Model Err_Spec Err_Proofs Err_Props Errs_Model Cls_Model Xerr_Model.
Local Open Scope list_scope.

(* ---- specification ---- *)
Definition within (s : string) (t : chars) : Prop := exists a b, t = a ++ str s ++ b.
(* [m] is [s] up to the first occurrence of [mark], or all of it *)
Definition up_to (mark : string) (s m : chars) : Prop :=
  (s = m /\ ~ within mark s) \/ (exists rest, s = m ++ str mark ++ rest /\ forall a b, s = a ++ str mark ++ b -> length m <= length a).
Definition operand_expected (x : exception) : Prop := within "+" (eexpected x) \/ within "-" (eexpected x).
(* what is said about an exception *)
Inductive says (x : exception) : chars -> Prop :=
| Says_call m : within "Empty function call" (emsg x) -> up_to ". E008" (emsg x) m -> says x m
| Says_index m : ~ within "Empty function call" (emsg x) -> within "Invalid time index" (emsg x) -> up_to ". E010" (emsg x) m -> says x m
| Says_operator : ~ within "Empty function call" (emsg x) -> ~ within "Invalid time index" (emsg x) -> within "end of text" (lower (emsg x)) ->
    In (efound x) (map str ["^"; "**"; "*"; "/"; "+"; "-"]%string) -> says x (str "Unexpected operator '" ++ efound x ++ str "' at end of expression")
| Says_incomplete : ~ within "Empty function call" (emsg x) -> ~ within "Invalid time index" (emsg x) -> within "end of text" (lower (emsg x)) ->
    ~ In (efound x) (map str ["^"; "**"; "*"; "/"; "+"; "-"]%string) -> says x (str "Incomplete expression")
| Says_operand : ~ within "Empty function call" (emsg x) -> ~ within "Invalid time index" (emsg x) -> ~ within "end of text" (lower (emsg x)) ->
    operand_expected x -> says x (str "Missing operand after operator")
| Says_parentheses : ~ within "Empty function call" (emsg x) -> ~ within "Invalid time index" (emsg x) -> ~ within "end of text" (lower (emsg x)) ->
    ~ operand_expected x -> within "(" (emsg x) \/ within ")" (emsg x) -> says x (str "Unbalanced parentheses")
| Says_variable : ~ within "Empty function call" (emsg x) -> ~ within "Invalid time index" (emsg x) -> ~ within "end of text" (lower (emsg x)) ->
    ~ operand_expected x -> ~ within "(" (emsg x) -> ~ within ")" (emsg x) -> within "[" (emsg x) \/ within "]" (emsg x) -> says x (str "Invalid variable syntax")
| Says_other : ~ within "Empty function call" (emsg x) -> ~ within "Invalid time index" (emsg x) -> ~ within "end of text" (lower (emsg x)) ->
    ~ operand_expected x -> ~ within "(" (emsg x) -> ~ within ")" (emsg x) -> ~ within "[" (emsg x) -> ~ within "]" (emsg x) ->
    says x (str "Invalid expression syntax: " ++ emsg x).
(* the code: a position of the catalogue *)
Inductive coded (x : exception) : nat -> Prop :=
| Coded_call : within "E008" (emsg x) \/ within "Empty function call" (emsg x) -> coded x 8
| Coded_index : ~ within "E008" (emsg x) -> ~ within "Empty function call" (emsg x) -> within "E010" (emsg x) \/ within "Invalid time index" (emsg x) -> coded x 10
| Coded_parentheses : ~ within "E008" (emsg x) -> ~ within "Empty function call" (emsg x) -> ~ within "E010" (emsg x) -> ~ within "Invalid time index" (emsg x) ->
    within "(" (emsg x) \/ within ")" (emsg x) -> coded x 7
| Coded_bracket : ~ within "E008" (emsg x) -> ~ within "Empty function call" (emsg x) -> ~ within "E010" (emsg x) -> ~ within "Invalid time index" (emsg x) ->
    ~ within "(" (emsg x) -> ~ within ")" (emsg x) -> ~ operand_expected x -> ~ within "*" (eexpected x) -> within "[" (emsg x) \/ within "]" (emsg x) -> coded x 10
| Coded_other : ~ within "E008" (emsg x) -> ~ within "Empty function call" (emsg x) -> ~ within "E010" (emsg x) -> ~ within "Invalid time index" (emsg x) ->
    ~ within "(" (emsg x) -> ~ within ")" (emsg x) -> operand_expected x \/ within "*" (eexpected x) \/ (~ within "[" (emsg x) /\ ~ within "]" (emsg x)) -> coded x 6.
(* what was expected and found follows, if known *)
Definition with_details (m expected found : chars) : chars :=
  m ++ match expected, found with
       | [], [] => []
       | [], f => str ". Found '" ++ f ++ str "'"
       | e, [] => str ". Expected '" ++ e ++ str "'"
       | e, f => str ". Expected '" ++ e ++ str "', found '" ++ f ++ str "'"
       end.

(* ---- lemmas ---- *)
Lemma within_iff s t : contains (str s) t = true <-> within s t. Proof. apply contains_iff. Qed.
Lemma within_not s t : contains (str s) t = false <-> ~ within s t.
Proof. rewrite <- within_iff. destruct (contains (str s) t); intuition congruence. Qed.
Lemma among_iff s l : among s l = true <-> In s l.
Proof. unfold among. rewrite existsb_exists. split; [intros (x & H & E); apply chars_eqb_eq in E; now subst|intros H; exists s; split; [easy|apply chars_eqb_refl]]. Qed.
Lemma among_not s l : among s l = false <-> ~ In s l.
Proof. rewrite <- among_iff. destruct (among s l); intuition congruence. Qed.
Lemma first_part_ok mark s : str mark <> [] -> up_to mark s (first_part (str mark) s).
Proof.
  intros N. unfold first_part, split.
  destruct (split_first (str mark) N (length s) s []) as (p & rest & E & H); [lia|intros x y _; cbn; lia|].
  rewrite E. cbn [nth]. destruct H as [(_ & P & C)|(t & P & C & _)].
  - cbn [rev app] in P. left. subst p. split; [reflexivity|]. now apply within_not.
  - cbn [rev app] in P. right. exists t. split; [exact P|]. intros a b Eab.
    destruct (Nat.le_gt_cases (length p) (length a)) as [|L]; [assumption|exfalso].
    (* an occurrence that begins earlier ends no later than the first one, or [p] followed by the mark has it inside *)
    rewrite P in Eab.
    assert (exists q, q <> [] /\ p = a ++ q) as (q & Nq & ->).
    { exists (skipn (length a) p). split.
      - intros Z. apply (f_equal (@length ascii)) in Z. rewrite skipn_length in Z. cbn [length] in Z. lia.
      - rewrite <- (firstn_skipn (length a) p) at 1. f_equal.
        apply (f_equal (firstn (length a))) in Eab. rewrite firstn_app in Eab. rewrite (firstn_app (length a) a) in Eab.
        rewrite Nat.sub_diag, firstn_all in Eab. cbn [firstn] in Eab. rewrite app_nil_r in Eab.
        replace (length a - length p) with 0 in Eab by lia. cbn [firstn] in Eab. rewrite app_nil_r in Eab. exact Eab. }
    rewrite <- app_assoc in Eab. apply app_inv_head in Eab.
    (* q ++ mark ++ t = mark ++ b : the mark is the beginning of q ++ mark *)
    assert (exists d, q ++ str mark = str mark ++ d) as (d & Ed).
    { exists (skipn (length (str mark)) (q ++ str mark)).
      rewrite <- (firstn_skipn (length (str mark)) (q ++ str mark)) at 1. f_equal.
      rewrite app_assoc in Eab. apply (f_equal (firstn (length (str mark)))) in Eab.
      rewrite firstn_app in Eab. rewrite (firstn_app _ (str mark) b) in Eab. rewrite Nat.sub_diag, firstn_all in Eab.
      replace (length (str mark) - length (q ++ str mark)) with 0 in Eab by (rewrite app_length; lia).
      cbn [firstn] in Eab. rewrite !app_nil_r in Eab. exact Eab. }
    assert (d = []) as ->.
    { apply (C a d). rewrite <- app_assoc. f_equal. exact Ed. }
    apply (f_equal (@length ascii)) in Ed. rewrite !app_length in Ed. cbn [length] in Ed. destruct q; [now apply Nq|cbn [length] in Ed; lia].
Qed.
Lemma classify_ok x : says x (classify (emsg x) (eexpected x) (efound x)).
Proof.
  unfold classify.
  destruct (contains (str "Empty function call") (emsg x)) eqn:A; [apply within_iff in A; apply Says_call; [exact A|apply first_part_ok; discriminate]|apply within_not in A].
  destruct (contains (str "Invalid time index") (emsg x)) eqn:B; [apply within_iff in B; apply Says_index; [exact A|exact B|apply first_part_ok; discriminate]|apply within_not in B].
  destruct (contains (str "end of text") (lower (emsg x))) eqn:C; [apply within_iff in C|apply within_not in C].
  { destruct (among (efound x) operators) eqn:D; [apply among_iff in D; now apply Says_operator|apply among_not in D; now apply Says_incomplete]. }
  match goal with |- context [if ?c then _ else _] => destruct c eqn:D end.
  { apply Says_operand; try assumption. apply orb_true_iff in D. destruct D as [D|D]; [apply andb_true_iff in D; destruct D as [_ D]; left|right]; now apply within_iff. }
  assert (~ operand_expected x) as N.
  { apply orb_false_iff in D. destruct D as [D1 D2]. intros [H|H]; apply within_iff in H; [|congruence].
    rewrite H in D1. destruct (eexpected x); [discriminate H|discriminate D1]. }
  clear D. destruct (contains (str "(") (emsg x) || contains (str ")") (emsg x))%bool eqn:E.
  { apply Says_parentheses; try assumption. apply orb_true_iff in E. rewrite !within_iff in E. exact E. }
  apply orb_false_iff in E. rewrite !within_not in E. destruct E as [E1 E2].
  destruct (contains (str "[") (emsg x) || contains (str "]") (emsg x))%bool eqn:F.
  { apply Says_variable; try assumption. apply orb_true_iff in F. rewrite !within_iff in F. exact F. }
  apply orb_false_iff in F. rewrite !within_not in F. destruct F. now apply Says_other.
Qed.
Lemma up_to_unique mark s m m' : str mark <> [] -> up_to mark s m -> up_to mark s m' -> m = m'.
Proof.
  intros N [[-> H]|(r & E & H)] [[<- H']|(r' & E' & H')].
  - reflexivity.
  - destruct H. now exists m', r'.
  - destruct H'. now exists m, r.
  - pose proof (H _ _ E'). pose proof (H' _ _ E). rewrite E in E'.
    apply (f_equal (firstn (length m))) in E'. rewrite firstn_app in E'. replace (length m) with (length m') in E' at 3 by lia.
    rewrite (firstn_app (length m) m') in E'. replace (length m - length m) with 0 in E' by lia. replace (length m - length m') with 0 in E' by lia.
    cbn [firstn] in E'. rewrite !app_nil_r, firstn_all in E'. replace (length m) with (length m') in E' by lia. now rewrite firstn_all in E'.
Qed.
Lemma says_unique x m m' : says x m -> says x m' -> m = m'.
Proof.
  intros H H'.
  inversion H; subst; inversion H'; subst; try reflexivity; try tauto.
  - eapply up_to_unique; [|eassumption|eassumption]. discriminate.
  - eapply up_to_unique; [|eassumption|eassumption]. discriminate.
Qed.
Lemma code_ok x : coded x (expression_code (emsg x) (eexpected x)).
Proof.
  unfold expression_code.
  destruct (contains (str "E008") (emsg x) || contains (str "Empty function call") (emsg x))%bool eqn:A.
  { apply orb_true_iff in A. rewrite !within_iff in A. now apply Coded_call. }
  apply orb_false_iff in A. rewrite !within_not in A. destruct A as [A1 A2].
  destruct (contains (str "E010") (emsg x) || contains (str "Invalid time index") (emsg x))%bool eqn:B.
  { apply orb_true_iff in B. rewrite !within_iff in B. now apply Coded_index. }
  apply orb_false_iff in B. rewrite !within_not in B. destruct B as [B1 B2].
  destruct (contains (str "(") (emsg x) || contains (str ")") (emsg x))%bool eqn:C.
  { apply orb_true_iff in C. rewrite !within_iff in C. now apply Coded_parentheses. }
  apply orb_false_iff in C. rewrite !within_not in C. destruct C as [C1 C2].
  match goal with |- context [if ?c then _ else _] => destruct c eqn:D end.
  { apply Coded_other; try assumption. apply andb_true_iff in D. destruct D as [_ D]. rewrite !orb_true_iff, !within_iff in D. unfold operand_expected. tauto. }
  assert (~ operand_expected x /\ ~ within "*" (eexpected x)) as [N1 N2].
  { destruct (eexpected x) as [|c r] eqn:E.
    - unfold operand_expected. rewrite E, <- !within_iff. split; [intros [H|H]; discriminate H|intros H; discriminate H].
    - cbn [andb] in D. rewrite !orb_false_iff, !within_not in D. unfold operand_expected. rewrite E. tauto. }
  destruct (contains (str "[") (emsg x) || contains (str "]") (emsg x))%bool eqn:F.
  { apply orb_true_iff in F. rewrite !within_iff in F. now apply Coded_bracket. }
  apply orb_false_iff in F. rewrite !within_not in F. apply Coded_other; try assumption. tauto.
Qed.

(* ---- the error ---- *)
Theorem C163_message x text context : exists m, says x m /\ (forall m', says x m' -> m' = m) /\
  message (convert_expression x text context) = with_details m (eexpected x) (efound x).
Proof.
  exists (classify (emsg x) (eexpected x) (efound x)). refine (conj (classify_ok x) (conj _ _)).
  - intros m' H. eapply says_unique; [exact H|apply classify_ok].
  - unfold convert_expression, new_grammar, new_error, with_details. cbn [message].
    destruct (eexpected x) as [|c r] eqn:E, (efound x) as [|d s] eqn:F; cbn [expected_list grammar_message]; unfold quoted; rewrite ?app_nil_r, <- ?app_assoc; reflexivity.
Qed.
Theorem C163_code x text ctx : exists n, coded x n /\ code (convert_expression x text ctx) = Some n /\ context (convert_expression x text ctx) = ctx /\
  sev (convert_expression x text ctx) = SError.
Proof. exists (expression_code (emsg x) (eexpected x)). refine (conj (code_ok x) (conj eq_refl (conj eq_refl eq_refl))). Qed.
(* in a text without tabs the place is the one a whole file would have (C131), without an end *)
Theorem C163_place x text context : ~ In tab text -> eloc x <= length text ->
  where_ (convert_expression x text context) = Some (error_location text (eloc x) [] []).
Proof.
  intros NT L. unfold convert_expression, new_grammar, new_error. cbn [where_]. f_equal. unfold expression_location, error_location. cbv zeta.
  rewrite expand_no_tabs by exact NT. unfold strip_quotes at 1. cbn [lstrip rev].
  f_equal. destruct (position text (eloc x) L) as [H _]. unfold lines, nl in *.
  assert ((0 <? lineno (eloc x) text)%nat && (lineno (eloc x) text <=? length (split [newline] text))%nat = true)%bool as R.
  { apply andb_true_iff. split; [apply Nat.ltb_lt|apply Nat.leb_le]; unfold lineno; lia. }
  rewrite R. destruct (nth (lineno (eloc x) text - 1) (split [newline] text) []) eqn:E; destruct text; reflexivity.
Qed.
(* pyparsing shows what it found between quotes, or says "end of text": then the operator is never named *)
Theorem C163_operator_refuted x : (exists r, efound x = str "'" ++ r) \/ efound x = str "end of text" \/ efound x = [] ->
  within "end of text" (lower (emsg x)) -> ~ within "Empty function call" (emsg x) -> ~ within "Invalid time index" (emsg x) ->
  says x (str "Incomplete expression").
Proof.
  intros F H A B. apply Says_incomplete; try assumption. cbn [map In].
  destruct F as [(r & ->)|[-> | ->]]; intros [E|[E|[E|[E|[E|[E|[]]]]]]]; discriminate E.
Qed.
(* the grammar's own errors are shown with the marks they are encoded with *)
Lemma dotless_within s t : (exists r, str s = "."%char :: r) -> ~ In "."%char t -> ~ within s t.
Proof. intros (r & E) N (a & b & ->). apply N. rewrite E. apply in_or_app. right. left. reflexivity. Qed.
Theorem C163_marks_refuted s l expected found text context :
  (forall name, ~ In "."%char name ->
     says (Exception (msg (empty_call s l name)) expected found l) (msg (empty_call s l name)) /\
     within "||GCN||E008||GCN||" (message (convert_expression (Exception (msg (empty_call s l name)) expected found l) text context))) /\
  (forall name inner, ~ In "."%char name -> ~ In "."%char inner -> ~ within "Empty function call" (msg (bad_index s l name inner)) ->
     says (Exception (msg (bad_index s l name inner)) expected found l) (msg (bad_index s l name inner)) /\
     within "||GCN||E010||GCN||" (message (convert_expression (Exception (msg (bad_index s l name inner)) expected found l) text context))).
Proof.
  split.
  - intros name N. set (x := Exception (msg (empty_call s l name)) expected found l).
    assert (msg (empty_call s l name) = str "Empty function call '" ++ name ++ str "()'" ++ str "||GCN||E008||GCN||" ++ name ++ str "()||GCN||") as E.
    { unfold empty_call. rewrite msg_form. change (code_name 8) with (str "E008"). change SEPARATOR with (str "||GCN||"). cbn [join].
      rewrite app_nil_r, <- !app_assoc. reflexivity. }
    assert (says x (msg (empty_call s l name))) as S.
    { apply Says_call; cbn [emsg x].
      - exists [], (str " '" ++ name ++ str "()'" ++ str "||GCN||E008||GCN||" ++ name ++ str "()||GCN||"). rewrite E. reflexivity.
      - left. split; [reflexivity|]. apply dotless_within; [now eexists|]. rewrite E.
        rewrite !in_app_iff. cbn [In str list_ascii_of_string]. intuition discriminate. }
    split; [exact S|]. destruct (C163_message x text context) as (m & _ & U & ->). rewrite <- (U _ S), E. unfold with_details, within.
    match goal with |- exists a b, _ ++ ?d = _ => exists (str "Empty function call '" ++ name ++ str "()'"), (name ++ str "()||GCN||" ++ d) end.
    rewrite <- !app_assoc. reflexivity.
  - intros name inner N N' A. set (x := Exception (msg (bad_index s l name inner)) expected found l).
    assert (msg (bad_index s l name inner) = str "Invalid time index '[" ++ inner ++ str "]' for variable '" ++ name ++ str "'" ++ str "||GCN||E010||GCN||" ++ str "[" ++ inner ++ str "]||GCN||") as E.
    { unfold bad_index. rewrite msg_form. change (code_name 10) with (str "E010"). change SEPARATOR with (str "||GCN||"). cbn [join].
      rewrite app_nil_r, <- !app_assoc. reflexivity. }
    assert (says x (msg (bad_index s l name inner))) as S.
    { apply Says_index; cbn [emsg x]; [exact A| |].
      - eexists [], _. rewrite E. reflexivity.
      - left. split; [reflexivity|]. apply dotless_within; [now eexists|]. rewrite E.
        rewrite !in_app_iff. cbn [In str list_ascii_of_string]. intuition discriminate. }
    split; [exact S|]. destruct (C163_message x text context) as (m & _ & U & ->). rewrite <- (U _ S), E. unfold with_details, within.
    match goal with |- exists a b, _ ++ ?d = _ =>
      exists (str "Invalid time index '[" ++ inner ++ str "]' for variable '" ++ name ++ str "'"), (str "[" ++ inner ++ str "]||GCN||" ++ d) end.
    rewrite <- !app_assoc. reflexivity.
Qed.
(* the code need not be the one of what is said *)
Theorem C163_codes_differ_refuted s l inner context :
  ~ within "Empty function call" (msg (bad_index s l (str "E008") inner)) ->
  (let x := Exception (msg (bad_index s l (str "E008") inner)) [] [] l in
   within "Invalid time index" (message (convert_expression x s context)) /\ code (convert_expression x s context) = Some 8) /\
  (let x := Exception (str "Expected ')'") (str "+ operations") [] l in
   message (convert_expression x s context) = str "Missing operand after operator. Expected '+ operations'" /\ code (convert_expression x s context) = Some 7).
Proof.
  intros A. cbv zeta. split; [|split; reflexivity].
  set (x := Exception (msg (bad_index s l (str "E008") inner)) [] [] l).
  assert (within "E008" (emsg x)) as W.
  { cbn [emsg x]. unfold bad_index. rewrite msg_form.
    match goal with |- within _ ((_ ++ _ ++ _ ++ _ ++ ?q) ++ ?d) => exists (str "Invalid time index '[" ++ inner ++ str "]' for variable '"), (q ++ d) end.
    rewrite <- !app_assoc. reflexivity. }
  split.
  - destruct (C163_message x s context) as (m & S & _ & ->).
    destruct S as [? B|? _ _ U|_ B|_ B|_ B|_ B|_ B|_ B];
      try (destruct (A B)); try (exfalso; apply B; cbn [emsg x]; unfold bad_index; rewrite msg_form; eexists [], _; cbn [app]; rewrite <- !app_assoc; reflexivity).
    destruct U as [[<- _]|(r & E & _)].
    + cbn [emsg x]. unfold bad_index. rewrite msg_form. rewrite <- !app_assoc. eexists [], _. reflexivity.
    + assert (exists q, emsg x = str "Invalid time index" ++ q) as (q & Eq).
      { cbn [emsg x]. unfold bad_index. rewrite msg_form. rewrite <- !app_assoc. eexists. reflexivity. }
      (* the first mark is not inside the first words *)
      destruct (Nat.le_gt_cases (length (str "Invalid time index")) (length m)) as [L|L].
      * exists [], (skipn (length (str "Invalid time index")) m ++ with_details [] (eexpected x) (efound x)). cbn [app].
        unfold with_details at 1. rewrite <- (firstn_skipn (length (str "Invalid time index")) m) at 1. rewrite <- app_assoc.
        assert (firstn (length (str "Invalid time index")) m = str "Invalid time index") as F.
        { rewrite E in Eq. apply (f_equal (firstn (length (str "Invalid time index")))) in Eq. rewrite firstn_app in Eq.
          replace (length (str "Invalid time index") - length m) with 0 in Eq by lia. cbn [firstn] in Eq. rewrite app_nil_r in Eq. exact Eq. }
        rewrite F. reflexivity.
      * exfalso. rewrite E in Eq. apply (f_equal (fun t => nth_error t (length m))) in Eq.
        rewrite nth_error_app2 in Eq by lia. rewrite Nat.sub_diag in Eq. rewrite (nth_error_app1 (str "Invalid time index") q L) in Eq.
        cbn [str list_ascii_of_string app nth_error] in Eq. symmetry in Eq. apply nth_error_In in Eq. cbn [str list_ascii_of_string In] in Eq. intuition discriminate.
  - destruct (C163_code x s context) as (n & C & E & _). rewrite E. f_equal. inversion C; tauto.
Qed.

(* ---- the catalogue ---- *)
Theorem C163_help catalogue name :
  (forall c, nth_error code_names c = Some name ->
     get_error_info catalogue name = Some (catalogue c) /\
     format_error_help catalogue name =
       name ++ str ": " ++ i_title (catalogue c) ++ nl ++ nl ++ i_explanation (catalogue c) ++ nl ++ nl ++ str "Common causes:" ++
       concat (map (fun w => nl ++ str "  - " ++ w) (causes (catalogue c))) ++ nl ++ nl ++ str "How to fix:" ++
       concat (map (fun w => nl ++ str "  - " ++ w) (remedies (catalogue c)))) /\
  (~ In name code_names -> get_error_info catalogue name = None /\ format_error_help catalogue name = []).
Proof.
  assert (J : forall (l : list chars) x, join nl (x :: l) = x ++ concat (map (fun w => nl ++ w) l)).
  { induction l as [|y r IH]; intros x; [cbn; now rewrite app_nil_r|]. change (join nl (x :: y :: r)) with (x ++ nl ++ join nl (y :: r)).
    rewrite IH. cbn [map concat]. now rewrite <- !app_assoc. }
  split.
  - intros c H. unfold get_error_info, format_error_help. rewrite (index_of_nth _ _ codes_nodup _ 0 H). cbn [Nat.add option_map]. split; [reflexivity|].
    unfold format_help. cbn [app]. rewrite J. cbn [map concat]. rewrite map_app, concat_app. cbn [map concat].
    unfold code_name at 1. rewrite (nth_error_nth _ _ _ H). rewrite !map_map, <- !app_assoc. cbn [app]. reflexivity.
  - intros N. unfold get_error_info, format_error_help. destruct (index_of name code_names 0) as [c|] eqn:E; [|split; reflexivity].
    apply index_of_inv in E. destruct E as (i & _ & E). apply nth_error_In in E. destruct (N E).
Qed.

(* ---- a case ---- *)
Theorem C163_case :
  let text := str "a + b[-1] +" in let x := Exception (str "Expected end of text") [] (str "'+'") 10 in
  ~ In tab text /\ eloc x <= length text /\ says x (str "Incomplete expression") /\ coded x 6 /\
  message (convert_expression x text (str "observation_equations['y']")) = str "Incomplete expression. Found ''+''" /\
  option_map column (where_ (convert_expression x text [])) = Some 11 /\
  message (convert_expression (Exception (msg (empty_call (str "f()") 0 (str "f"))) [] [] 0) (str "f()") []) =
    str "Empty function call 'f()'||GCN||E008||GCN||f()||GCN||" /\
  ~ within "Empty function call" (msg (bad_index (str "E008[q]") 0 (str "E008") (str "q"))) /\
  nth_error code_names 7 = Some (str "E007") /\ ~ In (str "E999") code_names.
Proof.
  cbv zeta. refine (conj _ (conj _ (conj _ (conj _ (conj eq_refl (conj eq_refl (conj eq_refl (conj _ (conj eq_refl _))))))))).
  - cbn [str list_ascii_of_string In]. intuition discriminate.
  - cbn. lia.
  - exact (classify_ok (Exception (str "Expected end of text") [] (str "'+'") 10)).
  - exact (code_ok (Exception (str "Expected end of text") [] (str "'+'") 10)).
  - apply within_not. vm_compute. reflexivity.
  - intros H. cbn [code_names map In] in H. repeat (destruct H as [H|H]; [discriminate H|]). destruct H.
Qed.
