(* The statements on parse errors: their data, their positions, their suggestions. *)
From Coq Require Import QArith Permutation Sorted.
From Verif Require Import Common Sort_Lib SymDict_Model Err_Model Err_Spec Err_Proofs.
From Verif Require SymDict_More Build_Proofs.
Local Open Scope nat_scope.

(* ---- C130: the data of a failure survive as text ---- *)
Definition no_blank (s : chars) : bool := match s with [] => false | _ => true end.
Lemma sep_nonempty : SEPARATOR <> []. Proof. discriminate. Qed.
Lemma comma_nonempty : comma <> []. Proof. discriminate. Qed.
Lemma msg_form s l m code found suggs :
  msg (new_failure s l m code found suggs) = m ++ SEPARATOR ++ code_name code ++ SEPARATOR ++ found ++ SEPARATOR ++ join comma suggs.
Proof. reflexivity. Qed.
Lemma msg_contains s l m code found suggs : contains SEPARATOR (msg (new_failure s l m code found suggs)) = true.
Proof. apply contains_iff. rewrite msg_form. exists m. eexists. reflexivity. Qed.
Lemma split_suggestions suggs : (forall x, In x suggs -> ~ In ","%char x) -> filter no_blank (split comma (join comma suggs)) = filter no_blank suggs.
Proof.
  intro H. destruct suggs as [|x0 r0]; [reflexivity|]. destruct (@exists_last _ (x0 :: r0)) as [l [x E]]; [discriminate|]. rewrite E in *.
  f_equal. apply (split_join comma comma_nonempty).
  - apply Forall_forall. intros y Hy. apply clean_char, H. apply in_or_app. now left.
  - apply contains_char, H. apply in_or_app. right. now left.
Qed.
Theorem C130_survives s l m code found suggs pp_found : code < length code_names ->
  clean SEPARATOR m -> clean SEPARATOR found -> contains SEPARATOR (join comma suggs) = false -> (forall x, In x suggs -> ~ In ","%char x) ->
  decode (msg (new_failure s l m code found suggs)) pp_found = (m, code, found, filter no_blank suggs).
Proof.
  intros Hc Hm Hf Hs Hx. unfold decode. rewrite msg_contains.
  assert (E : split SEPARATOR (msg (new_failure s l m code found suggs)) = [m; code_name code; found; join comma suggs]).
  { apply (split_join SEPARATOR sep_nonempty [m; code_name code; found]); [|exact Hs]. repeat (constructor; [first [assumption|apply code_clean]|]). constructor. }
  rewrite E, code_name_inverse by exact Hc. fold no_blank. now rewrite split_suggestions.
Qed.
(* a text without a vertical bar can always be read back *)
Theorem C130_no_bar f : ~ In "|"%char f -> clean SEPARATOR f.
Proof.
  intros H a b E. destruct (Nat.le_gt_cases (length f) (length a)) as [L|L].
  - apply (f_equal (@length ascii)) in E. rewrite !app_length in E. destruct b; [reflexivity|cbn [length] in E; lia].
  - exfalso. apply H.
    assert (En : nth_error (f ++ SEPARATOR) (length a) = Some "|"%char) by (rewrite E, nth_error_app2, Nat.sub_diag by lia; reflexivity).
    rewrite nth_error_app1 in En by exact L. eapply nth_error_In. exact En.
Qed.
(* and only what is clean can be read back *)
Theorem C130_only_clean s l m code found suggs pp_found r : code <> 0 ->
  decode (msg (new_failure s l m code found suggs)) pp_found = (m, code, found, r) -> clean SEPARATOR m /\ clean SEPARATOR found.
Proof.
  intros Hc H. unfold decode in H. rewrite msg_contains in H. set (whole := msg (new_failure s l m code found suggs)) in *.
  destruct (split SEPARATOR whole) as [|p0 [|p1 [|p2 [|p3 [|p4 rest]]]]] eqn:E; try (injection H; intros; congruence).
  injection H as H0 H1 H2 _. subst p0 p2.
  destruct (split_first SEPARATOR sep_nonempty (length whole) whole []) as [q [t [Eq [[-> _]|[u [_ [C0 [-> Lu]]]]]]]]; [lia|intros x y _; cbn; lia| |].
  { unfold split in E. congruence. }
  unfold split in E. rewrite E in Eq. injection Eq as <- Et.
  destruct (split_first SEPARATOR sep_nonempty (length u) u []) as [q1 [t1 [Eq1 [[-> _]|[u1 [_ [C1 [-> Lu1]]]]]]]]; [lia|intros x y _; cbn; lia| |].
  { congruence. }
  rewrite <- Et in Eq1. injection Eq1 as <- Et1.
  destruct (split_first SEPARATOR sep_nonempty (length u1) u1 []) as [q2 [t2 [Eq2 [[-> _]|[u2 [_ [C2 [-> Lu2]]]]]]]]; [lia|intros x y _; cbn; lia| |].
  { congruence. }
  rewrite <- Et1 in Eq2. injection Eq2 as <- _. auto.
Qed.
(* a copy carries the same data *)
Theorem C130_copy s l m code found suggs : clean SEPARATOR m ->
  copy (new_failure s l m code found suggs) = new_failure s l m code found suggs.
Proof.
  intro Hm. unfold copy. rewrite msg_contains.
  assert (E : nth 0 (split SEPARATOR (msg (new_failure s l m code found suggs))) [] = m).
  { rewrite msg_form. unfold split. rewrite (split_clean SEPARATOR sep_nonempty) by exact Hm. reflexivity. }
  rewrite E. reflexivity.
Qed.
(* messages of other exceptions are passed on as they are *)
Theorem C130_plain message pp_found : contains SEPARATOR message = false -> decode message pp_found = (message, 0, pp_found, []).
Proof. intro H. unfold decode. now rewrite H. Qed.
(* but a date in the user's text may hold the separator, and then the code and the message are lost *)
Theorem C130_separator_in_source_refuted :
  let found := str "[a||GCN||b]" in
  let m := str "Invalid time index '[a||GCN||b]' for variable 'Y'" in
  let w := msg (new_failure (str "Y[a||GCN||b] = 1;") 0 m 10 found []) in
  code_name 10 = str "E010" /\ decode w [] = (w, 0, [], []).
Proof. now split. Qed.
Theorem C130_case : decode (msg (new_failure (str "x") 0 (str "Unknown distribution 'Norml'") 19 (str "Norml") [str "Normal"; str "LogNormal"])) [] =
  (str "Unknown distribution 'Norml'", 19, str "Norml", [str "Normal"; str "LogNormal"]).
Proof. reflexivity. Qed.

(* ---- C131: where an error is shown ---- *)
Lemma unlines_lines s : forall n, n < length (lines s) ->
  exists after, s = unlines (firstn n (lines s)) ++ nth n (lines s) [] ++ after /\ (after = [] \/ exists r, after = newline :: r).
Proof.
  induction s as [|x s IH]; intros n Hn.
  - exists []. cbn in *. assert (n = 0) by lia. subst. auto.
  - rewrite lines_cons in *. destruct (is_newline x) eqn:Ex.
    + apply is_newline_iff in Ex. subst x. destruct n as [|n].
      * exists (newline :: s). cbn. eauto.
      * cbn [length] in Hn. destruct (IH n) as [after [E H]]; [lia|]. exists after. split; [|exact H]. cbn [firstn nth].
        change (unlines ([] :: firstn n (lines s))) with (newline :: unlines (firstn n (lines s))). cbn [app]. now rewrite <- E.
    + destruct (lines s) as [|h t] eqn:El; [cbn in Hn; lia|]. destruct n as [|n].
      * destruct (IH 0) as [after [E H]]; [cbn; lia|]. exists after. split; [|exact H]. cbn in *. now rewrite <- E.
      * destruct (IH (S n)) as [after [E H]]; [cbn in *; lia|]. exists after. split; [|exact H]. cbn [firstn nth] in *.
        unfold unlines in *. cbn [map concat app] in *. now rewrite <- E.
Qed.
Section Where.
Variables (text found fname : chars) (l : nat).
Hypothesis no_tabs : ~ In tab text.
Hypothesis inside : l <= length text.
Notation p := (error_location text l found fname).
Lemma p_line : line p = count_newlines (firstn l text) + 1.
Proof. cbn [error_location line]. rewrite expand_no_tabs by exact no_tabs. reflexivity. Qed.
Lemma p_column : column p = l + 1 - after_last_newline (firstn l text).
Proof. cbn [error_location column]. rewrite expand_no_tabs by exact no_tabs. now apply col_simple. Qed.
Lemma p_after : after_last_newline (firstn l text) <= l.
Proof. pose proof (after_last_le (firstn l text)) as H. rewrite firstn_length_le in H; lia. Qed.
Lemma p_source : source_line p = nth (count_newlines (firstn l text)) (lines text) [].
Proof.
  cbn [error_location source_line]. rewrite expand_no_tabs by exact no_tabs. unfold lineno. rewrite Nat.add_sub.
  destruct (position text l inside) as [H _]. unfold lines in *.
  replace ((0 <? count_newlines (firstn l text) + 1) && (count_newlines (firstn l text) + 1 <=? length (split [newline] text))) with true; [reflexivity|].
  symmetry. apply andb_true_intro. split; [apply Nat.ltb_lt|apply Nat.leb_le]; lia.
Qed.
(* the line shown is the line of the position, and the column counts from its start *)
Theorem C131_position : exists before after,
  text = unlines before ++ source_line p ++ after /\ (after = [] \/ exists r, after = newline :: r) /\
  ~ In newline (source_line p) /\ Forall (fun b => ~ In newline b) before /\
  line p = length before + 1 /\ 1 <= column p <= length (source_line p) + 1 /\ l = length (unlines before) + (column p - 1).
Proof.
  rewrite p_line, p_column, p_source. pose proof p_after as PA. destruct (position text l inside) as [H1 [H2 H3]].
  set (n := count_newlines (firstn l text)) in *. destruct (unlines_lines text n H1) as [after [E Ha]].
  exists (firstn n (lines text)), after. split; [exact E|]. split; [exact Ha|]. split; [eapply lines_no_newline, nth_In, H1|]. split.
  { apply Forall_forall. intros b Hb. eapply lines_no_newline. rewrite <- (firstn_skipn n (lines text)). apply in_or_app. left. exact Hb. }
  split; [now rewrite firstn_length_le by lia|]. split; [lia|].
  apply (f_equal (@length ascii)) in H3. rewrite app_length, !firstn_length_le in H3 by lia. lia.
Qed.
(* so the character in that column is the one at the position *)
Theorem C131_character c : nth_error text l = Some c -> c <> newline -> nth_error (source_line p) (column p - 1) = Some c.
Proof.
  intros Hc Nc. destruct C131_position as [before [after [E [Ha [_ [_ [_ [[_ Hcol] L]]]]]]]].
  generalize dependent (source_line p). generalize dependent (column p). intros cl L sl E Hcol. subst l text.
  rewrite nth_error_app2 in Hc by lia. replace (length (unlines before) + (cl - 1) - length (unlines before)) with (cl - 1) in Hc by lia.
  destruct (Nat.lt_ge_cases (cl - 1) (length sl)) as [Lt|Ge]; [now rewrite nth_error_app1 in Hc by exact Lt|].
  exfalso. rewrite nth_error_app2 in Hc by lia. replace (cl - 1 - length sl) with 0 in Hc by lia.
  destruct Ha as [-> |[r ->]]; [discriminate|]. injection Hc as Hc. now apply Nc.
Qed.
(* the pointer has the columns of the text that was found there *)
Theorem C131_pointer w : strip_quotes found = w -> w <> [] -> firstn (length w) (skipn l text) = w -> ~ In newline w ->
  exists a b, source_line p = a ++ w ++ b /\
    format_pointer "^"%char p = source_line p ++ [newline] ++ repeat " "%char (length a) ++ repeat "^"%char (length w) /\
    indented_pointer p = str "    " ++ source_line p ++ [newline] ++ str "    " ++ repeat " "%char (length a) ++ repeat "^"%char (length w) /\
    to_lsp_range p = ((line p - 1, length a), (line p - 1, length a + length w)).
Proof.
  intros Hw Nw Hat Nn. destruct C131_position as [before [after [E [Ha [Ns [_ [_ [[Hc1 Hc2] L]]]]]]]].
  assert (Sk : skipn l text = skipn (column p - 1) (source_line p ++ after)).
  { transitivity (skipn (length (unlines before) + (column p - 1)) (unlines before ++ source_line p ++ after)); [congruence|].
    rewrite skipn_app, skipn_all2 by lia. cbn [app]. f_equal. lia. }
  rewrite Sk, skipn_app in Hat. replace (column p - 1 - length (source_line p)) with 0 in Hat by lia. rewrite skipn_O in Hat.
  set (a := firstn (column p - 1) (source_line p)). set (r := skipn (column p - 1) (source_line p)) in *.
  assert (La : length a = column p - 1) by (unfold a; rewrite firstn_length_le; lia).
  assert (Fit : length w <= length r).
  { destruct (Nat.le_gt_cases (length w) (length r)) as [Le|Gt]; [exact Le|exfalso]. apply Nn. rewrite <- Hat.
    rewrite firstn_app. apply in_or_app. right. destruct (length w - length r) as [|k] eqn:Ek; [lia|].
    destruct Ha as [-> |[r' ->]]; [|now left]. rewrite app_nil_r in Hat. apply (f_equal (@length ascii)) in Hat. rewrite firstn_length in Hat. lia. }
  rewrite firstn_app in Hat. replace (length w - length r) with 0 in Hat by lia. rewrite firstn_O, app_nil_r in Hat.
  assert (Es : source_line p = a ++ w ++ skipn (length w) r).
  { rewrite <- Hat at 1. rewrite firstn_skipn. unfold a, r. symmetry. apply firstn_skipn. }
  exists a, (skipn (length w) r). split; [exact Es|].
  assert (End : end_column p = Some (column p + length w) /\ end_line p = Some (line p)).
  { cbn [error_location end_column end_line column line] in *. rewrite Hw. destruct w as [|w0 w']; [congruence|].
    destruct (0 <? col l (expandtabs 0 text)) eqn:E0; [split; reflexivity|]. apply Nat.ltb_ge in E0. lia. }
  destruct End as [End1 End2].
  assert (PL : pointer_len p = length w).
  { unfold pointer_len. rewrite End1, End2, Nat.eqb_refl. destruct w; [congruence|]. cbn [length]. lia. }
  assert (FP : format_pointer "^"%char p = source_line p ++ [newline] ++ repeat " "%char (length a) ++ repeat "^"%char (length w)).
  { unfold format_pointer. rewrite PL, La. destruct (source_line p) as [|s0 s'] eqn:E0; [|reflexivity].
    exfalso. destruct a; [|discriminate Es]. destruct w; [congruence|discriminate Es]. }
  split; [exact FP|]. split.
  - unfold indented_pointer. rewrite FP.
    assert (Sp : split [newline] (source_line p ++ [newline] ++ repeat " "%char (length a) ++ repeat "^"%char (length w)) =
                 [source_line p; repeat " "%char (length a) ++ repeat "^"%char (length w)]).
    { apply (split_join [newline] ltac:(discriminate) [source_line p]).
      - constructor; [now apply clean_char|constructor].
      - apply contains_char. intro Hin. apply in_app_or in Hin. destruct Hin as [Hin|Hin]; apply repeat_spec in Hin; discriminate. }
    rewrite Sp. cbn [map join]. now rewrite <- !app_assoc.
  - unfold to_lsp_range. rewrite End1, End2, La. f_equal. f_equal. lia.
Qed.
(* without such a text one column is marked *)
Theorem C131_one_column : strip_quotes found = [] -> source_line p <> [] ->
  format_pointer "^"%char p = source_line p ++ [newline] ++ repeat " "%char (column p - 1) ++ str "^" /\
  to_lsp_range p = ((line p - 1, column p - 1), (line p - 1, column p)).
Proof.
  intros Hw Ne.
  assert (E1 : end_column p = None) by (cbn [error_location end_column]; now rewrite Hw).
  assert (E2 : end_line p = None) by (cbn [error_location end_line]; now rewrite Hw).
  split.
  - unfold format_pointer, pointer_len. rewrite E1. destruct (source_line p); [congruence|]. reflexivity.
  - unfold to_lsp_range. rewrite E1, E2. f_equal. f_equal. lia.
Qed.
End Where.
(* what is shown is the line of the position, so the four cases below are the ones where the marked columns are not the culprit:
   - at the end of the text pyparsing finds "end of text", and eleven columns past the end of the line are marked *)
Theorem C131_end_of_text_refuted text fname : ~ In tab text ->
  let p := error_location text (length text) (str "end of text") fname in
  column p = length (source_line p) + 1 /\ end_column p = Some (column p + 11).
Proof.
  intros Ht p. destruct (C131_position text (str "end of text") fname (length text) Ht (le_n _)) as [before [after [E [Ha [_ [_ [_ [[H1 H2] L]]]]]]]].
  fold p in E, L, H1, H2. assert (La : length after = 0).
  { apply (f_equal (@length ascii)) in E. rewrite !app_length in E. lia. }
  split.
  - apply (f_equal (@length ascii)) in E. rewrite !app_length in E. lia.
  - unfold p in *. cbn [error_location end_column column] in *. change (strip_quotes (str "end of text")) with (str "end of text"). cbn [str list_ascii_of_string length].
    destruct (0 <? col (length text) (expandtabs 0 text)) eqn:E0; [reflexivity|]. apply Nat.ltb_ge in E0. lia.
Qed.
(* - a date that is not valid is reported at the start of its variable *)
Theorem C131_date_refuted : let p := error_location (str "Y[a] = 1;") 0 (str "[a]") [] in
  column p = 1 /\ format_pointer "^"%char p = str "Y[a] = 1;" ++ [newline] ++ str "^^^".
Proof. now split. Qed.
(* - every tab moves the column up to seven places too far: the culprit is the character 5, the column marked is 12 *)
Theorem C131_tab_refuted : let text := [tab] ++ str "x = ;" in let p := error_location text 12 (str "';'") [] in
  nth_error text 5 = Some ";"%char /\ nth_error (expandtabs 0 text) 12 = Some ";"%char /\ source_line p = text /\
  to_lsp_range p = ((0, 12), (0, 13)).
Proof. now repeat split. Qed.

(* the terminal form: the pointer is under its column for the lines 1 to 9999 *)
Lemma pad4_width n : n < 10000 -> length (pad4 n) = 4.
Proof.
  assert (H : forallb (fun n => length (pad4 n) =? 4) (seq 0 10000) = true) by (vm_compute; reflexivity).
  intro L. rewrite forallb_forall in H. apply Nat.eqb_eq, H. apply in_seq. lia.
Qed.
Lemma rstrip_prefix s : exists w, s = rstrip s ++ w.
Proof.
  unfold rstrip. assert (H : forall r, exists w, r = w ++ drop_spaces r).
  { induction r as [|c r [w IH]]; [now exists []|]. cbn [drop_spaces]. destruct (is_space c); [|now exists []]. exists (c :: w). cbn [app]. congruence. }
  destruct (H (rev s)) as [w Hw]. exists (rev w). rewrite <- rev_app_distr, <- Hw, rev_involutive. reflexivity.
Qed.
Theorem C131_terminal n text c k message : n < 10000 -> 0 < k -> rstrip text <> [] ->
  exists gutter gutter', length gutter = 7 /\ length gutter' = 7 /\ format_source_line n text = gutter ++ rstrip text /\
    format_pointer_line c k message = gutter' ++ repeat " "%char (c - 1) ++ repeat "^"%char k ++ match message with [] => [] | _ => " "%char :: message end.
Proof.
  intros Hn Hk Hr. exists (pad4 n ++ str " | "), (str "     | "). rewrite app_length, pad4_width by exact Hn. split; [reflexivity|]. split; [reflexivity|].
  unfold format_source_line, format_pointer_line. destruct (rstrip text); [congruence|]. split; [now rewrite <- app_assoc|].
  replace (Nat.max 1 k) with k by lia. destruct message; reflexivity.
Qed.
Theorem C131_terminal_refuted : length (pad4 10000 ++ str " | ") = 8.
Proof. reflexivity. Qed.
Theorem C131_case : let p := error_location (str "block A" ++ [newline] ++ str "  foo { x" ++ [newline]) 10 (str "foo") (str "m.gcn") in
  line p = 2 /\ column p = 3 /\ format_pointer "^"%char p = str "  foo { x" ++ [newline] ++ str "  ^^^".
Proof. now repeat split. Qed.

(* ---- C132: suggestions ---- *)
Section Similar.
Variables (lower : chars -> chars) (ratio : chars -> chars -> Q).
Notation similar := (find_similar_names lower ratio).
Notation score name c := (ratio (lower name) (lower c)).
(* the candidates that are similar enough *)
Definition eligible (name : chars) (candidates : list chars) (least : Q) : list (Q * chars) :=
  filter (fun x => Qle_bool least (fst x)) (map (fun c => (score name c, c)) candidates).
Lemma eligible_iff name candidates least x :
  In x (eligible name candidates least) <-> exists c, In c candidates /\ x = (score name c, c) /\ (least <= score name c)%Q.
Proof.
  unfold eligible. rewrite filter_In, in_map_iff, Qle_bool_iff. split.
  - intros [[c [<- H]] Hq]. exists c. auto.
  - intros [c [H [-> Hq]]]. split; [exists c|]; auto.
Qed.
(* the answer is the best ones of the candidates that are similar enough, the best one first, and as many as asked for *)
Theorem C132_best name candidates n least : (0 <= n)%Z -> (forall c, In c candidates -> lower c <> lower name) ->
  exists kept rest, similar name candidates n least = map snd kept /\
    Permutation (eligible name candidates least) (kept ++ rest) /\
    StronglySorted better kept /\ (forall a b, In a kept -> In b rest -> better a b) /\
    length kept = Nat.min (Z.to_nat n) (length (eligible name candidates least)).
Proof.
  intros Hn Hex. unfold find_similar_names.
  replace (existsb (fun c => chars_eqb (lower c) (lower name)) candidates) with false.
  2:{ symmetry. destruct (existsb (fun c => chars_eqb (lower c) (lower name)) candidates) eqn:E; [|reflexivity].
      apply existsb_exists in E. destruct E as [c [H1 H2]]. apply chars_eqb_eq in H2. now destruct (Hex c H1). }
  fold (eligible name candidates least). cbv zeta. set (sorted := isort sim_leb (eligible name candidates least)).
  assert (Srt : StronglySorted better sorted).
  { pose proof (isort_sorted sim_leb sim_total sim_trans (eligible name candidates least)) as H. fold sorted in H.
    clear - H. induction H as [|x l Hs IH Hx]; constructor; auto. eapply Forall_impl; [|exact Hx]. intros y Hy. now apply sim_leb_iff. }
  unfold py_take. destruct (Z.ltb_spec n 0) as [L|_]; [lia|].
  exists (firstn (Z.to_nat n) sorted), (skipn (Z.to_nat n) sorted). split; [reflexivity|]. rewrite firstn_skipn. split; [apply isort_perm|].
  assert (Sp : StronglySorted better (firstn (Z.to_nat n) sorted) /\
    (forall a b, In a (firstn (Z.to_nat n) sorted) -> In b (skipn (Z.to_nat n) sorted) -> better a b)).
  { clear - Srt. generalize (Z.to_nat n) as k. induction Srt as [|x l Hs IH Hx]; intro k.
    - rewrite firstn_nil, skipn_nil. split; [constructor|intros a b []].
    - destruct k as [|k]; [split; [constructor|intros a b []]|]. cbn [firstn skipn]. destruct (IH k) as [I1 I2]. rewrite Forall_forall in Hx. split.
      + constructor; [exact I1|]. apply Forall_forall. intros y Hy. apply Hx. rewrite <- (firstn_skipn k l). apply in_or_app. now left.
      + intros a b [<-|Ha] Hb; [|now apply I2]. apply Hx. rewrite <- (firstn_skipn k l). apply in_or_app. now right. }
  destruct Sp as [S1 S2]. split; [exact S1|]. split; [exact S2|]. rewrite firstn_length. unfold sorted. now rewrite isort_length.
Qed.
(* the candidates come from sets: the answer does not depend on their order *)
Theorem C132_order name c1 c2 n least : Permutation c1 c2 -> similar name c1 n least = similar name c2 n least.
Proof.
  intro P. unfold find_similar_names.
  assert (Ex : existsb (fun c => chars_eqb (lower c) (lower name)) c1 = existsb (fun c => chars_eqb (lower c) (lower name)) c2).
  { apply eq_true_iff_eq. rewrite !existsb_exists. split; intros [c [H1 H2]]; exists c; split; auto; eapply Permutation_in; try eassumption. now symmetry. }
  rewrite Ex. destruct (existsb (fun c => chars_eqb (lower c) (lower name)) c2); [reflexivity|].
  fold (eligible name c1 least) (eligible name c2 least). cbv zeta. do 2 f_equal.
  apply (isort_canonical sim_leb sim_total sim_trans).
  - unfold eligible. assert (PM := Permutation_map (fun c => (score name c, c)) P).
    clear -PM. induction PM; cbn [filter]; auto.
    + destruct (Qle_bool least (fst x)); auto.
    + destruct (Qle_bool least (fst y)), (Qle_bool least (fst x)); auto. apply perm_swap.
    + etransitivity; eassumption.
  - intros x y Hx Hy H1 H2. apply eligible_iff in Hx, Hy. destruct Hx as [a [_ [-> _]]]. destruct Hy as [b [_ [-> _]]].
    apply sim_leb_iff in H1, H2. cbn [fst snd] in *.
    assert (chars_leb a b = true /\ chars_leb b a = true) as [L1 L2].
    { destruct H1 as [H1|[E1 L1]], H2 as [H2|[E2 L2]]; auto; exfalso.
      - now apply (Qlt_not_le _ _ H1), Qlt_le_weak.
      - rewrite E2 in H1. now apply (Qlt_irrefl _ H1).
      - rewrite E1 in H2. now apply (Qlt_irrefl _ H2). }
    assert (a = b) by (now apply Build_Proofs.chars_leb_antisym). congruence.
Qed.
(* nothing is suggested for a known name, and not for one that is only written in another case either *)
Theorem C132_other_case_refuted name candidates c n least : In c candidates -> lower c = lower name -> similar name candidates n least = [].
Proof.
  intros H E. unfold find_similar_names. replace (existsb (fun c => chars_eqb (lower c) (lower name)) candidates) with true; [reflexivity|].
  symmetry. apply existsb_exists. exists c. split; [exact H|]. now apply chars_eqb_eq.
Qed.
End Similar.
(* a concrete case, with the share of equal leading letters as the similarity *)
Fixpoint agree (a b : chars) : nat := match a, b with x :: a', y :: b' => if ascii_dec x y then S (agree a' b') else agree a' b' | _, _ => 0 end.
Definition share (a b : chars) : Q := (Z.of_nat (2 * agree a b) # Pos.of_nat (length a + length b)).
Theorem C132_case : find_similar_names (fun s => s) share (str "gamme") [str "beta"; str "gamut"; str "gamma"; str "gammy"] 2 (6 # 10) = [str "gamma"; str "gammy"].
Proof. reflexivity. Qed.
