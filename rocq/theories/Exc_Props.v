(* C157: the text of validation errors *)
From Verif Require Import Common Dec_Lib Err_Model Err_Proofs Errs_Model Fmt_Model Fmt_Props Exc_Model.
From Coq Require Import Permutation.
Local Open Scope list_scope.

(* ---- specification ---- *)
(* a file is made of these lines: each ended by a line feed, but perhaps the last *)
Definition file_of (ls : list chars) (s : chars) : Prop :=
  Forall (fun l => ~ In newline l) ls /\
  (s = flat_map (fun l => l ++ [newline]) ls \/ exists front l, ls = front ++ [l] /\ l <> [] /\ s = flat_map (fun l => l ++ [newline]) front ++ l).
(* a number written on the right of w places *)
Definition right_of (w n : nat) (d : chars) : Prop := exists k, d = repeat " "%char k ++ num n /\ (length (num n) <= w -> length d = w).
Definition head_of (e : verror) : chars :=
  match v_code e with Some c => str "error[" ++ c ++ str "]: " ++ base_message e | None => base_message e end.
Definition place_of (e : verror) (p : location) : chars :=
  str "  --> " ++ (match v_filepath e with [] => str "<source>" | f => f end) ++ str ":" ++ num (line p) ++ str ":" ++ num (Nat.max 1 (column p)).
(* line n of the file, with its number; spaces at its end are not shown *)
Definition show (w n : nat) (t : chars) : chars :=
  str "  " ++ padded w n ++ str " |" ++ match rstrip t with [] => [] | r => " "%char :: r end.
(* how many characters are marked *)
Definition marked (p : location) : nat := match end_column p with Some ec => if column p <? ec then ec - column p else 1 | None => 3 end.

(* ---- lemmas ---- *)
Lemma nl_same : Exc_Model.nl = Errs_Model.nl. Proof. reflexivity. Qed.
Lemma join_cons' (l : chars) r : r <> [] -> join Exc_Model.nl (l :: r) = l ++ [newline] ++ join Exc_Model.nl r.
Proof. destruct r; [congruence|reflexivity]. Qed.
Lemma flat_join (ls : list chars) : flat_map (fun l => l ++ [newline]) ls = join Exc_Model.nl (ls ++ [[]]).
Proof.
  induction ls as [|l ls IH]; [reflexivity|]. cbn [flat_map]. rewrite IH. change ((l :: ls) ++ [[]]) with (l :: (ls ++ [[]])).
  rewrite join_cons' by (destruct ls; discriminate). rewrite <- app_assoc. reflexivity.
Qed.
Lemma join_last (front : list chars) l : flat_map (fun l => l ++ [newline]) front ++ l = join Exc_Model.nl (front ++ [l]).
Proof.
  induction front as [|x front IH]; [reflexivity|]. cbn [flat_map]. rewrite <- app_assoc, IH. change ((x :: front) ++ [l]) with (x :: (front ++ [l])).
  rewrite join_cons' by (destruct front; discriminate). rewrite <- app_assoc. reflexivity.
Qed.
Lemma splitlines_ok ls s : file_of ls s -> splitlines s = ls.
Proof.
  intros [N [E|(front & l & -> & Hl & E)]].
  - rewrite flat_join in E. unfold splitlines. rewrite nl_same in *. rewrite (split_lines (ls ++ [[]]) s).
    + rewrite last_last. now rewrite removelast_last.
    + split; [destruct ls; discriminate|]. split; [exact E|]. apply Forall_app. split; [exact N|]. constructor; [intros []|constructor].
  - rewrite join_last in E. unfold splitlines. rewrite nl_same in *. rewrite (split_lines (front ++ [l]) s).
    + rewrite last_last. destruct l; [congruence|reflexivity].
    + split; [destruct front; discriminate|]. split; [exact E|exact N].
Qed.
Lemma padded_right w n : right_of w n (padded w n).
Proof.
  unfold right_of, padded. exists (w - length (num n)). split; [reflexivity|]. intro L. rewrite app_length, repeat_length. lia.
Qed.
Lemma shown_is w n t : shown_line w n t = show w n t.
Proof. unfold shown_line, show. destruct (rstrip t); rewrite <- ?app_assoc; reflexivity. Qed.
Lemma context_is w p a ls first last : S first <= line p <= last ->
  context w p a ls first last =
    map (fun n => show w n (nth (n - 1) ls [])) (seq (S first) (line p - S first)) ++
    [show w (line p) (nth (line p - 1) ls []); caret_line w p a] ++
    map (fun n => show w n (nth (n - 1) ls [])) (seq (S (line p)) (last - line p)).
Proof.
  intros [H1 H2]. unfold context.
  assert (F : forall k n, (n + k < line p \/ line p <= n) ->
    flat_map (fun i => shown_line w (i + 1) (nth i ls []) :: (if i + 1 =? line p then [caret_line w p a] else [])) (seq n k) =
    map (fun m => show w m (nth (m - 1) ls [])) (seq (S n) k)).
  { induction k as [|k IH]; intros n H; [reflexivity|]. cbn [seq flat_map map]. rewrite IH by lia. rewrite shown_is.
    destruct (Nat.eqb_spec (n + 1) (line p)); [lia|]. replace (S n - 1) with n by lia. replace (n + 1) with (S n) by lia. reflexivity. }
  replace (last - first) with ((line p - S first) + S (last - line p)) by lia. rewrite seq_app, flat_map_app. rewrite F by lia. f_equal.
  replace (first + (line p - S first)) with (line p - 1) by lia. cbn [seq flat_map]. rewrite F by lia. rewrite shown_is.
  replace (line p - 1 + 1) with (line p) by lia. rewrite Nat.eqb_refl. cbn [app]. do 2 f_equal. replace (S (line p - 1)) with (line p) by lia. reflexivity.
Qed.

(* the message, the place, the line before (if there is one), the line with its carets, up to two lines after, the notes *)
Theorem C157_source_shown e p s ls : v_source e = Some s -> v_location e = Some p -> file_of ls s -> 1 <= line p <= length ls ->
  exists w, w = length (num (Nat.min (length ls) (line p + 2))) /\
  format_message e = join Exc_Model.nl
    ([head_of e; place_of e p; str "     |"] ++
     (if line p =? 1 then [] else [show w (line p - 1) (nth (line p - 2) ls [])]) ++
     [show w (line p) (nth (line p - 1) ls []); caret_line w p (v_annotation e)] ++
     (if line p + 1 <=? length ls then [show w (line p + 1) (nth (line p) ls [])] else []) ++
     (if line p + 2 <=? length ls then [show w (line p + 2) (nth (line p + 1) ls [])] else []) ++
     [str "     |"] ++ map (fun n => str "   = note: " ++ n) (v_notes e)).
Proof.
  intros Hs Hp Hf L. eexists. split; [reflexivity|]. set (w := length _).
  unfold format_message. rewrite Hs, Hp. unfold format_with_source. rewrite (splitlines_ok ls s Hf).
  destruct (Nat.ltb_spec (line p) 1); [lia|]. destruct (Nat.ltb_spec (length ls) (line p)); [lia|]. cbn [orb].
  rewrite Nat.max_0_l. fold w. rewrite context_is by lia.
  assert (B : map (fun n => show w n (nth (n - 1) ls [])) (seq (S (line p - 2)) (line p - S (line p - 2))) =
    if line p =? 1 then [] else [show w (line p - 1) (nth (line p - 2) ls [])]).
  { destruct (Nat.eqb_spec (line p) 1) as [E|E].
    - rewrite E. reflexivity.
    - replace (line p - S (line p - 2)) with 1 by lia. cbn [seq map]. replace (S (line p - 2)) with (line p - 1) by lia.
      replace (line p - 1 - 1) with (line p - 2) by lia. reflexivity. }
  assert (A : map (fun n => show w n (nth (n - 1) ls [])) (seq (S (line p)) (Nat.min (length ls) (line p + 2) - line p)) =
    (if line p + 1 <=? length ls then [show w (line p + 1) (nth (line p) ls [])] else []) ++
    (if line p + 2 <=? length ls then [show w (line p + 2) (nth (line p + 1) ls [])] else [])).
  { destruct (Nat.leb_spec (line p + 1) (length ls)); destruct (Nat.leb_spec (line p + 2) (length ls)); try lia.
    - replace (Nat.min (length ls) (line p + 2) - line p) with 2 by lia. cbn [seq map app].
      replace (S (line p) - 1) with (line p) by lia. replace (S (S (line p)) - 1) with (line p + 1) by lia.
      replace (line p + 1) with (S (line p)) by lia. replace (line p + 2) with (S (S (line p))) by lia. reflexivity.
    - replace (Nat.min (length ls) (line p + 2) - line p) with 1 by lia. cbn [seq map app].
      replace (S (line p) - 1) with (line p) by lia. replace (line p + 1) with (S (line p)) by lia. reflexivity.
    - replace (Nat.min (length ls) (line p + 2) - line p) with 0 by lia. reflexivity. }
  rewrite B, A. unfold head_of, place_of.
  replace (match column p with 0 => 1 | S k => S k end) with (Nat.max 1 (column p)) by (destruct (column p); reflexivity).
  f_equal. rewrite <- !app_assoc. reflexivity.
Qed.
(* the carets are exactly under the characters they mark: what stands above the first one is the text from the column on *)
Theorem C157_caret w p a t : 1 <= column p -> length (num (line p)) <= w -> column p <= length (rstrip t) ->
  exists before, caret_line w p a = repeat " "%char (length before) ++ repeat "^"%char (marked p) ++ match a with [] => [] | m => " "%char :: m end /\
    show w (line p) t = before ++ skipn (column p - 1) (rstrip t).
Proof.
  intros C W L. destruct (padded_right w (line p)) as (k & Hd & Hl). specialize (Hl W).
  exists (str "  " ++ padded w (line p) ++ str " | " ++ firstn (column p - 1) (rstrip t)). split.
  - unfold caret_line. rewrite !app_length, firstn_length, Hl. change (length (str "  ")) with 2. change (length (str " | ")) with 3.
    replace (2 + (w + (3 + Nat.min (column p - 1) (length (rstrip t))))) with (w + 5 + column p - 1) by lia.
    f_equal. apply (f_equal2 (@app ascii)); [|destruct a; reflexivity]. f_equal. unfold marked. destruct (end_column p) as [ec|]; [|reflexivity].
    destruct (Nat.ltb_spec (column p) ec); lia.
  - unfold show. destruct (rstrip t) as [|c r] eqn:E; [cbn in L; lia|]. rewrite <- !app_assoc, firstn_skipn. reflexivity.
Qed.
(* a later line's number is at least as long: the width found from the last line shown is enough for all *)
Theorem C157_width n m w : 1 <= n <= m -> w = length (num m) -> length (num n) <= w.
Proof. intros L ->. apply dec_mono. lia. Qed.
(* the bars after the numbers are under one another *)
Theorem C157_aligned w n t : length (num n) <= w -> exists k, show w n t = str "  " ++ k ++ str " |" ++ match rstrip t with [] => [] | r => " "%char :: r end /\ length k = w.
Proof. intro L. destruct (padded_right w n) as (k & _ & H). eexists. split; [reflexivity|]. now apply H. Qed.
(* without the source, the place, or with a place outside the file, only the message *)
Theorem C157_plain e : v_source e = None \/ v_location e = None \/
  (exists p s ls, v_location e = Some p /\ v_source e = Some s /\ file_of ls s /\ (line p = 0 \/ length ls < line p)) ->
  format_message e = base_message e.
Proof.
  intros [H|[H|(p & s & ls & Hp & Hs & Hf & L)]]; unfold format_message.
  - now rewrite H.
  - rewrite H. now destruct (v_source e).
  - rewrite Hs, Hp. unfold format_with_source. rewrite (splitlines_ok ls s Hf).
    destruct (Nat.ltb_spec (line p) 1); [reflexivity|]. destruct (Nat.ltb_spec (length ls) (line p)); [reflexivity|]. lia.
Qed.

(* ---- the exceptions ---- *)
(* each name is in the text *)
Lemma listed sep x l : In x l -> exists a b, join sep l = a ++ x ++ b.
Proof.
  induction l as [|y l IH]; [intros []|]. intros [E|H].
  - subst. destruct l; [exists [], []; cbn [join app]; now rewrite app_nil_r|]. exists [], (sep ++ join sep (c :: l)). reflexivity.
  - destruct (IH H) as (a & b & E). destruct l as [|z l]; [destruct H|]. exists (y ++ sep ++ a), b. cbn [join] in *. rewrite E, <- !app_assoc. reflexivity.
Qed.
Theorem C157_control block source locations base_name control :
  let e := block_control_error block source locations base_name control in
  base_message e = str "Control variable '" ++ control ++ str "' in block " ++ block ++ str " not found in equations" /\
  v_code e = Some (str "V002") /\ v_annotation e = str "undeclared control variable" /\ v_source e = source /\
  (forall p, v_location e = Some p <-> exists i, nth_error locations i = Some (base_name, p) /\
                                        forall j q, j < i -> nth_error locations j <> Some (base_name, q)).
Proof.
  refine (conj eq_refl (conj eq_refl (conj eq_refl (conj eq_refl _)))). intro p. cbn [v_location block_control_error control_not_found].
  unfold located. induction locations as [|(n, q) l IH].
  - cbn. split; [discriminate|]. intros ([|i] & H & _); discriminate.
  - cbn [find fst]. destruct (chars_eqb base_name n) eqn:E.
    + apply chars_eqb_eq in E. subst n. cbn [option_map snd]. split.
      * intro H. assert (q = p) by congruence. subst. exists 0. split; [reflexivity|]. intros j r L. lia.
      * intros ([|i] & H & F); [cbn in H; congruence|]. exfalso. exact (F 0 q (Nat.lt_0_succ i) eq_refl).
    + apply chars_eqb_neq in E. rewrite IH. split.
      * intros (i & H & F). exists (S i). split; [exact H|]. intros [|j] r L; [cbn; congruence|]. apply F. lia.
      * intros ([|i] & H & F); [cbn in H; congruence|]. exists i. split; [exact H|]. intros j r L. apply (F (S j) r). lia.
Qed.
Theorem C157_duplicates block source locations duplicates :
  (block_duplicate_error block source locations duplicates = None <-> duplicates = []) /\
  forall e, block_duplicate_error block source locations duplicates = Some e -> block <> [] ->
    base_message e = str "Duplicate parameter declaration in block " ++ block /\ v_code e = Some (str "V003") /\
    v_location e = located locations (hd [] duplicates) /\
    (forall x, In x duplicates -> exists a b, v_annotation e = a ++ x ++ b) /\
    v_annotation e = str "'" ++ join (str ", ") duplicates ++ str "' already defined".
Proof.
  split; [destruct duplicates; split; (discriminate || reflexivity)|]. intros e H Hb. destruct duplicates as [|d r]; [discriminate H|].
  unfold block_duplicate_error in H. set (l := d :: r) in *. assert (E : duplicate_parameters l (Some block) source (located locations d) [] = e) by congruence.
  subst e. destruct block as [|c b]; [congruence|].
  assert (A : v_annotation (duplicate_parameters l (Some (c :: b)) source (located locations d) []) = str "'" ++ join (str ", ") l ++ str "' already defined") by reflexivity.
  refine (conj eq_refl (conj eq_refl (conj eq_refl (conj _ A)))).
  intros x Hx. destruct (listed (str ", ") x l Hx) as (a & b' & E). eexists (str "'" ++ a), (b' ++ str "' already defined"). etransitivity; [exact A|]. rewrite E.
  rewrite <- !app_assoc. reflexivity.
Qed.
(* a block is refused because of its objective and controls exactly when one of the two is missing or there are several objectives *)
Theorem C157_problem block objective controls :
  (problem_message block objective controls = None <->
     (objective = None /\ controls = None) \/ (exists eqs cs, objective = Some eqs /\ controls = Some cs /\ length eqs <= 1)) /\
  (forall eqs cs, objective = Some eqs -> controls = Some cs -> 2 <= length eqs ->
     exists t, problem_message block objective controls = Some t /\ forall x, In x eqs -> exists a b, t = a ++ x ++ b).
Proof.
  split.
  - destruct objective as [eqs|], controls as [cs|]; cbn [problem_message].
    + destruct (Nat.ltb_spec 1 (length eqs)) as [L|L]; split; intro H.
      * discriminate H.
      * destruct H as [[H _]|(e & c & He & _ & Hl)]; [discriminate H|]. assert (e = eqs) by congruence. subst. lia.
      * right. exists eqs, cs. auto.
      * reflexivity.
    + split; intro H; [discriminate H|]. destruct H as [[H _]|(e & c & _ & H & _)]; discriminate H.
    + split; intro H; [discriminate H|]. destruct H as [[_ H]|(e & c & H & _)]; discriminate H.
    + split; [left; auto|reflexivity].
  - intros eqs cs -> -> L. cbn [problem_message]. destruct (Nat.ltb_spec 1 (length eqs)); [|lia]. eexists. split; [reflexivity|].
    intros x Hx. apply in_split in Hx. destruct Hx as (a & b & ->). unfold multiple_objectives. rewrite flat_map_app. cbn [flat_map].
    eexists (str "Block " ++ block ++ str " appears to have multiple objectives, excepted just one but found " ++ num (length (a ++ x :: b)) ++ str ":" ++ Exc_Model.nl ++ flat_map (fun e => e ++ Exc_Model.nl) a), _.
    rewrite <- !app_assoc. reflexivity.
Qed.
(* the text about a missing component should say which component the block has and which it has not *)
Definition says (block present absent t : chars) : Prop :=
  t = str "Block " ++ block ++ str " has a " ++ present ++ str " component but no " ++ absent ++
      str " component, verify whetheror not this block has an optimization problem.".
(* refuted: it says the opposite, for every block *)
Theorem C157_missing_component_refuted block eqs cs :
  (forall t, problem_message block (Some eqs) None = Some t -> says block (str "controls") (str "objective") t) /\
  (forall t, problem_message block None (Some cs) = Some t -> says block (str "objective") (str "controls") t) /\
  ~ (exists t, problem_message block (Some eqs) None = Some t /\ says block (str "objective") (str "controls") t) /\
  ~ (exists t, problem_message block None (Some cs) = Some t /\ says block (str "controls") (str "objective") t).
Proof.
  assert (A : problem_message block (Some eqs) None = Some (str "Block " ++ block ++ str " has a " ++ str "controls" ++ str " component but no " ++ str "objective" ++ str " component, verify whetheror not this block has an optimization problem.")) by reflexivity.
  assert (B : problem_message block None (Some cs) = Some (str "Block " ++ block ++ str " has a " ++ str "objective" ++ str " component but no " ++ str "controls" ++ str " component, verify whetheror not this block has an optimization problem.")) by reflexivity.
  rewrite A, B. unfold says. refine (conj _ (conj _ (conj _ _))).
  - intros t H. congruence.
  - intros t H. congruence.
  - intros (t & H & E). rewrite E in H. assert (H' := f_equal (fun o => match o with Some x => x | None => [] end) H). cbv beta iota in H'.
    apply app_inv_head in H'. apply app_inv_head in H'. discriminate H'.
  - intros (t & H & E). rewrite E in H. assert (H' := f_equal (fun o => match o with Some x => x | None => [] end) H). cbv beta iota in H'.
    apply app_inv_head in H'. apply app_inv_head in H'. discriminate H'.
Qed.
(* the parameters found in the equations but not calibrated: each once, in whatever order, "was" exactly for one of them *)
Lemma uniq_spec l : NoDup (uniq l) /\ forall x, In x (uniq l) <-> In x l.
Proof.
  induction l as [|y l [ND IN]]; [split; [constructor|tauto]|]. cbn [uniq].
  assert (E : existsb (chars_eqb y) l = true <-> In y l).
  { rewrite existsb_exists. split; [intros (z & Hz & E); apply chars_eqb_eq in E; now subst|]. intro H. exists y. split; [exact H|now apply chars_eqb_eq]. }
  destruct (existsb (chars_eqb y) l) eqn:B.
  - split; [exact ND|]. destruct E as [E _]. specialize (E eq_refl). intro x. rewrite IN. cbn [In]. split; [now right|]. intros [X|X]; [now subst|exact X].
  - assert (N : ~ In y l) by (intro H; apply E in H; discriminate H). split; [constructor; [now rewrite IN|exact ND]|]. intro x. cbn [In]. rewrite IN. tauto.
Qed.
Theorem C157_orphans order orphans : (forall l, Permutation (order l) l) -> exists names,
  NoDup names /\ (forall x, In x names <-> In x orphans) /\
  orphan_message order orphans = str "The following parameter" ++ (if 1 <? length names then str "s were" else if length names =? 1 then str " was" else str " were") ++
    str " found among model equations but did not appear in any calibration block: " ++ join (str ", ") names.
Proof.
  intro P. destruct (uniq_spec orphans) as [ND IN]. exists (order (uniq orphans)). split; [|split].
  - eapply Permutation_NoDup; [apply Permutation_sym, P|exact ND].
  - intro x. rewrite <- IN. split; apply Permutation_in; [apply P|apply Permutation_sym, P].
  - unfold orphan_message. destruct (length (order (uniq orphans))) as [|[|n]]; reflexivity.
Qed.
(* every list of names or equations in a message is complete *)
Theorem C157_listed x l : In x l ->
  (exists a b, extra_message l = a ++ x ++ b) /\ (exists a b, unknown_message l = a ++ x ++ b) /\ (exists a b, steady_state_message l = a ++ x ++ b) /\
  (forall v d p, exists a b, multiple_definition_message v d p l = a ++ x ++ b) /\ (forall d p, exists a b, invalid_parameter_message d p l = a ++ x ++ b).
Proof.
  intro H. destruct (listed (str ", ") x l H) as (a & b & E).
  assert (G : forall t, (exists pre post, t = pre ++ (a ++ x ++ b) ++ post) -> exists a' b', t = a' ++ x ++ b').
  { intros t (pre & post & ->). exists (pre ++ a), (b ++ post). now rewrite <- !app_assoc. }
  refine (conj _ (conj _ (conj _ (conj _ _)))); [..|intros v d p|intros d p]; apply G;
    unfold extra_message, unknown_message, steady_state_message, multiple_definition_message, invalid_parameter_message; rewrite E.
  - eexists (str "The following parameter" ++ (if 1 <? length l then str "s" else []) ++ str " " ++ (if length l =? 1 then str "was" else str "were") ++ str " were given initial values in calibration blocks but were not used in model equations: "), _.
    rewrite <- (app_assoc (str "The following parameter")). do 1 rewrite <- app_assoc. rewrite <- !app_assoc. reflexivity.
  - eexists (str "The following parameters were given new values, but do not exist in the model: "), _. reflexivity.
  - eexists (str "The provided steady-state values did not result in zero residuals for the following equations:" ++ Exc_Model.nl), _. rewrite <- !app_assoc. reflexivity.
  - eexists (str "The " ++ d ++ str " distribution associated with """ ++ v ++ str """ has multiple declarations for " ++ p ++ str ". Please pass only one of: "), [].
    rewrite app_nil_r, <- !app_assoc. reflexivity.
  - eexists (str "Unknown parameter " ++ p ++ str " passed to distribution " ++ d ++ str ". Valid parameters for this distribution are: "), [].
    rewrite app_nil_r, <- !app_assoc. reflexivity.
Qed.
(* "The following parameter was were given": the two verbs, for every list *)
Theorem C157_two_verbs_refuted l : exists v t, extra_message l = str "The following parameter" ++ v ++ str " were given initial values" ++ t /\
  (v = str " was" \/ v = str " were" \/ v = str "s were").
Proof.
  unfold extra_message. destruct (length l) as [|[|n]]; [exists (str " were")|exists (str " was")|exists (str "s were")]; eexists; (split; [reflexivity|auto]).
Qed.

Theorem C157_case :
  let p := Location 2 3 None (Some 6) [] [] in
  let source := str "block A" ++ [newline] ++ str "  K_t[];" ++ [newline] ++ [newline] ++ str "end" in
  v_location (block_control_error (str "A") (Some source) [(str "K", p)] (str "K") (str "K_t")) = Some p /\
  format_message (block_control_error (str "A") (Some source) [(str "K", p)] (str "K") (str "K_t")) =
  join Exc_Model.nl (map str ["error[V002]: Control variable 'K_t' in block A not found in equations"; "  --> <source>:2:3"; "     |";
    "  1 | block A"; "  2 |   K_t[];"; "        ^^^ undeclared control variable"; "  3 |"; "  4 | end"; "     |";
    "   = note: Control variables must appear in the objective or constraints"; "   = note: Check spelling of the variable name";
    "   = note: Verify the variable has the correct time index"]%string).
Proof. split; reflexivity. Qed.
Theorem C157_file : file_of [str "block A"; str "  K_t[];"; []; str "end"] (str "block A" ++ [newline] ++ str "  K_t[];" ++ [newline] ++ [newline] ++ str "end").
Proof.
  split; [repeat constructor; intro H; repeat (destruct H as [H|H]; [discriminate H|]); exact H|]. right.
  exists [str "block A"; str "  K_t[];"; []], (str "end"). repeat split; discriminate.
Qed.
Theorem C157_orphans_case : orphan_message (fun l => l) [str "a"; str "b"; str "a"] =
  str "The following parameters were found among model equations but did not appear in any calibration block: b, a".
Proof. reflexivity. Qed.
