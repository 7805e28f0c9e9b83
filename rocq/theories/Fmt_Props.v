(* C154: what the terminal shows of an error and of a collection of errors *)
From Verif Require Import Common Err_Model Err_Proofs Errs_Model Fmt_Model.
Local Open Scope list_scope.

(* ---- specification ---- *)
(* what a terminal shows: an escape sequence (ESC ... m) is not shown *)
Fixpoint seen (inside : bool) (s : chars) : chars :=
  match s with
  | [] => []
  | c :: r =>
      if inside then seen (negb (Ascii.eqb c "m"%char)) r
      else if Ascii.eqb c esc then seen true r
      else c :: seen false r
  end.
Definition on_terminal (s : chars) : chars := seen false s.
Definition plain (s : chars) : Prop := ~ In esc s.
(* no text of the error contains an escape character *)
Definition plain_error (e : error) : Prop :=
  plain (message e) /\ plain (annotation e) /\ Forall plain (suggs e) /\ Forall plain (notes e) /\
  match where_ e with Some p => plain (filename p) /\ plain (source_line p) | None => True end.
Definition plain_source (s : option chars) : Prop := match s with Some t => plain t | None => True end.
(* a text is made of these lines *)
Definition lines_of (ls : list chars) (s : chars) : Prop := ls <> [] /\ s = join nl ls /\ Forall (fun l => ~ In newline l) ls.
(* a numbered line, and the line of the pointer *)
Definition numbered (n : nat) (t : chars) : chars := pad4 n ++ str " |" ++ match rstrip t with [] => [] | r => " "%char :: r end.
Definition caret (c len : nat) (annotation : chars) : chars :=
  str "     | " ++ repeat " "%char (c - 1) ++ repeat "^"%char len ++ match annotation with [] => [] | m => " "%char :: m end.
Definition gutter : chars := str "     |".
Definition head_text (e : error) : chars :=
  severity_value (sev e) ++ match code e with Some c => str "[" ++ code_name c ++ str "]" | None => [] end ++ str ": " ++ message e.
Definition place_text (p : location) : chars :=
  str "  --> " ++ (match filename p with [] => str "<input>" | n => n end) ++ str ":" ++ number (line p) ++ str ":" ++ number (column p).
Definition help_texts (l : list chars) : list chars :=
  match l with
  | [] => []
  | [s] => [str "   = help: Did you mean '" ++ s ++ str "'?"]
  | _ => [str "   = help: Did you mean one of: " ++ join (str ", ") l ++ str "?"]
  end.
Definition note_text (n : chars) : chars := str "   = note: " ++ n.
(* how many characters are marked *)
Inductive marks (p : location) : nat -> Prop :=
| Range ec : end_line p = Some (line p) -> end_column p = Some ec -> column p < ec -> marks p (ec - column p)
| Empty_range ec : end_line p = Some (line p) -> end_column p = Some ec -> ec <= column p -> marks p 1
| Other_line : end_line p <> Some (line p) -> marks p 1
| No_end : end_column p = None -> marks p 1.

(* ---- lemmas ---- *)
Definition sees (a b : chars) : Prop := forall t, seen false (a ++ t) = b ++ seen false t.
Lemma sees_app a b a' b' : sees a b -> sees a' b' -> sees (a ++ a') (b ++ b').
Proof. intros H H' t. rewrite <- !app_assoc, H, H'. reflexivity. Qed.
Lemma sees_plain s : plain s -> sees s s.
Proof.
  intros H t. induction s as [|c s IH]; [reflexivity|]. cbn [app seen]. destruct (Ascii.eqb c esc) eqn:E.
  - apply Ascii.eqb_eq in E. subst c. destruct H. now left.
  - rewrite IH; [reflexivity|]. intro X. apply H. now right.
Qed.
Lemma sees_seen a b : sees a b -> on_terminal a = b.
Proof. intro H. unfold on_terminal. rewrite <- (app_nil_r a), H. cbn [seen]. apply app_nil_r. Qed.
Lemma plain_app a b : plain a -> plain b -> plain (a ++ b).
Proof. intros H H' X. apply in_app_iff in X. destruct X; auto. Qed.
Lemma plain_nil : plain []. Proof. intros []. Qed.
Lemma plain_repeat c n : c <> esc -> plain (repeat c n).
Proof. intros H X. apply repeat_spec in X. congruence. Qed.
Definition plainb (s : chars) : bool := forallb (fun c => negb (Ascii.eqb c esc)) s.
Lemma plain_check s : plainb s = true -> plain s.
Proof. intros H X. unfold plainb in H. rewrite forallb_forall in H. apply H in X. rewrite Ascii.eqb_refl in X. discriminate X. Qed.
Lemma plain_number n : plain (dec n).
Proof.
  intro X. assert (H := dec_digits n). rewrite forallb_forall in H. apply H in X. vm_compute in X. discriminate X.
Qed.
Lemma plain_pad4 n : plain (pad4 n).
Proof. apply plain_app; [apply plain_repeat; discriminate|apply plain_number]. Qed.
Lemma plain_code c : plain (code_name c).
Proof.
  unfold code_name. destruct (nth_in_or_default c code_names []) as [H|H]; [|rewrite H; apply plain_nil].
  apply plain_check. assert (A : forallb plainb code_names = true) by (vm_compute; reflexivity). rewrite forallb_forall in A. now apply A.
Qed.
Lemma plain_incl a b : incl a b -> plain b -> plain a.
Proof. intros H P X. now apply P, H. Qed.
Lemma plain_rstrip s : plain s -> plain (rstrip s).
Proof.
  apply plain_incl. intros x H. unfold rstrip in H. apply in_rev in H. apply in_rev.
  revert H. generalize (rev s). induction l as [|c l IH]; [auto|]. cbn [drop_spaces]. destruct (is_space c); [intro H; right; auto|auto].
Qed.
Lemma plain_join sep l : plain sep -> Forall plain l -> plain (join sep l).
Proof.
  intros Hs H. induction H as [|x l Hx H IH]; [apply plain_nil|]. cbn [join]. destruct l; [exact Hx|]. apply plain_app; [exact Hx|]. now apply plain_app.
Qed.
Lemma plain_line s n : plain s -> plain (nth n (split nl s) []).
Proof.
  intro H. assert (A : forall s skip acc, plain s -> plain acc -> Forall plain (split_from nl skip acc s)).
  { clear. assert (R : forall a, plain a -> plain (rev a)) by (intros a; apply plain_incl; intros x; now rewrite <- in_rev).
    induction s as [|c s IH]; intros skip acc Hs Ha; cbn [split_from].
    - constructor; [now apply R|constructor].
    - assert (Hs' : plain s) by (intro X; apply Hs; now right).
      destruct skip; [|now apply IH]. destruct (prefixb nl (c :: s)); [constructor; [now apply R|apply IH; [exact Hs'|apply plain_nil]]|].
      apply IH; [exact Hs'|]. intros [X|X]; [subst c; apply Hs; now left|now apply Ha]. }
  specialize (A s 0 [] H plain_nil). destruct (nth_in_or_default n (split nl s) []) as [X|X]; [|rewrite X; apply plain_nil].
  unfold split in *. rewrite Forall_forall in A. now apply A.
Qed.
(* a coloured text *)
Lemma sees_color f g c text : use_color g = false -> In c [BOLD; RED; BLUE; CYAN; BOLD_RED; BOLD_YELLOW; BOLD_BLUE] -> plain text -> sees (color f text c) (color g text c).
Proof.
  intros Hg Hc H. unfold color. rewrite Hg. destruct (use_color f); [|now apply sees_plain].
  intro t. rewrite <- !app_assoc. assert (A : forall x, seen false (c ++ x) = seen false x).
  { intro x. cbn [In] in Hc. repeat (destruct Hc as [<-|Hc]; [reflexivity|]). destruct Hc. }
  rewrite A, (sees_plain text H). f_equal.
Qed.
Lemma sees_join l l' : Forall2 sees l l' -> sees (join nl l) (join nl l').
Proof.
  induction 1 as [|x y l l' H HF IH]; [now apply sees_plain, plain_nil|]. cbn [join]. destruct HF; [exact H|].
  apply sees_app; [exact H|]. apply sees_app; [|exact IH]. apply sees_plain, plain_check. reflexivity.
Qed.
Ltac pl := solve [apply plain_check; reflexivity].
Ltac co := apply sees_color; [assumption|cbn [In]; tauto|].
Section Colour.
Variables f g : formatter.
Hypothesis no_colour : use_color g = false.
Hypothesis same_context : context_lines g = context_lines f.
Lemma sees_severity s c : sees (format_severity f s c) (format_severity g s c).
Proof.
  unfold format_severity.
  set (label := match c with Some c0 => _ | None => _ end).
  assert (P : plain label). { unfold label. destruct c as [c|]; [|destruct s; pl]. repeat apply plain_app; try apply plain_code; [destruct s; pl|pl|pl]. }
  destruct s; co; exact P.
Qed.
Lemma sees_source_line n t b : plain t -> sees (source_line_text f n t b) (source_line_text g n t b).
Proof.
  intro H. unfold source_line_text.
  assert (N : sees (if b then color f (pad4 n) BOLD_BLUE else color f (pad4 n) BLUE) (if b then color g (pad4 n) BOLD_BLUE else color g (pad4 n) BLUE)).
  { destruct b; co; apply plain_pad4. }
  assert (R := plain_rstrip t H). destruct (rstrip t) as [|x r].
  - apply sees_app; [exact N|apply sees_plain; pl].
  - apply sees_app; [exact N|apply sees_plain]. apply plain_app; [pl|exact R].
Qed.
Lemma sees_pointer c n m : plain m -> sees (pointer_text f c n m) (pointer_text g c n m).
Proof.
  intro H. unfold pointer_text. apply sees_app; [co; pl|]. apply sees_app; [apply sees_plain, plain_repeat; discriminate|].
  apply sees_app; [co; apply plain_repeat; discriminate|]. destruct m; [apply sees_plain, plain_nil|]. apply sees_app; [apply sees_plain; pl|co; exact H].
Qed.
Lemma sees_context ls p m : (forall n, plain (nth n ls [])) -> plain m -> forall n k, Forall2 sees (context_from f ls p m k n) (context_from g ls p m k n).
Proof.
  intros L H. induction n as [|n IH]; intro k; cbn [context_from]; [constructor|]. constructor.
  - apply sees_source_line. match goal with |- plain (if ?b then _ else _) => destruct b end; [exact (L (k - 1))|apply plain_nil].
  - apply Forall2_app; [|apply IH]. destruct (k =? line p); [constructor; [now apply sees_pointer|constructor]|constructor].
Qed.
Lemma sees_place p m s : plain (filename p) -> plain (source_line p) -> plain m -> plain_source s -> Forall2 sees (place_parts f p m s) (place_parts g p m s).
Proof.
  intros Hf Hl Hm Hs. unfold place_parts. rewrite same_context.
  repeat apply Forall2_app.
  - constructor; [|constructor; [co; pl|constructor]]. unfold format_place. apply sees_app; [apply sees_plain; pl|]. co.
    repeat apply plain_app; try apply plain_number; try pl. destruct (filename p); [pl|exact Hf].
  - destruct (_ && _)%bool.
    + apply sees_context; [|exact Hm]. intro n. destruct s as [[|c s]|]; try (destruct n; apply plain_nil). now apply plain_line.
    + destruct (source_line p) as [|c r] eqn:E; [constructor|]. constructor; [now apply sees_source_line|]. constructor; [now apply sees_pointer|constructor].
  - constructor; [co; pl|constructor].
Qed.
Lemma sees_parts e s : plain_error e -> plain_source s -> Forall2 sees (error_parts f e s) (error_parts g e s).
Proof.
  intros (Hm & Ha & Hg & Hn & Hp) Hs. unfold error_parts. repeat apply Forall2_app.
  - constructor; [|constructor]. apply sees_app; [apply sees_severity|]. apply sees_plain, plain_app; [pl|exact Hm].
  - destruct (where_ e) as [p|]; [|constructor]. destruct Hp. now apply sees_place.
  - destruct (suggs e) as [|a l] eqn:E; [constructor|]. constructor; [|constructor]. unfold format_help. destruct l.
    + apply sees_app; [apply sees_plain; pl|]. apply sees_app; [co; pl|]. apply sees_plain. inversion Hg. repeat apply plain_app; try assumption; pl.
    + apply sees_app; [apply sees_plain; pl|]. apply sees_app; [co; pl|]. apply sees_plain. apply plain_app; [pl|]. apply plain_app; [|pl]. apply plain_join; [pl|exact Hg].
  - induction Hn as [|n l Hx Hl IH]; constructor; [|exact IH]. unfold format_note. apply sees_app; [apply sees_plain; pl|].
    apply sees_app; [co; pl|]. apply sees_plain. apply plain_app; [pl|exact Hx].
Qed.
Lemma sees_error e s : plain_error e -> plain_source s -> sees (format_error f e s) (format_error g e s).
Proof. intros He Hs. apply sees_join. now apply sees_parts. Qed.
Lemma sees_collection es s : Forall plain_error es -> plain_source s -> sees (format_error_collection f es s) (format_error_collection g es s).
Proof.
  intros H Hs. unfold format_error_collection. destruct es as [|e es]; [apply sees_plain, plain_nil|]. apply sees_join. apply Forall2_app.
  - generalize 0. induction H as [|x l Hx Hl IH]; intro i; cbn [collection_parts]; [constructor|]. apply Forall2_app.
    + destruct (0 <? i); [|constructor]. constructor; [apply sees_plain, plain_nil|constructor].
    + apply Forall2_app; [|apply IH]. constructor; [now apply sees_error|constructor].
  - constructor; [apply sees_plain, plain_nil|]. constructor; [|constructor]. destruct (_ =? 1); co; [pl|].
    apply plain_app; [pl|]. apply plain_app; [apply plain_number|pl].
Qed.
End Colour.

(* ---- theorems ---- *)
(* the colours change nothing but the colours: what the terminal shows is the text without them *)
Theorem C154_colour f g e s : use_color g = false -> context_lines g = context_lines f -> plain_error e -> plain_source s ->
  on_terminal (format_error f e s) = format_error g e s.
Proof. intros. now apply sees_seen, sees_error. Qed.
Theorem C154_colour_collection f g es s : use_color g = false -> context_lines g = context_lines f -> Forall plain_error es -> plain_source s ->
  on_terminal (format_error_collection f es s) = format_error_collection g es s.
Proof. intros. now apply sees_seen, sees_collection. Qed.
(* and when colours are off, or the output is not a terminal, or the user says NO_COLOR, or the terminal is dumb, no escape sequence is written *)
Theorem C154_no_colour wanted has_isatty isatty no_color term n :
  use_color (new_formatter wanted (supports_color has_isatty isatty no_color term) n) = true <->
  wanted = true /\ has_isatty = true /\ isatty = true /\ (no_color = None \/ no_color = Some []) /\ term <> Some (str "dumb").
Proof.
  unfold new_formatter, supports_color. cbn [use_color]. rewrite andb_true_iff.
  assert (D : match term with Some t => negb (chars_eqb t (str "dumb")) | None => true end = true <-> term <> Some (str "dumb")).
  { destruct term as [t|]; [|split; [discriminate|reflexivity]]. rewrite negb_true_iff. split.
    - intros H X. injection X as ->. rewrite chars_eqb_refl in H. discriminate H.
    - intro H. destruct (chars_eqb t (str "dumb")) eqn:E; [|reflexivity]. apply chars_eqb_eq in E. congruence. }
  destruct has_isatty, isatty; cbn [negb]; try (split; [intros [_ X]; discriminate X|intros (_ & A & B & _); discriminate]).
  destruct no_color as [[|c l]|]; rewrite ?D.
  - tauto.
  - split; [intros [_ X]; discriminate X|]. intros (_ & _ & _ & [A|A] & _); discriminate A.
  - tauto.
Qed.
Lemma plain_escape f e s : use_color f = false -> plain_error e -> plain_source s -> plain (format_error f e s).
Proof.
  intros Hf He Hs. assert (A := sees_seen _ _ (sees_error f f Hf eq_refl e s He Hs)).
  intro X. rewrite <- A in X. revert X. generalize (format_error f e s) as t. unfold on_terminal.
  assert (B : forall t b, ~ In esc (seen b t)).
  { induction t as [|c t IH]; intros b X; [exact X|]. cbn [seen] in X. destruct b; [now apply IH in X|].
    destruct (Ascii.eqb c esc) eqn:E; [now apply IH in X|]. destruct X as [X|X]; [subst c; rewrite Ascii.eqb_refl in E; discriminate E|now apply IH in X]. }
  intros t. apply B.
Qed.
Theorem C154_no_escape f e s : use_color f = false -> plain_error e -> plain_source s -> ~ In esc (format_error f e s).
Proof. apply plain_escape. Qed.

(* the source: the line of the error, marked, with the lines around it *)
Lemma marked_is p n : marks p n -> Nat.max 1 (marked_length p) = n.
Proof.
  unfold marked_length. intros [ec H1 H2 L|ec H1 H2 L|H|H].
  - rewrite H1, H2. destruct ec; [lia|]. rewrite Nat.eqb_refl. lia.
  - rewrite H1, H2. destruct ec; [reflexivity|]. rewrite Nat.eqb_refl. lia.
  - destruct (end_column p) as [[|ec]|]; try reflexivity. destruct (end_line p) as [el|]; [|reflexivity].
    destruct (Nat.eqb_spec el (line p)); [congruence|reflexivity].
  - rewrite H. reflexivity.
Qed.
Theorem C154_marks p : exists n, marks p n /\ 1 <= n /\ forall n', marks p n' -> n' = n.
Proof.
  assert (U : forall n, marks p n -> forall n', marks p n' -> n' = n) by (intros n H n' H'; apply marked_is in H, H'; congruence).
  assert (E : exists n, marks p n).
  { destruct (end_column p) as [ec|] eqn:E; [|eexists; now apply No_end]. destruct (end_line p) as [el|] eqn:E'; [|eexists; apply Other_line; congruence].
    destruct (Nat.eq_dec el (line p)) as [->|N]; [|eexists; apply Other_line; congruence].
    destruct (le_lt_dec ec (column p)); eexists; [eapply Empty_range|eapply Range]; eassumption. }
  destruct E as [n H]. exists n. split; [exact H|]. split; [|now apply U]. apply marked_is in H. lia.
Qed.
Lemma plain_source_line f n t b : use_color f = false -> source_line_text f n t b = numbered n t.
Proof. intro H. unfold source_line_text, numbered, color. rewrite H. destruct b, (rstrip t); reflexivity. Qed.
Lemma plain_pointer f p n m : use_color f = false -> marks p n -> pointer_text f (column p) (marked_length p) m = caret (column p) n m.
Proof.
  intros H M. unfold pointer_text, caret, color. rewrite H, (marked_is p n M). destruct m; reflexivity.
Qed.
Lemma split_lines ls s : lines_of ls s -> split nl s = ls.
Proof.
  intros (N & -> & H). destruct (exists_last N) as (l & x & E). subst ls. apply Forall_app in H. destruct H as [H Hx]. inversion Hx; subst.
  assert (C : forall y, ~ In newline y -> contains nl y = false).
  { intros y Hy. destruct (contains nl y) eqn:E; [|reflexivity]. apply contains_iff in E. destruct E as (a & b & E). destruct Hy. rewrite E. apply in_or_app. right. now left. }
  apply split_join; [discriminate| |apply C; assumption].
  eapply Forall_impl; [|exact H]. intros y Hy a b E.
  destruct (exists_last (l := newline :: b)) as (b' & z & Eb); [discriminate|].
  destruct b as [|u b]; [reflexivity|]. exfalso. apply Hy.
  assert (E' : removelast (y ++ nl) = removelast (a ++ newline :: u :: b)) by (now rewrite E).
  unfold nl in E'. rewrite removelast_last in E'. rewrite E', removelast_app by discriminate. apply in_or_app. right. now left.
Qed.
Lemma context_shape f ls p m n : use_color f = false -> marks p n -> 1 <= line p <= length ls ->
  forall left k, k <= line p -> line p < k + left -> k + left <= S (length ls) ->
  context_from f ls p m k left =
    map (fun i => numbered i (nth (i - 1) ls [])) (seq k (line p - k)) ++
    [numbered (line p) (nth (line p - 1) ls []); caret (column p) n m] ++
    map (fun i => numbered i (nth (i - 1) ls [])) (seq (S (line p)) (k + left - S (line p))).
Proof.
  intros Hf M L.
  assert (After : forall left k, line p < k -> k + left <= S (length ls) ->
    context_from f ls p m k left = map (fun i => numbered i (nth (i - 1) ls [])) (seq k left)).
  { induction left as [|left IH]; intros k Hk Hl; [reflexivity|]. cbn [context_from seq map].
    rewrite plain_source_line by exact Hf. destruct (Nat.eqb_spec k (line p)); [lia|]. destruct (Nat.leb_spec k (length ls)); [|lia].
    rewrite IH by lia. reflexivity. }
  induction left as [|left IH]; intros k H1 H2 H3; [lia|]. cbn [context_from].
  rewrite plain_source_line by exact Hf. destruct (Nat.leb_spec k (length ls)); [|lia].
  destruct (Nat.eqb_spec k (line p)) as [E|E].
  - subst k. rewrite Nat.sub_diag, (plain_pointer f p n m Hf M). rewrite After by lia. cbn [seq map app]. do 2 f_equal. f_equal. f_equal. lia.
  - rewrite IH by lia. replace (line p - k) with (S (line p - S k)) by lia. cbn [seq map app]. do 2 f_equal. do 3 f_equal. f_equal. lia.
Qed.
Lemma plain_head f e : use_color f = false -> format_severity f (sev e) (code e) ++ str ": " ++ message e = head_text e.
Proof.
  intro H. unfold format_severity, head_text, color. rewrite H. destruct (sev e), (code e); rewrite <- ?app_assoc; reflexivity.
Qed.
Lemma plain_place f p : use_color f = false -> format_place f (match filename p with [] => str "<input>" | n => n end) (line p) (column p) = place_text p.
Proof. intro H. unfold format_place, place_text, color. rewrite H. reflexivity. Qed.
Lemma plain_help f l : use_color f = false -> match l with [] => [] | l => [format_help f l] end = help_texts l.
Proof. intro H. unfold format_help, help_texts, color. rewrite H. destruct l as [|a [|b l]]; reflexivity. Qed.
Lemma plain_notes f l : use_color f = false -> map (format_note f) l = map note_text l.
Proof. intro H. apply map_ext. intro a. unfold format_note, note_text, color. rewrite H. reflexivity. Qed.
Lemma plain_parts f e s : use_color f = false -> error_parts f e s =
  [head_text e] ++ (match where_ e with Some p => place_parts f p (annotation e) s | None => [] end) ++ help_texts (suggs e) ++ map note_text (notes e).
Proof.
  intro H. unfold error_parts. rewrite (plain_head f e H), (plain_notes f (notes e) H), <- (plain_help f (suggs e) H). destruct (suggs e); reflexivity.
Qed.

(* the error's line is shown with its number and is followed by the pointer; before and after it come the lines of the file around
   it, each with its own number, as many as asked for and as the file has *)
Theorem C154_context f e p n source ls :
  use_color f = false -> where_ e = Some p -> marks p n -> lines_of ls source -> source <> [] -> 1 <= line p <= length ls ->
  let first := Nat.max 1 (line p - context_lines f) in
  let last := Nat.min (length ls) (line p + context_lines f) in
  let show i := numbered i (nth (i - 1) ls []) in
  format_error f e (Some source) =
    join nl ([head_text e; place_text p; gutter] ++ map show (seq first (line p - first)) ++ [show (line p); caret (column p) n (annotation e)] ++
             map show (seq (S (line p)) (last - line p)) ++ [gutter] ++ help_texts (suggs e) ++ map note_text (notes e)).
Proof.
  intros Hf Hw M Hl Hs L first last show. unfold format_error. rewrite (plain_parts f e _ Hf), Hw. unfold place_parts. rewrite (plain_place f p Hf).
  assert (E : match source with [] => [] | c :: s => split nl (c :: s) end = ls). { destruct source; [congruence|]. now apply split_lines. }
  rewrite E. destruct (Nat.eqb_spec (length ls) 0); [lia|]. destruct (Nat.leb_spec (line p) (length ls)); [|lia]. cbn [negb andb].
  fold first last. rewrite (context_shape f ls p (annotation e) n Hf M L) by (unfold first, last; lia).
  replace (first + (S last - first) - S (line p)) with (last - line p) by (unfold first, last; lia).
  unfold color. rewrite Hf. fold gutter. rewrite <- !app_assoc. reflexivity.
Qed.
(* without the source, or when the line is beyond its end, only the line kept with the error is shown, if there is one *)
Theorem C154_own_line f e p n source :
  use_color f = false -> where_ e = Some p -> marks p n ->
  match source with None => True | Some s => s = [] \/ exists ls, lines_of ls s /\ length ls < line p end ->
  format_error f e source =
    join nl ([head_text e; place_text p; gutter] ++
             (match source_line p with [] => [] | s => [numbered (line p) s; caret (column p) n (annotation e)] end) ++
             [gutter] ++ help_texts (suggs e) ++ map note_text (notes e)).
Proof.
  intros Hf Hw M Hs. unfold format_error. rewrite (plain_parts f e _ Hf), Hw. unfold place_parts. rewrite (plain_place f p Hf).
  set (ls := match source with Some (c :: s) => split nl (c :: s) | _ => [] end).
  assert (B : (negb (length ls =? 0) && (line p <=? length ls))%bool = false).
  { destruct source as [s|]; [|reflexivity]. destruct Hs as [->|(l & Hl & N)]; [reflexivity|]. destruct s as [|c s]; [reflexivity|].
    unfold ls. rewrite (split_lines l _ Hl). destruct (Nat.leb_spec (line p) (length l)); [lia|]. apply andb_false_r. }
  match goal with |- context [if ?b then _ else _] => change b with (negb (length ls =? 0) && (line p <=? length ls))%bool end. rewrite B. rewrite (plain_pointer f p n (annotation e) Hf M). unfold color. rewrite Hf. fold gutter.
  destruct (source_line p); [|rewrite plain_source_line by exact Hf]; rewrite <- ?app_assoc; reflexivity.
Qed.
(* an error with no location has no source lines *)
Theorem C154_no_place f e source : use_color f = false -> where_ e = None ->
  format_error f e source = join nl ([head_text e] ++ help_texts (suggs e) ++ map note_text (notes e)).
Proof.
  intros Hf Hw. unfold format_error. rewrite (plain_parts f e _ Hf), Hw. reflexivity.
Qed.
(* a collection: every error in its order, separated by empty lines, and the number of errors; nothing for an empty collection *)
Lemma join_cons x l : l <> [] -> join nl (x :: l) = x ++ nl ++ join nl l.
Proof. destruct l; [congruence|reflexivity]. Qed.
Theorem C154_collection f es source :
  format_error_collection f es source =
  match es with
  | [] => []
  | _ => join (nl ++ nl) (map (fun e => format_error f e source) es ++
           [color f (match es with [_] => str "error: aborting due to 1 previous error"
                                 | _ => str "error: aborting due to " ++ dec (N.of_nat (length es)) ++ str " previous errors" end) BOLD_RED])
  end.
Proof.
  unfold format_error_collection. destruct es as [|e es]; [reflexivity|].
  set (summary := if _ =? 1 then _ else _). set (summary' := color f (match es with [] => _ | _ => _ end) BOLD_RED).
  assert (E : summary = summary') by (unfold summary, summary'; destruct es; reflexivity). rewrite E. clearbody summary'. clear summary E.
  cbn [collection_parts Nat.ltb Nat.leb app map]. generalize (format_error f e source) as x.
  assert (S1 : forall i, (0 <? S i) = true) by reflexivity. generalize 0 as i. induction es as [|d es IH]; intros i x.
  - cbn [collection_parts map app join]. reflexivity.
  - cbn [collection_parts map]. rewrite S1. cbn [app]. rewrite join_cons by discriminate. rewrite (join_cons []) by discriminate. rewrite IH.
    cbn [join]. destruct (map _ es ++ [summary']) eqn:Em; [now destruct es|]. cbn [app]. rewrite <- ?app_assoc. reflexivity.
Qed.
(* a warning is counted as an error in the last line *)
Theorem C154_summary_counts_warnings : exists e, sev e = SWarning /\
  format_error_collection (Formatter false 2) [e] None = format_error (Formatter false 2) e None ++ nl ++ nl ++ str "error: aborting due to 1 previous error".
Proof. exists (new_error Base (str "unused") None [] [] (Some 21) SWarning [] []). now split. Qed.
(* the hypotheses are met *)
Theorem C154_case :
  let p := Location 2 7 (Some 2) (Some 10) (str "  y = foo;") (str "m.gcn") in
  let e := new_error Base (str "unknown name") (Some p) [str "bar"] [] (Some 4) SError (str "here") [str "declared below"] in
  let source := str "block A {" ++ nl ++ str "  y = foo;" ++ nl ++ str "};" in
  let f := Formatter true 1 in
  plain_error e /\ marks p 3 /\ lines_of [str "block A {"; str "  y = foo;"; str "};"] source /\
  on_terminal (format_error f e (Some source)) =
    str "error[E004]: unknown name" ++ nl ++ str "  --> m.gcn:2:7" ++ nl ++ str "     |" ++ nl ++ str "   1 | block A {" ++ nl ++
    str "   2 |   y = foo;" ++ nl ++ str "     |       ^^^ here" ++ nl ++ str "   3 | };" ++ nl ++ str "     |" ++ nl ++
    str "   = help: Did you mean 'bar'?" ++ nl ++ str "   = note: declared below".
Proof.
  refine (conj _ (conj _ (conj _ _))).
  - refine (conj _ (conj _ (conj _ (conj _ (conj _ _))))); cbn [suggs notes new_error]; try constructor; try constructor; pl.
  - apply (Range (Location 2 7 (Some 2) (Some 10) (str "  y = foo;") (str "m.gcn")) 10); [reflexivity|reflexivity|cbn [column]; lia].
  - split; [discriminate|]. split; [reflexivity|]. repeat constructor; intro X; vm_compute in X; repeat (destruct X as [X|X]; [discriminate X|]); exact X.
  - vm_compute. reflexivity.
Qed.
