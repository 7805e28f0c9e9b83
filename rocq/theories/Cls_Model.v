(* From a pyparsing exception to the error the user sees.
     gEconpy/parser/grammar/gcn_file.py: _convert_parse_exception l.76-120, _get_semantic_annotation l.123-130,
       _get_semantic_notes l.133-143, StructuralErrorHandler l.146-244, _COMPONENT_KEYWORDS l.18.
     gEconpy/parser/error_catalog.py: title and fixes of a code are parameters here; suggest_block_component is a parameter.
   ASCII letters only.  An exception is its message, what was expected and found (empty if pyparsing does not say), and the
   position; the place of the error is Err_Model.error_location (C131). *)
From Verif Require Import Common Err_Model Errs_Model.
Local Open Scope list_scope.
Local Open Scope bool_scope.

Section Cls.
Variable title : nat -> chars.
Variable fixes : nat -> list chars.
Variable suggest_block_component : chars -> list chars.
Record exception := Exception { emsg : chars; eexpected : chars; efound : chars; eloc : nat }.
Definition lower_char (c : ascii) : ascii :=
  let n := Ascii.nat_of_ascii c in if Nat.leb 65 n && Nat.leb n 90 then Ascii.ascii_of_nat (n + 32) else c.
Definition lower (s : chars) : chars := map lower_char s.
Definition is_alpha (c : ascii) : bool := let n := Ascii.nat_of_ascii (lower_char c) in Nat.leb 97 n && Nat.leb n 122.
Definition component_keywords : list chars := map str ["definitions"; "controls"; "objective"; "constraints"; "identities"; "shocks"; "calibration"]%string.
Definition among (s : chars) (l : list chars) : bool := existsb (chars_eqb s) l.
Definition quote (s : string) : chars := str "Expected '" ++ str s ++ str "'".

(* l.165-195; [found_clean] is the found text without quotes *)
Definition is_component (found_clean : chars) : bool := among (lower found_clean) component_keywords.
Definition is_semicolon_error (msg expected found_clean : chars) : bool :=
  if contains (quote ";") msg || among expected (map str [";"; "';'"]%string) then true
  else if is_component found_clean then true
  else contains (quote "}") msg && match found_clean with [] => false | c :: _ => is_alpha c end && negb (contains (str "end of text") (lower found_clean)).
Definition is_paren_error (msg found_clean : chars) : bool :=
  if among found_clean (map str [")"; "("]%string) then true else contains (quote ")") msg || contains (quote "(") msg.
Definition is_brace_error (msg found_clean : chars) : bool :=
  if among found_clean (map str ["{"; "}"]%string) then true
  else (contains (quote "{") msg || contains (quote "}") msg) && (match found_clean with [] => true | _ => false end || contains (str "end of text") (lower found_clean)).
Definition is_missing_rhs_error (msg : chars) : bool := contains (quote "+") msg || contains (str "operations") (lower msg).
(* get_error_code, l.197-212 *)
Definition structural_code (x : exception) : nat :=
  let found_clean := strip_quotes (efound x) in
  if is_paren_error (emsg x) found_clean then 7
  else if is_semicolon_error (emsg x) (eexpected x) found_clean then 1
  else if is_brace_error (emsg x) found_clean then 2
  else if is_missing_rhs_error (emsg x) then 5 else 0.
(* get_message, get_annotation, get_notes, l.214-244 *)
Definition structural_message (x : exception) : chars :=
  match structural_code x with
  | 0 => str "Syntax error: " ++ emsg x
  | 1 => if is_component (strip_quotes (efound x)) then title 1 ++ str " after previous statement" else title 1
  | c => title c
  end.
Definition structural_annotation (x : exception) : chars :=
  match structural_code x with 0 => match efound x with [] => [] | f => str "unexpected '" ++ f ++ str "'" end | c => lower (title c) end.
Definition structural_notes (x : exception) : list chars := match structural_code x with 0 => [] | c => fixes c end.
(* l.123-143 *)
Definition semantic_annotation (code : nat) (found message : chars) : chars :=
  match code with
  | 10 => str "invalid time index '" ++ found ++ str "'"
  | 5 => match message with [] => lower (title 5) | m => lower m end
  | c => lower (title c)
  end.
Definition did_you_mean (s : chars) : chars := str "Did you mean '" ++ s ++ str "'?".
Definition semantic_notes (code : nat) (found : chars) : list chars :=
  (match code with 13 => match suggest_block_component found with s :: _ => [did_you_mean s] | [] => [] end | _ => [] end) ++ fixes code.
(* _convert_parse_exception, l.76-120 *)
Definition convert_exception (x : exception) (text filename : chars) : error :=
  let '(message, code, found, suggestions) := decode (emsg x) (efound x) in
  let '(message, code, found, annotation, notes) :=
    match code with
    | 0 => (structural_message x, structural_code x, efound x, structural_annotation x, structural_notes x)
    | _ => let notes := semantic_notes code found in
           (message, code, found, semantic_annotation code found message,
            match suggestions with
            | s :: _ => if existsb (contains (str "Did you mean")) notes then notes else did_you_mean s :: notes
            | [] => notes
            end)
    end in
  new_grammar message ENone found (Some (error_location text (eloc x) found filename)) [] code SError annotation notes [].
End Cls.
