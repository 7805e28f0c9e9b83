(* What the user sees when a single expression cannot be parsed.
     gEconpy/parser/grammar/expressions.py: _convert_parse_exception l.214-238, _classify_expression_error l.241-267,
       _get_error_code l.270-289, parse_expression l.292-302 (after a failure), _empty_function_fail l.138-147,
       _invalid_time_index_fail l.54-64 (l.40-75);
     gEconpy/parser/error_catalog.py: format_help l.395-416, get_error_info l.419-437, format_error_help l.440-455.
   As in Cls_Model.v an exception is its message, what was expected and found (empty if pyparsing does not say) and its
   position; pyparsing's positions are in the text with its tabs expanded; ASCII letters only.  The catalogue is a parameter. *)
From Verif Require Import Common Err_Model Errs_Model Cls_Model.
Local Open Scope list_scope.
Local Open Scope bool_scope.

(* msg.split(sep)[0] *)
Definition first_part (sep s : chars) : chars := nth 0 (split sep s) [].
Definition operators : list chars := map str ["^"; "**"; "*"; "/"; "+"; "-"]%string.
(* _classify_expression_error, l.241-267 *)
Definition classify (msg expected found : chars) : chars :=
  if contains (str "Empty function call") msg then first_part (str ". E008") msg
  else if contains (str "Invalid time index") msg then first_part (str ". E010") msg
  else if contains (str "end of text") (lower msg) then
    if among found operators then str "Unexpected operator '" ++ found ++ str "' at end of expression" else str "Incomplete expression"
  else if (match expected with [] => false | _ => true end && contains (str "+") expected) || contains (str "-") expected
  then str "Missing operand after operator"
  else if contains (str "(") msg || contains (str ")") msg then str "Unbalanced parentheses"
  else if contains (str "[") msg || contains (str "]") msg then str "Invalid variable syntax"
  else str "Invalid expression syntax: " ++ msg.
(* _get_error_code, l.270-289 *)
Definition expression_code (msg expected : chars) : nat :=
  if contains (str "E008") msg || contains (str "Empty function call") msg then 8
  else if contains (str "E010") msg || contains (str "Invalid time index") msg then 10
  else if contains (str "(") msg || contains (str ")") msg then 7
  else if match expected with [] => false | _ => true end && (contains (str "+") expected || contains (str "-") expected || contains (str "*") expected) then 6
  else if contains (str "[") msg || contains (str "]") msg then 10
  else 6.
(* l.215-226: exc.line is the line of the expanded text; if it is empty, the line of the user's text *)
Definition expression_location (text : chars) (l : nat) : location :=
  let expanded := expandtabs 0 text in
  let ln := lineno l expanded in
  let exc_line := nth (ln - 1) (split nl expanded) [] in
  let lines := split nl text in
  let source := match exc_line, text with
                | [], _ :: _ => if (0 <? ln) && (ln <=? length lines) then nth (ln - 1) lines [] else exc_line
                | _, _ => exc_line
                end in
  Location ln (col l expanded) None None source [].
(* l.214-238; expected if expected else None and found if found else None *)
Definition convert_expression (x : exception) (text context : chars) : error :=
  new_grammar (classify (emsg x) (eexpected x) (efound x)) (EOne (eexpected x)) (efound x)
    (Some (expression_location text (eloc x))) context (expression_code (emsg x) (eexpected x)) SError [] [] [].
(* what the grammar itself raises, l.138-147 and l.54-64; the constructor of the exception is Err_Model.new_failure *)
Definition empty_call (s : chars) (l : nat) (name : chars) : failure :=
  new_failure s l (str "Empty function call '" ++ name ++ str "()'") 8 (name ++ str "()") [].
Definition bad_index (s : chars) (l : nat) (name inner : chars) : failure :=
  new_failure s l (str "Invalid time index '[" ++ inner ++ str "]' for variable '" ++ name ++ str "'") 10 (str "[" ++ inner ++ str "]") [].

(* ---- the catalogue, error_catalog.py ---- *)
Record info := Info { i_title : chars; i_explanation : chars; causes : list chars; remedies : list chars }.
Section Catalogue.
Variable catalogue : nat -> info.
(* format_help, l.395-416 *)
Definition format_help (code : nat) : chars :=
  let i := catalogue code in
  join nl ([code_name code ++ str ": " ++ i_title i; []; i_explanation i; []; str "Common causes:"]
           ++ map (fun c => str "  - " ++ c) (causes i) ++ [[]; str "How to fix:"] ++ map (fun f => str "  - " ++ f) (remedies i)).
(* get_error_info, l.419-437, and format_error_help, l.440-455, of a name *)
Definition get_error_info (name : chars) : option info := option_map catalogue (index_of name code_names 0).
Definition format_error_help (name : chars) : chars := match index_of name code_names 0 with Some c => format_help c | None => [] end.
End Catalogue.
