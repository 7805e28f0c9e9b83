(* The terminal form of an error and of a collection of errors.
     gEconpy/parser/formatting.py: _supports_color l.8-16, Colors l.19-35, ErrorFormatter l.38-222
   The error object is that of Errs_Model.v, its location, the padding of numbers and the stripping of lines those of Err_Model.v.
   Simplifications: characters are ASCII; line, column and the number of context lines are natural numbers. *)
From Verif Require Import Common Err_Model Errs_Model.
Local Open Scope list_scope.

Definition esc : ascii := Ascii.ascii_of_nat 27.
(* Colors, l.19-35 *)
Definition code_of (s : string) : chars := esc :: str s.
Definition RESET := code_of "[0m".
Definition BOLD := code_of "[1m".
Definition RED := code_of "[31m".
Definition BLUE := code_of "[34m".
Definition CYAN := code_of "[36m".
Definition BOLD_RED := code_of "[1;31m".
Definition BOLD_YELLOW := code_of "[1;33m".
Definition BOLD_BLUE := code_of "[1;34m".

(* _supports_color, l.8-16: standard output has isatty, isatty() is true, NO_COLOR is not set (or empty), TERM *)
Definition supports_color (has_isatty isatty : bool) (no_color term : option chars) : bool :=
  if negb has_isatty then false
  else if negb isatty then false
  else match no_color with
       | Some (_ :: _) => false
       | _ => match term with Some t => negb (chars_eqb t (str "dumb")) | None => true end
       end.

Record formatter := Formatter { use_color : bool; context_lines : nat }.
(* __init__, l.50-52 *)
Definition new_formatter (wanted supported : bool) (context_lines : nat) : formatter := Formatter (wanted && supported) context_lines.

Section F.
Variable f : formatter.
(* _color, l.54-58 *)
Definition color (text c : chars) : chars := if use_color f then c ++ text ++ RESET else text.

(* Severity.value, errors.py l.12-16 *)
Definition severity_value (s : severity) : chars :=
  match s with SError => str "error" | SWarning => str "warning" | SInfo => str "info" | SHint => str "hint" end.
(* _format_severity, l.60-70 *)
Definition format_severity (s : severity) (code : option nat) : chars :=
  let label := match code with Some c => severity_value s ++ str "[" ++ code_name c ++ str "]" | None => severity_value s end in
  match s with SError => color label BOLD_RED | SWarning => color label BOLD_YELLOW | _ => color label BOLD end.
(* _format_location, l.72-75 *)
Definition format_place (file : chars) (ln c : nat) : chars :=
  str "  --> " ++ color (file ++ str ":" ++ number ln ++ str ":" ++ number c) BLUE.
(* _format_source_line, l.77-84 *)
Definition source_line_text (n : nat) (text : chars) (is_error : bool) : chars :=
  let num := if is_error then color (pad4 n) BOLD_BLUE else color (pad4 n) BLUE in
  match rstrip text with [] => num ++ str " |" | t => num ++ str " | " ++ t end.
(* _format_pointer, l.86-95 *)
Definition pointer_text (c len : nat) (message : chars) : chars :=
  color (str "     | ") BLUE ++ repeat " "%char (c - 1) ++ color (repeat "^"%char (Nat.max 1 len)) RED ++
  match message with [] => [] | _ => str " " ++ color message RED end.
(* _format_help, l.97-105 *)
Definition format_help (suggestions : list chars) : chars :=
  match suggestions with
  | [] => []
  | [s] => str "   " ++ color (str "= help:") CYAN ++ str " Did you mean '" ++ s ++ str "'?"
  | l => str "   " ++ color (str "= help:") CYAN ++ str " Did you mean one of: " ++ join (str ", ") l ++ str "?"
  end.
(* _format_note, l.107-110 *)
Definition format_note (note : chars) : chars := str "   " ++ color (str "= note:") CYAN ++ str " " ++ note.

(* the length of the pointer, l.166-168 and l.174-176 *)
Definition marked_length (p : location) : nat :=
  match end_column p with
  | Some (S ec) => match end_line p with Some el => if el =? line p then S ec - column p else 1 | None => 1 end
  | _ => 1
  end.
(* the loop over the context lines, l.156-169: from [k], [left] lines *)
Fixpoint context_from (lines : list chars) (p : location) (annotation : chars) (k left : nat) : list chars :=
  match left with
  | O => []
  | S left' =>
      let is_error := k =? line p in
      let text := if k <=? length lines then nth (k - 1) lines [] else [] in
      source_line_text k text is_error ::
      (if is_error then [pointer_text (column p) (marked_length p) annotation] else []) ++
      context_from lines p annotation (S k) left'
  end.
(* l.145-179 *)
Definition place_parts (p : location) (annotation : chars) (source : option chars) : list chars :=
  let file := match filename p with [] => str "<input>" | n => n end in
  let lines := match source with Some (c :: s) => split nl (c :: s) | _ => [] end in
  let context :=
    if (negb (length lines =? 0) && (line p <=? length lines))%bool then
      let first := Nat.max 1 (line p - context_lines f) in
      let last := Nat.min (length lines) (line p + context_lines f) in
      context_from lines p annotation first (S last - first)
    else match source_line p with
         | [] => []
         | s => [source_line_text (line p) s true; pointer_text (column p) (marked_length p) annotation]
         end in
  [format_place file (line p) (column p); color (str "     |") BLUE] ++ context ++ [color (str "     |") BLUE].
(* format_error, l.116-188 *)
Definition error_parts (e : error) (source : option chars) : list chars :=
  [format_severity (sev e) (code e) ++ str ": " ++ message e] ++
  (match where_ e with Some p => place_parts p (annotation e) source | None => [] end) ++
  (match suggs e with [] => [] | l => [format_help l] end) ++
  map format_note (notes e).
Definition format_error (e : error) (source : option chars) : chars := join nl (error_parts e source).

(* format_error_collection, l.190-222: the loop, [i] is the position *)
Fixpoint collection_parts (i : nat) (es : list error) (source : option chars) : list chars :=
  match es with
  | [] => []
  | e :: es' => (if 0 <? i then [[]] else []) ++ [format_error e source] ++ collection_parts (S i) es' source
  end.
Definition format_error_collection (es : list error) (source : option chars) : chars :=
  match es with
  | [] => []
  | _ =>
      let summary := if length es =? 1 then color (str "error: aborting due to 1 previous error") BOLD_RED
                     else color (str "error: aborting due to " ++ number (length es) ++ str " previous errors") BOLD_RED in
      join nl (collection_parts 0 es source ++ [[]; summary])
  end.
End F.
