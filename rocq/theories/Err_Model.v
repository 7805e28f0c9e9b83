(* How parse errors carry their data and where they point.
   gEconpy/parser/errors.py l.19-89 (GCNParseFailure), l.92-178 (ParseLocation), l.253-274 (message), l.276-308 (LSP);
   gEconpy/parser/grammar/gcn_file.py l.75-120 (_convert_parse_exception); gEconpy/parser/formatting.py l.79-160 (terminal);
   gEconpy/parser/suggestions.py l.25-79 (find_similar_names) *)
From Coq Require Import QArith.
From Verif Require Import Common Sort_Lib SymDict_Model.
Local Open Scope nat_scope.

(* ---- strings ---- *)
Definition newline : ascii := Ascii.ascii_of_nat 10.
Definition tab : ascii := Ascii.ascii_of_nat 9.
Definition return_ : ascii := Ascii.ascii_of_nat 13.
Fixpoint prefixb (p s : chars) : bool :=
  match p, s with
  | [], _ => true
  | a :: p', b :: s' => if ascii_dec a b then prefixb p' s' else false
  | _, [] => false
  end.
(* s.split(sep) for a separator that is not empty: the leftmost occurrence, then what follows it; [skip] characters of an
   occurrence are still to be passed over *)
Fixpoint split_from (sep : chars) (skip : nat) (acc s : chars) : list chars :=
  match s with
  | [] => [rev acc]
  | c :: r =>
      match skip with
      | S k => split_from sep k acc r
      | O => if prefixb sep s then rev acc :: split_from sep (length sep - 1) [] r else split_from sep 0 (c :: acc) r
      end
  end.
Definition split (sep s : chars) : list chars := split_from sep 0 [] s.
Fixpoint join (sep : chars) (l : list chars) : chars :=
  match l with [] => [] | [x] => x | x :: r => x ++ sep ++ join sep r end.
(* sub in s *)
Fixpoint contains (sub s : chars) : bool := prefixb sub s || match s with [] => false | _ :: r => contains sub r end.

(* ---- GCNParseFailure, errors.py l.19-89 ---- *)
(* the members of ErrorCode, error_catalog.py l.28-366 *)
Definition code_names : list chars := map str
  ["E000"; "E001"; "E002"; "E003"; "E004"; "E005"; "E006"; "E007"; "E008"; "E009"; "E010"; "E011"; "E012"; "E013"; "E014"; "E015"; "E016";
   "E100"; "E101"; "E102"; "E103"; "W001"; "W002"; "W003"]%string.
(* a code is its position in that list *)
Definition code_name (c : nat) : chars := nth c code_names [].
Fixpoint index_of (x : chars) (l : list chars) (i : nat) : option nat :=
  match l with [] => None | y :: r => if chars_eqb x y then Some i else index_of x r (S i) end.
(* ErrorCode[code_str], KeyError becomes E000, l.74-77 *)
Definition code_of_name (s : chars) : nat := match index_of s code_names 0 with Some c => c | None => 0 end.
Definition SEPARATOR : chars := str "||GCN||".
Definition comma : chars := str ",".
Record failure := Failure { pstr : chars; loc : nat; msg : chars; error_code : nat; gcn_found : chars; suggestions : list chars }.
(* __init__, l.34-51 *)
Definition new_failure (s : chars) (l : nat) (m : chars) (code : nat) (found : chars) (suggs : list chars) : failure :=
  Failure s l (join SEPARATOR [m; code_name code; found; join comma suggs]) code found suggs.
(* decode, l.54-78: given the text of the exception and, for a plain pyparsing exception, what pyparsing found *)
Definition decode (message : chars) (pp_found : chars) : chars * nat * chars * list chars :=
  if contains SEPARATOR message then
    match split SEPARATOR message with
    | [m; code_str; found; suggs] => (m, code_of_name code_str, found, filter (fun s => match s with [] => false | _ => true end) (split comma suggs))
    | _ => (message, 0, [], [])
    end
  else (message, 0, pp_found, []).
(* copy, l.80-89 *)
Definition copy (f : failure) : failure :=
  new_failure (pstr f) (loc f) (if contains SEPARATOR (msg f) then nth 0 (split SEPARATOR (msg f)) [] else msg f)
    (error_code f) (gcn_found f) (suggestions f).

(* ---- where an exception is: pyparsing's lineno and col of a position in a text ---- *)
Definition is_newline (c : ascii) : bool := if ascii_dec c newline then true else false.
Definition count_newlines (s : chars) : nat := length (filter is_newline s).
Definition lineno (l : nat) (s : chars) : nat := count_newlines (firstn l s) + 1.
(* s.rfind of a newline before loc, plus one: the number of characters up to and including the last newline *)
Fixpoint after_last_newline (s : chars) : nat :=
  match s with
  | [] => 0
  | c :: r => match after_last_newline r with S k => S (S k) | O => if is_newline c then 1 else 0 end
  end.
Definition char_is_newline (s : chars) (i : nat) : bool := match nth_error s i with Some c => is_newline c | None => false end.
Definition col (l : nat) (s : chars) : nat :=
  if (0 <? l) && (l <? length s) && char_is_newline s (l - 1) then 1 else l + 1 - after_last_newline (firstn l s).
(* str.expandtabs(), which pyparsing applies to the text before parsing; the exception's positions are in the result *)
Fixpoint expandtabs (column : nat) (s : chars) : chars :=
  match s with
  | [] => []
  | c :: r =>
      if ascii_dec c tab then let n := 8 - column mod 8 in repeat " "%char n ++ expandtabs (column + n) r
      else if is_newline c || (if ascii_dec c return_ then true else false) then c :: expandtabs 0 r
      else c :: expandtabs (S column) r
  end.

(* ---- ParseLocation, errors.py l.92-178 ---- *)
Record location := Location { line : nat; column : nat; end_line : option nat; end_column : option nat; source_line : chars; filename : chars }.
(* strip of single and double quotes, gcn_file.py l.96 *)
Definition is_quote (c : ascii) : bool := if ascii_dec c "'"%char then true else if ascii_dec c """"%char then true else false.
Fixpoint lstrip (s : chars) : chars := match s with c :: r => if is_quote c then lstrip r else s | [] => [] end.
Definition strip_quotes (s : chars) : chars := rev (lstrip (rev (lstrip s))).
(* _convert_parse_exception, gcn_file.py l.75-108: the text is the user's, the exception's text is the expanded one; [found] is what
   the failure or pyparsing says was found *)
Definition error_location (text : chars) (l : nat) (found fname : chars) : location :=
  let expanded := expandtabs 0 text in
  let ln := lineno l expanded in let c := col l expanded in
  let lines := split [newline] text in
  let source := if (0 <? ln) && (ln <=? length lines) then nth (ln - 1) lines [] else [] in
  let found_clean := strip_quotes found in
  let ec := match found_clean with [] => None | _ => if 0 <? c then Some (c + length found_clean) else None end in
  Location ln c (match ec with Some _ => Some ln | None => None end) ec source fname.
(* to_lsp_range, l.133-140: (line, character) of the start and of the end *)
Definition to_lsp_range (p : location) : (nat * nat) * (nat * nat) :=
  let el := match end_line p with Some e => e | None => line p end in
  let ec := match end_column p with Some e => e | None => column p + 1 end in
  ((line p - 1, column p - 1), (el - 1, ec - 1)).
(* the number of pointer characters, l.160-164 *)
Definition pointer_len (p : location) : nat :=
  match end_column p, end_line p with
  | Some ec, Some el => if el =? line p then Nat.max 1 (ec - column p) else 1
  | _, _ => 1
  end.
(* format_pointer, l.142-165 *)
Definition format_pointer (pointer_char : ascii) (p : location) : chars :=
  match source_line p with
  | [] => []
  | _ => source_line p ++ [newline] ++ repeat " "%char (column p - 1) ++ repeat pointer_char (pointer_len p)
  end.
(* the indented pointer of a message, l.263-266 *)
Definition indented_pointer (p : location) : chars :=
  join [newline] (map (fun l => str "    " ++ l) (split [newline] (format_pointer "^"%char p))).

(* ---- the terminal form, formatting.py, without colours ---- *)
Definition is_space (c : ascii) : bool :=
  if ascii_dec c " "%char then true else if ascii_dec c tab then true else if ascii_dec c newline then true else if ascii_dec c return_ then true else false.
Fixpoint drop_spaces (s : chars) : chars := match s with c :: r => if is_space c then drop_spaces r else s | [] => [] end.
Definition rstrip (s : chars) : chars := rev (drop_spaces (rev s)).
(* the number, at least four characters wide *)
Definition pad4 (n : nat) : chars := let d := dec (N.of_nat n) in repeat " "%char (4 - length d) ++ d.
(* _format_source_line, l.73-80 *)
Definition format_source_line (n : nat) (text : chars) : chars :=
  match rstrip text with [] => pad4 n ++ str " |" | t => pad4 n ++ str " | " ++ t end.
(* _format_pointer, l.82-91 *)
Definition format_pointer_line (c length_ : nat) (message : chars) : chars :=
  str "     | " ++ repeat " "%char (c - 1) ++ repeat "^"%char (Nat.max 1 length_) ++
  match message with [] => [] | _ => str " " ++ message end.

(* ---- find_similar_names, suggestions.py l.36-79; the similarity of difflib is a parameter ---- *)
Section Similar.
Variables (lower : chars -> chars) (ratio : chars -> chars -> Q).
(* the key (-ratio, name), l.77 *)
Definition sim_leb (a b : Q * chars) : bool :=
  if Qle_bool (fst a) (fst b) then (if Qle_bool (fst b) (fst a) then chars_leb (snd a) (snd b) else false) else true.
(* scored[:max_results], l.79, with Python's negative bounds *)
Definition py_take {A} (n : Z) (l : list A) : list A :=
  if (n <? 0)%Z then firstn (Z.to_nat (Z.of_nat (length l) + n)) l else firstn (Z.to_nat n) l.
Definition find_similar_names (name : chars) (candidates : list chars) (max_results : Z) (min_similarity : Q) : list chars :=
  if existsb (fun c => chars_eqb (lower c) (lower name)) candidates then []
  else
    let scored := filter (fun x => Qle_bool min_similarity (fst x)) (map (fun c => (ratio (lower name) (lower c), c)) candidates) in
    map snd (py_take max_results (isort sim_leb scored)).
End Similar.
