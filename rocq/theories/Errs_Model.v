(* Error objects and collections of errors.
     gEconpy/parser/errors.py: GCNParseError l.181-353 (__init__, _format_message, to_lsp_diagnostic, with_location, with_context),
       GCNGrammarError l.356-425, GCNSemanticError l.428-486, GCNErrorCollection l.489-573, ErrorCollector l.576-640,
       ParseLocation.format_location l.167-178.
   An ErrorCode is its position in the catalogue (Err_Model.v).  A collection holds the very list of its collector, so a
   collection is modelled by the number of the collector and the text computed when it was made. *)
From Verif Require Import Common Err_Model.
Local Open Scope list_scope.

Inductive severity := SError | SWarning | SInfo | SHint.
(* expected: None, a string or a list *)
Inductive expectation := ENone | EOne (s : chars) | EMany (l : list chars).
Inductive kind := Base | Grammar (expected : list chars) (found : chars) | Semantic (symbol_name : chars).
Record error := Error { cls : kind; message : chars; where_ : option location; suggs : list chars; context : chars; code : option nat;
                        sev : severity; annotation : chars; notes : list chars; text : chars }.
Definition number (n : nat) : chars := dec (N.of_nat n).
Definition nl : chars := [newline].
(* format_location, l.167-178 *)
Definition format_location (p : location) : chars :=
  match filename p with
  | [] => str "line " ++ number (line p) ++ str ", column " ++ number (column p)
  | f => f ++ str ":" ++ number (line p) ++ str ":" ++ number (column p)
  end.
(* _format_message, l.253-274 *)
Definition format_message (message : chars) (code : option nat) (context : chars) (where_ : option location) (suggs : list chars) : chars :=
  join nl ([match code with Some c => str "[" ++ code_name c ++ str "] " ++ message | None => message end]
           ++ (match context with [] => [] | _ => [str "  in " ++ context] end)
           ++ (match where_ with
               | None => []
               | Some p => [str "  at " ++ format_location p] ++ (match source_line p with [] => [] | _ => [indented_pointer p] end)
               end)
           ++ (match suggs with
               | [] => []
               | [s] => [str "  Did you mean: " ++ s ++ str "?"]
               | _ => [str "  Did you mean one of: " ++ join (str ", ") suggs ++ str "?"]
               end)).
(* GCNParseError.__init__, l.231-251 *)
Definition new_error (k : kind) (message : chars) (where_ : option location) (suggs : list chars) (context : chars) (code : option nat)
    (sev : severity) (annotation : chars) (notes : list chars) : error :=
  Error k message where_ suggs context code sev annotation notes (format_message message code context where_ suggs).
Definition quoted (s : chars) : chars := str "'" ++ s ++ str "'".
Definition expected_list (e : expectation) : list chars :=
  match e with ENone => [] | EOne [] => [] | EOne s => [s] | EMany l => l end.
(* GCNGrammarError.__init__, l.384-425 *)
Definition grammar_message (message : chars) (expected : list chars) (found : chars) : chars :=
  match expected, found with
  | [], [] => message
  | [], _ => message ++ str ". Found " ++ quoted found
  | [e], [] => message ++ str ". Expected " ++ quoted e
  | [e], _ => message ++ str ". Expected " ++ quoted e ++ str ", found " ++ quoted found
  | _, [] => message ++ str ". Expected one of " ++ join (str ", ") (map quoted expected)
  | _, _ => message ++ str ". Expected one of " ++ join (str ", ") (map quoted expected) ++ str ", found " ++ quoted found
  end.
Definition new_grammar (message : chars) (expected : expectation) (found : chars) (where_ : option location) (context : chars) (code : nat)
    (sev : severity) (annotation : chars) (notes suggs : list chars) : error :=
  let l := expected_list expected in
  new_error (Grammar l found) (grammar_message message l found) where_ suggs context (Some code) sev annotation notes.
(* GCNSemanticError.__init__, l.464-486: no annotation and no notes *)
Definition semantic_message (message symbol_name : chars) : chars :=
  match symbol_name with [] => message | _ => if contains symbol_name message then message else message ++ str ": " ++ quoted symbol_name end.
Definition new_semantic (message symbol_name : chars) (where_ : option location) (suggs : list chars) (context : chars) (code : option nat) (sev : severity) : error :=
  new_error (Semantic symbol_name) (semantic_message message symbol_name) where_ suggs context code sev [] [].
(* self.__class__(message=..., location=..., ..., annotation=..., notes=...), l.325-334 and l.350-359; GCNSemanticError has no
   such keywords.  A GCNGrammarError made with code=None keeps None; [code] is passed on as it is. *)
Definition again (e : error) (where_ : option location) (context : chars) : result error :=
  match cls e with
  | Base => Ok (new_error Base (message e) where_ (suggs e) context (code e) (sev e) (annotation e) (notes e))
  | Grammar _ _ => Ok (new_error (Grammar [] []) (grammar_message (message e) [] []) where_ (suggs e) context (code e) (sev e) (annotation e) (notes e))
  | Semantic _ => Err TypeError
  end.
Definition with_location (e : error) (p : location) : result error := again e (Some p) (context e).
Definition with_context (e : error) (c : chars) : result error := again e (where_ e) c.
(* to_lsp_diagnostic, l.276-311 *)
Record diagnostic := Diagnostic { range : (nat * nat) * (nat * nat); dmessage : chars; dseverity : nat; dcode : option (chars * chars); data : option (list chars) }.
Definition severity_number (s : severity) : nat := match s with SError => 1 | SWarning => 2 | SInfo => 3 | SHint => 4 end.
Definition to_lsp_diagnostic (e : error) : diagnostic :=
  Diagnostic (match where_ e with Some p => to_lsp_range p | None => ((0, 0), (0, 0)) end) (message e) (severity_number (sev e))
    (match code e with Some c => Some (code_name c, str "https://geconpy.readthedocs.io/errors/" ++ code_name c ++ str ".html") | None => None end)
    (match suggs e with [] => None | l => Some l end).

(* ---- collectors and collections ---- *)
(* GCNErrorCollection._format_message, l.533-545 *)
Fixpoint enumerated (i : nat) (l : list error) : chars :=
  match l with [] => [] | e :: t => nl ++ str "[" ++ number i ++ str "] " ++ text e ++ enumerated (S i) t end.
Definition collection_text (l : list error) : chars :=
  match l with
  | [] => str "No errors"
  | [e] => text e
  | _ => str "Found " ++ number (length l) ++ str " errors:" ++ enumerated 1 l
  end.
Definition is_error (e : error) : bool := match sev e with SError => true | _ => false end.
Definition is_warning (e : error) : bool := match sev e with SWarning => true | _ => false end.
Record world := World { collectors : list (list error); collections : list (nat * chars) }.
Inductive command :=
| Create | Add (c : nat) (e : error) | RaiseIfErrors (c : nat) | RaiseFirst (c : nat) | HasErrors (c : nat) | Warnings (c : nat) | Length (c : nat)
| CollectionLength (k : nat) | CollectionText (k : nat) | CollectionErrors (k : nat) | CollectionHasErrors (k : nat) | CollectionDiagnostics (k : nat).
Inductive answer :=
| Nothing | Collector (c : nat) | Raised (e : error) | RaisedCollection (k : nat) | Bool (b : bool) | Errors (l : list error) | Count (n : nat)
| Text (s : chars) | Diagnostics (l : list diagnostic) | NoSuch.
Definition errors_of (w : world) (c : nat) : list error := nth c (collectors w) [].
Fixpoint update {A} (l : list A) (i : nat) (f : A -> A) : list A :=
  match l, i with [], _ => [] | x :: t, 0 => f x :: t | x :: t, S j => x :: update t j f end.
Definition on_collector (w : world) (c : nat) (f : list error -> answer * world) : answer * world :=
  match nth_error (collectors w) c with Some l => f l | None => (NoSuch, w) end.
Definition on_collection (w : world) (k : nat) (f : list error -> chars -> answer) : answer * world :=
  match nth_error (collections w) k with Some (c, t) => (f (errors_of w c) t, w) | None => (NoSuch, w) end.
Definition step (w : world) (c : command) : answer * world :=
  match c with
  | Create => (Collector (length (collectors w)), World (collectors w ++ [[]]) (collections w))
  | Add c e => on_collector w c (fun _ => (Nothing, World (update (collectors w) c (fun l => l ++ [e])) (collections w)))
  | RaiseIfErrors c => on_collector w c (fun l => match l with
      | [] => (Nothing, w)
      | _ => (RaisedCollection (length (collections w)), World (collectors w) (collections w ++ [(c, collection_text l)]))
      end)
  | RaiseFirst c => on_collector w c (fun l => (match find is_error l with Some e => Raised e | None => Nothing end, w))
  | HasErrors c => on_collector w c (fun l => (Bool (existsb is_error l), w))
  | Warnings c => on_collector w c (fun l => (Errors (filter is_warning l), w))
  | Length c => on_collector w c (fun l => (Count (length l), w))
  | CollectionLength k => on_collection w k (fun l _ => Count (length l))
  | CollectionText k => on_collection w k (fun _ t => Text t)
  | CollectionErrors k => on_collection w k (fun l _ => Errors l)
  | CollectionHasErrors k => on_collection w k (fun l _ => Bool (Nat.ltb 0 (length l)))
  | CollectionDiagnostics k => on_collection w k (fun l _ => Diagnostics (map to_lsp_diagnostic l))
  end.
Fixpoint run (w : world) (cs : list command) : list answer * world :=
  match cs with [] => ([], w) | c :: t => let '(a, w) := step w c in let '(o, w) := run w t in (a :: o, w) end.
Definition empty : world := World [] [].
