(* Where variables, parameters and equations are in the source text.
     gEconpy/parser/grammar/expressions.py: _parse_time_index l.38-43, _parse_variable l.79-98, _parse_parameter l.104-118;
     gEconpy/parser/grammar/statements.py: _parse_variable_ref l.41-65, _parse_calibrating_param l.95-124,
     _find_location_in_node l.201-229, _build_equation l.232-294 (its location)
     gEconpy/parser/ast/nodes.py: TimeIndex.__str__ l.46-53
   pyparsing's lineno and col, and ParseLocation, are those of Err_Model.v.
   Simplifications: characters are ASCII and only a line feed ends a line; a parse action is given the text, the position where its
   match starts and the matched names, as pyparsing gives them; numbers carry no location. *)
From Verif Require Import Common Err_Model Exc_Model.
Local Open Scope list_scope.

Definition line_at (s : chars) (n : nat) : chars := if (0 <? n) && (n <=? length (splitlines s)) then nth (n - 1) (splitlines s) [] else [].
(* the location of [len] characters at a position *)
Definition token_at (s : chars) (loc len : nat) : location :=
  Location (lineno loc s) (col loc s) (Some (lineno loc s)) (Some (col loc s + len)) (line_at s (lineno loc s)) [].

Inductive tindex := Steady | At (z : Z).
(* str(int) *)
Definition int_text (z : Z) : chars := if Z.ltb z 0 then "-"%char :: dec (Z.abs_N z) else dec (Z.abs_N z).
(* TimeIndex.__str__ *)
Definition index_text (t : tindex) : chars :=
  match t with Steady => str "[ss]" | At z => if Z.eqb z 0 then str "[]" else str "[" ++ int_text z ++ str "]" end.
Definition is_now (t : tindex) : bool := match t with At z => Z.eqb z 0 | Steady => false end.

(* _parse_variable, l.79-98 *)
Definition variable_location (s : chars) (loc : nat) (name : chars) (t : tindex) : location :=
  let time_str := if is_now t then [] else index_text t in
  token_at s loc (length name + 2 + length time_str).
(* _parse_variable_ref, l.48-58: the content of the brackets as written *)
Definition reference_location (s : chars) (loc : nat) (name content : chars) : location :=
  token_at s loc (length (name ++ str "[" ++ content ++ str "]")).
(* _parse_parameter *)
Definition parameter_location (s : chars) (loc : nat) (name : chars) : location := token_at s loc (length name).

(* s.find(sub, loc) *)
Fixpoint find_from (sub s : chars) (i : nat) : option nat :=
  if prefixb sub s then Some i else match s with [] => None | _ :: r => find_from sub r (S i) end.
Definition find_at (sub s : chars) (loc : nat) : option nat := if loc <=? length s then find_from sub (skipn loc s) loc else None.
(* the characters skipped after the arrow, l.103-105 *)
Definition skipped_char (c : ascii) : bool :=
  if ascii_dec c " "%char then true else if ascii_dec c tab then true else if ascii_dec c newline then true else false.
Fixpoint skip_blank (s : chars) (i : nat) : nat := match s with c :: r => if skipped_char c then skip_blank r (S i) else i | [] => i end.
(* _parse_calibrating_param *)
Definition calibrating_location (s : chars) (loc : nat) (name : chars) : location :=
  let param_loc := match find_at (str "->") s loc with Some a => skip_blank (skipn (a + 2) s) (a + 2) | None => loc end in
  token_at s param_loc (length name).

(* an expression with the locations of its names *)
Inductive node :=
| Name (p : option location)          (* Variable, Parameter *)
| Num
| Binary (left right : node)
| Unary (operand : node)
| Call (args : list node)
| Expected (expr : node).
(* _find_location_in_node *)
Fixpoint find_location (n : node) : option location :=
  match n with
  | Name p => p
  | Num => None
  | Binary l _ => find_location l
  | Unary x => find_location x
  | Call _ => None
  | Expected e => find_location e
  end.
(* str.strip *)
Definition strip (s : chars) : chars := rstrip (drop_spaces s).
(* _build_equation, l.248-294 *)
Definition equation_location (s : chars) (loc : nat) (lhs : node) (calibrating : option chars) : location :=
  let '(ln, c, source) := match find_location lhs with
    | Some p => (line p, column p, source_line p)
    | None => (lineno loc s, col loc s, line_at s (lineno loc s))
    end in
  let '(el, ec) := match calibrating with
    | Some (_ :: _) =>
        match find_at (str "->") s loc with
        | Some a => (lineno a s, col a s)
        | None => (ln, c + 10)
        end
    | _ =>
        match find_at (str ";") s loc with
        | Some e => (lineno e s, col e s + 1)
        | None => (ln, c + length (strip source))
        end
    end in
  Location ln c (Some el) (Some ec) source [].
