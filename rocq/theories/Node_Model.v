(* The nodes of a parsed expression as values and as texts.
     gEconpy/parser/ast/nodes.py: TimeIndex l.9-63, Operator l.73-92, Tag l.107-129, Number l.145-157, Parameter l.160-174,
       Variable l.177-202, BinaryOp l.205-217, UnaryOp l.220-231, FunctionCall l.234-250, Expectation l.253-267;
     gEconpy/parser/grammar/expressions.py: _parse_time_index l.39-44.
   A number is the text str gives for it; locations, which nodes leave out of comparisons, are left out except in [at_time]. ASCII. *)
From Verif Require Import Common.
From Coq Require Import ZArith.
Local Open Scope list_scope.

(* TimeIndex *)
Inductive time := At (z : Z) | Steady.
Definition is_steady_state (t : time) : bool := match t with Steady => true | At _ => false end.
(* __init__, l.20-23: a text or a number *)
Definition time_of (v : chars + Z) : result time :=
  match v with inl s => if chars_eqb s (str "ss") then Ok Steady else Err ValueError | inr z => Ok (At z) end.
Definition integer_text (z : Z) : chars := if Z.ltb z 0 then "-"%char :: dec (Z.abs_N z) else dec (Z.abs_N z).
(* __str__, l.46-53, without the brackets *)
Definition inside (t : time) : chars := match t with Steady => str "ss" | At z => if Z.eqb z 0 then [] else integer_text z end.
Definition time_text (t : time) : chars := "["%char :: inside t ++ str "]".
(* step_forward, step_backward, l.55-63 *)
Definition step_forward (t : time) : result time := match t with Steady => Err ValueError | At z => Ok (At (z + 1)) end.
Definition step_backward (t : time) : result time := match t with Steady => Err ValueError | At z => Ok (At (z - 1)) end.
(* int(text) of an optional minus and digits *)
Definition int_of (s : chars) : option Z :=
  match s with
  | c :: r => if ascii_dec c "-"%char then option_map (fun n => (- Z.of_N n)%Z) (undec r) else option_map Z.of_N (undec s)
  | [] => None
  end.
(* _parse_time_index *)
Definition parse_time_index (content : chars) : result time :=
  match content with
  | [] => Ok (At 0)
  | _ => if chars_eqb content (str "ss") then Ok Steady else match int_of content with Some z => Ok (At z) | None => Err ValueError end
  end.

Inductive operator := ADD | SUB | MUL | DIV | POW | NEG.
Definition op_char (o : operator) : ascii :=
  match o with ADD => "+" | SUB => "-" | MUL => "*" | DIV => "/" | POW => "^" | NEG => "-" end%char.
Inductive node :=
| Number (text : chars) | Param (name : chars) | Var (name : chars) (t : time)
| Binary (l : node) (o : operator) (r : node) | Unary (o : operator) (e : node) | Call (f : chars) (args : list node) | Expect (e : node).
(* __str__ *)
Definition listed (ts : list chars) : chars := match ts with [] => [] | t :: r => t ++ concat (map (fun u => str ", " ++ u) r) end.
Fixpoint text (e : node) : chars :=
  match e with
  | Number t => t
  | Param n => n
  | Var n t => n ++ time_text t
  | Binary l o r => "("%char :: text l ++ [" "%char; op_char o; " "%char] ++ text r ++ [")"%char]
  | Unary o e => "("%char :: op_char o :: text e ++ [")"%char]
  | Call f args => f ++ "("%char :: listed (map text args) ++ [")"%char]
  | Expect e => str "E[][" ++ text e ++ ["]"%char]
  end.
(* Variable.at and to_ss, l.191-199: name, time and where it was read *)
Definition at_time {L} (v : chars * time * L) (i : time + (chars + Z)) : result (chars * time * L) :=
  t <- match i with inl t => Ok t | inr x => time_of x end ;; Ok (fst (fst v), t, snd v).
Definition to_ss {L} (v : chars * time * L) := at_time v (inl Steady).

(* Tag, l.107-129 *)
Inductive tag := EXCLUDE | MINIMIZE | MAXIMIZE.
Definition tags : list tag := [EXCLUDE; MINIMIZE; MAXIMIZE].
Definition tag_value (t : tag) : chars := match t with EXCLUDE => str "exclude" | MINIMIZE => str "minimize" | MAXIMIZE => str "maximize" end.
Definition lower_char (c : ascii) : ascii :=
  let n := Ascii.nat_of_ascii c in if Nat.leb 65 n && Nat.leb n 90 then Ascii.ascii_of_nat (n + 32) else c.
Definition from_string (name : chars) : result tag :=
  match find (fun t => chars_eqb (tag_value t) (map lower_char name)) tags with Some t => Ok t | None => Err ValueError end.
