(* Taking a special block out of a text.
     gEconpy/parser/grammar/special_blocks.py: extract_special_block_content l.165-171, remove_special_block l.174-177.
   The regular expression is <name>\s*\{.*?\}; with DOTALL and IGNORECASE: the name in any case, white space, a brace, and the
   shortest text up to the first "};".  re.search takes the first place where it matches, re.sub removes the matches from left to right.
   Simplifications: the name consists of characters that stand for themselves in a regular expression; white space and letters' case are ASCII's. *)
From Verif Require Import Common Cls_Model.
Local Open Scope list_scope.
Local Open Scope nat_scope.

(* \s *)
Definition is_white (c : ascii) : bool := let n := nat_of_ascii c in ((9 <=? n) && (n <=? 13)) || ((28 <=? n) && (n <=? 32)).
Fixpoint eat_name (name s : chars) : option chars :=
  match name, s with
  | [], _ => Some s
  | a :: n, b :: r => if ascii_dec (lower_char a) (lower_char b) then eat_name n r else None
  | _ :: _, [] => None
  end.
Fixpoint eat_white (s : chars) : chars := match s with c :: r => if is_white c then eat_white r else s | [] => [] end.
(* .*?\}; : the text after the first "};" *)
Fixpoint eat_to_close (s : chars) : option chars :=
  match s with
  | a :: (b :: r') as r => if ascii_dec a "}" then (if ascii_dec b ";" then Some r' else eat_to_close r) else eat_to_close r
  | _ => None
  end.
(* the match that begins here: its text and the rest *)
Definition match_here (name s : chars) : option (chars * chars) :=
  match eat_name name s with
  | None => None
  | Some r =>
      match eat_white r with
      | c :: r2 => if ascii_dec c "{" then match eat_to_close r2 with Some rest => Some (firstn (length s - length rest) s, rest) | None => None end else None
      | [] => None
      end
  end.
Fixpoint extract_special_block_content (s name : chars) : option chars :=
  match match_here name s with
  | Some (m, _) => Some m
  | None => match s with [] => None | _ :: r => extract_special_block_content r name end
  end.
(* [skip]: the characters of the current match that are still to be left out *)
Fixpoint remove_from (name : chars) (skip : nat) (s : chars) : chars :=
  match s with
  | [] => []
  | c :: r =>
      match skip with
      | S k => remove_from name k r
      | 0 => match match_here name s with Some (m, _) => remove_from name (length m - 1) r | None => c :: remove_from name 0 r end
      end
  end.
Definition remove_special_block (s name : chars) : chars := remove_from name 0 s.
