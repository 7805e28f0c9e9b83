(* Specification of texts that differ only in comments and blanks *)
From Verif Require Import Common Expr_Model.
Local Open Scope list_scope.

Definition newline_char : ascii := "010".
(* the text without its comments: everything from a '#' up to the end of the line is removed, the newline stays *)
Fixpoint strip_in (comment : bool) (s : chars) : chars :=
  match s with
  | [] => []
  | c :: s' =>
      if comment then (if Ascii.eqb c newline_char then c :: strip_in false s' else strip_in true s')
      else if Ascii.eqb c "#" then strip_in true s' else c :: strip_in false s'
  end.
Definition strip_comments (s : chars) : chars := strip_in false s.

(* blanks and complete comment lines *)
Inductive gap : chars -> Prop :=
| gap_nil : gap []
| gap_blank c g : is_ws c = true -> gap g -> gap (c :: g)
| gap_comment l g : ~ In newline_char l -> gap g -> gap ("#"%char :: l ++ newline_char :: g).
(* the end of a text: the last comment need not be followed by a newline *)
Inductive last_gap : chars -> Prop :=
| last_gap_full g : gap g -> last_gap g
| last_gap_open g l : gap g -> ~ In newline_char l -> last_gap (g ++ "#"%char :: l).
(* characters that are not blank and do not start a comment *)
Definition visible (c : ascii) : Prop := is_ws c = false /\ c <> "#"%char.
Definition only_spaces (g : chars) : Prop := forall c, In c g -> c = " "%char.
(* [relayout w s s']: s and s' have the same visible characters and nonempty gaps at the same places; w: the character before is
   a letter, digit or underscore.  Between two words a gap that is made of spaces only is kept as it is (it may be part of an
   option's name, which can consist of several words). *)
Inductive relayout : bool -> chars -> chars -> Prop :=
| relayout_end w g g' : last_gap g -> last_gap g' -> relayout w g g'
| relayout_char w c s s' : visible c -> relayout (is_idc c) s s' -> relayout w (c :: s) (c :: s')
| relayout_gap w g g' c s s' : gap g -> gap g' -> g <> [] -> g' <> [] -> visible c ->
    (w = true -> is_id0 c = true -> only_spaces g \/ only_spaces g' -> g = g') ->
    relayout (is_idc c) s s' -> relayout w (g ++ c :: s) (g' ++ c :: s').
(* ... where moreover the gap before the first visible character may be empty *)
Definition same_text (s s' : chars) : Prop :=
  exists g g' t t', gap g /\ gap g' /\ s = g ++ t /\ s' = g' ++ t' /\ relayout false t t'.
