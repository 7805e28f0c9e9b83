(* Lexical layer of the GCN file grammar (gEconpy/parser/grammar/tokens.py, expressions.py, statements.py), and the parser
   combinators of pyparsing that the grammar uses.
   Everything is parametrised by the function [sk] that skips what pyparsing ignores in front of a token:
     - [skip]  (Expr_Model): blanks only;
     - [skipc]: blanks and '#' comments, the behaviour after  X.ignore(COMMENT)  with COMMENT = Regex("#.*")
       (expressions.py l.212, components.py l.150, blocks.py l.44, special_blocks.py, gcn_file.py l.59).
   For a parser element p and remaining input s, [p s] is one of POk (value, rest), PFail (ParseException: the caller may
   try another alternative), PFatal (ParseFatalException: '-' operator or GCNParseFailure) or POut (the model's recursion
   fuel is exhausted; shown never to happen).
   Simplifications: locations, error codes and messages are not modelled; inside an operand of infix_notation pyparsing's
   lookahead turns a fatal failure into an ordinary one, here it stays fatal (the text is rejected either way). *)
From Verif Require Import Common Expr_Model.
Local Open Scope list_scope.

(* preParse with ignore(COMMENT): (blanks, comment)* blanks; a comment ends before the next newline *)
Fixpoint skipc_in (comment : bool) (s : chars) : chars :=
  match s with
  | [] => []
  | c :: s' =>
      if comment then skipc_in (negb (Ascii.eqb c "010")) s'
      else if is_ws c then skipc_in false s'
      else if Ascii.eqb c "#" then skipc_in true s'
      else s
  end.
Definition skipc (s : chars) : chars := skipc_in false s.

(* ---- combinators ---- *)
Definition parser (A : Type) := chars -> pres A.
Definition ret {A} (a : A) : parser A := fun s => POk a s.
Definition fail {A} : parser A := fun _ => PFail.
(* parse action raising GCNParseFailure *)
Definition fatal {A} : parser A := fun _ => PFatal.
(* And: sequencing with + *)
Definition seq {A B} (p : parser A) (k : A -> parser B) : parser B :=
  fun s => match p s with POk a r => k a r | PFail => PFail | PFatal => PFatal | POut => POut end.
(* an element after the '-' operator: failure is fatal *)
Definition cut {A} (p : parser A) : parser A := fun s => match p s with PFail => PFatal | x => x end.
(* MatchFirst: | *)
Definition alt {A} (p q : parser A) : parser A := fun s => match p s with PFail => q s | x => x end.
(* ZeroOrMore *)
Fixpoint many_f {A} (n : nat) (p : parser A) (s : chars) : pres (list A) :=
  match n with
  | O => POut
  | S n' => match p s with
            | POk a r => match many_f n' p r with POk l r' => POk (a :: l) r' | x => x end
            | PFail => POk [] s
            | PFatal => PFatal
            | POut => POut
            end
  end.
Definition many {A} (p : parser A) : parser (list A) := fun s => many_f (S (length s)) p s.
(* Optional *)
Definition opt {A} (p : parser A) : parser (option A) :=
  fun s => match p s with POk a r => POk (Some a) r | PFail => POk None s | PFatal => PFatal | POut => POut end.
(* FollowedBy *)
Definition peek {A} (p : parser A) : parser unit :=
  fun s => match p s with POk _ _ => POk tt s | PFail => PFail | PFatal => PFatal | POut => POut end.
(* NotAny / ~: try_parse turns a fatal failure into an ordinary one *)
Definition nota {A} (p : parser A) : parser unit :=
  fun s => match p s with POk _ _ => PFail | PFail => POk tt s | PFatal => POk tt s | POut => POut end.
Definition of_opt {A} (f : chars -> option (A * chars)) : parser A := fun s => match f s with Some (a, r) => POk a r | None => PFail end.

Declare Scope parser_scope.
Delimit Scope parser_scope with parser.
Notation "x <~ p ; q" := (seq p (fun x => q)) (at level 61, p at next level, right associativity) : parser_scope.
Notation "p >> q" := (seq p (fun _ => q)) (at level 61, right associativity) : parser_scope.
Notation "! p" := (cut p) (at level 60) : parser_scope.
Infix "<|>" := alt (at level 59, left associativity) : parser_scope.
Open Scope parser_scope.

(* ---- matching at the current character (no skipping) ---- *)
Definition raw_ident (s : chars) : option (chars * chars) :=
  match s with
  | c :: s' => if is_id0 c then let '(a, b) := span is_idc s' in Some (c :: a, b) else None
  | [] => None
  end.
Definition raw_number (s : chars) : option (chars * chars) :=
  match p_mantissa s with
  | Some (m, r) => let '(ex, r') := p_exponent r in if word_or_dot r' then None else Some (m ++ ex, r')
  | None => None
  end.
Definition raw_int (s : chars) : option (Z * chars) :=
  match s with
  | c :: s' =>
      if Ascii.eqb c "-" then let '(d, r) := span is_digit s' in match undec d with Some n => Some (- Z.of_N n, r)%Z | None => None end
      else let '(d, r) := span is_digit (c :: s') in match undec d with Some n => Some (Z.of_N n, r) | None => None end
  | [] => None
  end.
(* pyparsing_common.number: sci_real | real | signed_integer (pyparsing 3): an optional sign, then digits with an exponent,
   or digits "." digits with an optional exponent, or "." digits, or digits *)
Definition raw_dnumber (s : chars) : option (chars * chars) :=
  let '(sg, r) := p_sign s in
  match p_mantissa r with
  | Some (m, r1) =>
      match m with
      | c :: _ => if Ascii.eqb c "." then Some (sg ++ m, r1) else let '(ex, r2) := p_exponent r1 in Some (sg ++ m ++ ex, r2)
      | [] => None
      end
  | None => None
  end.
(* characters that may continue a keyword: Keyword.DEFAULT_KEYWORD_CHARS = alphanums + "_$" *)
Definition kw_end (s : chars) : bool := match s with c :: _ => negb (is_idc c || Ascii.eqb c "$") | [] => true end.
(* str.lower / upper on ASCII letters *)
Definition lower (c : ascii) : ascii :=
  let n := N_of_ascii c in if (N.leb 65 n && N.leb n 90)%bool then ascii_of_N (n + 32) else c.
Fixpoint eat_ci (w s : chars) : option chars :=
  match w, s with
  | [], _ => Some s
  | c :: w', d :: s' => if Ascii.eqb (lower c) (lower d) then eat_ci w' s' else None
  | _ :: _, [] => None
  end.
(* one_of(names): alternatives are reordered so that the longest one that matches is taken *)
Fixpoint longest (names : list chars) : list chars :=
  match names with
  | [] => []
  | n :: l => (fix ins (l : list chars) := match l with [] => [n] | m :: l' => if Nat.leb (length m) (length n) then n :: l else m :: ins l' end) (longest l)
  end.
Fixpoint first_of (f : chars -> chars -> option chars) (names : list chars) (s : chars) : option (chars * chars) :=
  match names with
  | [] => None
  | n :: l => match f n s with Some r => Some (n, r) | None => first_of f l s end
  end.

Section Tokens.
Variable sk : chars -> chars.
Definition t_lit (w : string) : parser unit := of_opt (fun s => match eat (str w) (sk s) with Some r => Some (tt, r) | None => None end).
Definition t_ident : parser chars := of_opt (fun s => raw_ident (sk s)).
Definition t_number : parser chars := of_opt (fun s => raw_number (sk s)).
Definition t_dnumber : parser chars := of_opt (fun s => raw_dnumber (sk s)).
Definition t_int : parser Z := of_opt (fun s => raw_int (sk s)).
(* Keyword(w) *)
Definition t_kw (w : string) : parser unit :=
  of_opt (fun s => match eat (str w) (sk s) with Some r => if kw_end r then Some (tt, r) else None | None => None end).
(* CaselessKeyword(w) *)
Definition t_kwc (w : string) : parser unit :=
  of_opt (fun s => match eat_ci (str w) (sk s) with Some r => if kw_end r then Some (tt, r) else None | None => None end).
Definition t_oneof (names : list chars) : parser chars := of_opt (fun s => first_of eat (longest names) (sk s)).
Definition t_oneof_ci (names : list chars) : parser chars := of_opt (fun s => first_of eat_ci (longest names) (sk s)).
(* Combine("@" + IDENTIFIER), statements.py l.87 *)
Definition t_tag_name : parser chars :=
  of_opt (fun s => match eat (str "@") (sk s) with Some r => raw_ident r | None => None end).
(* end of text: parse_all=True *)
Definition t_end : parser unit := fun s => match sk s with [] => POk tt [] | _ => PFail end.
(* Combine(IDENTIFIER + ZeroOrMore(White(" ") + IDENTIFIER)), special_blocks.py l.24: words separated by blanks kept verbatim *)
Fixpoint raw_words (n : nat) (s : chars) : chars * chars :=
  match n with
  | O => ([], s)
  | S n' =>
      let '(sp, r) := span (Ascii.eqb " ") s in
      match sp with
      | [] => ([], s)
      | _ :: _ => match raw_ident r with
                  | Some (w, r') => let '(ws, r'') := raw_words n' r' in (sp ++ w ++ ws, r'')
                  | None => ([], s)
                  end
      end
  end.
Definition t_option_key : parser chars :=
  of_opt (fun s => match raw_ident (sk s) with
                   | Some (w, r) => let '(ws, r') := raw_words (length r) r in Some (w ++ ws, r')
                   | None => None
                   end).

(* DelimitedList(p): p ("," p)* *)
Definition delimited {A} (p : parser A) : parser (list A) :=
  a <~ p ; l <~ many (t_lit "," >> p) ; ret (a :: l).

(* ---- expressions: Expr_Model's parser with the skip function as a parameter (see there for the citations) ---- *)
Definition raw_tix : parser tix :=
  (z <~ t_int ; ret (TI z)) <|> (t_kw "ss" >> ret TIss) <|> ret (TI 0).
Definition p_tix : parser tix := t_lit "[" >> t <~ raw_tix ; t_lit "]" >> ret t.
(* INVALID_TIME_INDEX_VAR, expressions.py l.64-71: the regular expression [^\]]+ sees the raw text, comments included *)
Definition raw_bad_index (s : chars) : bool :=
  let '(content, r) := span (fun c => negb (Ascii.eqb c "]")) s in
  match content, r with _ :: _, _ :: _ => true | _, _ => false end.
Definition t_bad_index : parser unit := fun s => if raw_bad_index (sk s) then POk tt s else PFail.

Context {F : Type} (fread : chars -> F).
Definition g_op (l : lvl) : parser bop :=
  match l with
  | LAdd => (t_lit "+" >> ret ADD) <|> (t_lit "-" >> ret SUB)
  | LMul => (t_lit "*" >> ret MUL) <|> (t_lit "/" >> ret DIV)
  | LPow => (t_lit "**" >> ret POW) <|> (t_lit "^" >> ret POW)
  | _ => fail
  end.
Definition g_variable : parser (expr F) := n <~ t_ident ; t <~ p_tix ; ret (Var n t).
Definition g_parameter : parser (expr F) := n <~ t_ident ; nota (t_lit "[" <|> t_lit "(") >> ret (Par n).
(* EXPECTATION | FUNC_CALL | VARIABLE | INVALID_TIME_INDEX_VAR | NUMBER | PARAMETER | PAREN_EXPR *)
Definition g_atom (e : parser (expr F)) (args : parser (list (expr F))) : parser (expr F) :=
  (t_lit "E[][" >> x <~ !e ; !(t_lit "]") >> ret (Expec x)) <|>
  (t_ident >> t_lit "(" >> peek (t_lit ")") >> fatal) <|>
  (f <~ t_ident ; t_lit "(" >> l <~ !args ; !(t_lit ")") >> ret (Fun f l)) <|>
  g_variable <|>
  (t_ident >> t_lit "[" >> t_bad_index >> fatal) <|>
  (t <~ t_number ; ret (Num (fread t))) <|>
  g_parameter <|>
  (t_lit "(" >> x <~ !e ; !(t_lit ")") >> ret x).
Fixpoint g_expr (fuel : nat) (l : lvl) (s : chars) {struct fuel} : pres (expr F) :=
  match fuel with
  | O => POut
  | S fuel =>
    match l with
    | LAdd | LMul | LPow => (a <~ g_expr fuel (tighter l) ; g_loop fuel l a) s
    | LUn => ((t_lit "-" >> a <~ g_expr fuel LUn ; ret (Neg a)) <|> g_expr fuel LAtom) s
    | LAtom => g_atom (g_expr fuel LAdd) (g_args fuel) s
    end
  end
with g_loop (fuel : nat) (l : lvl) (acc : expr F) (s : chars) {struct fuel} : pres (expr F) :=
  match fuel with
  | O => POut
  | S fuel =>
    (ob <~ opt (o <~ g_op l ; b <~ g_expr fuel (match l with LPow => LPow | _ => tighter l end) ; ret (o, b)) ;
     match ob with Some (o, b) => g_loop fuel l (Bin o acc b) | None => ret acc end) s
  end
with g_args (fuel : nat) (s : chars) {struct fuel} : pres (list (expr F)) :=
  match fuel with
  | O => POut
  | S fuel =>
    (a <~ g_expr fuel LAdd ;
     more <~ opt (t_lit "," >> g_args fuel) ;
     ret (match more with Some l => a :: l | None => [a] end)) s
  end.
(* EXPR *)
Definition p_ex : parser (expr F) := fun s => g_expr (enough_fuel s) LAdd s.
End Tokens.
