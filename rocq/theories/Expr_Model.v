(* Model of the GCN expression AST, printer and parser:
     gEconpy/parser/ast/nodes.py            (TimeIndex l.9-64, Operator l.74-95, expression nodes l.131-267)
     gEconpy/parser/ast/printer.py          (PRECEDENCE, print_expression)
     gEconpy/parser/grammar/tokens.py       (IDENTIFIER, NUMBER_PATTERN, TIME_INDEX_CONTENT, KW_E)
     gEconpy/parser/grammar/expressions.py  (ATOM, EXPR, parse_expression)
   Simplifications, valid for the whole file:
   - Source locations (compare=False in the dataclasses) are not modelled.
   - '#'-comments inside an expression (EXPR.ignore(COMMENT)) are not modelled.
   - Floats are an abstract type F with the Python functions  fprint = (str(int(v)) if v == int(v) else str(v))
     (printer.py l.44-47) and fread = float(token) (expressions.py l.31-32); concrete instances are used in
     examples and refutations. *)
From Verif Require Import Common.
Local Open Scope list_scope.

(* nodes.py: TimeIndex values *)
Inductive tix := TI (z : Z) | TIss.
(* nodes.py: Operator (binary part) *)
Inductive bop := ADD | SUB | MUL | DIV | POW.
(* nodes.py: expression nodes *)
Inductive expr (F : Type) :=
| Num (v : F)
| Par (n : chars)
| Var (n : chars) (t : tix)
| Neg (e : expr F)
| Bin (o : bop) (a b : expr F)
| Fun (f : chars) (args : list (expr F))
| Expec (e : expr F).
Arguments Num {F} v. Arguments Par {F} n. Arguments Var {F} n t. Arguments Neg {F} e.
Arguments Bin {F} o a b. Arguments Fun {F} f args. Arguments Expec {F} e.

(* Operator.__str__, nodes.py l.84-95 *)
Definition op_str (o : bop) : chars :=
  match o with ADD => str "+" | SUB => str "-" | MUL => str "*" | DIV => str "/" | POW => str "^" end.
(* printer.py l.17-24: PRECEDENCE (NEG is 4) *)
Definition prec (o : bop) : nat := match o with ADD | SUB => 1 | MUL | DIV => 2 | POW => 3 end.
(* TimeIndex.__str__, nodes.py l.43-51; Python's str of a negative int is "-" followed by its digits *)
Definition tix_str (t : tix) : chars :=
  match t with
  | TIss => str "[ss]"
  | TI z => if Z.eqb z 0 then str "[]"
            else if Z.ltb 0 z then str "[" ++ dec (Z.to_N z) ++ str "]"
            else str "[" ++ (str "-" ++ dec (Z.abs_N z)) ++ str "]"
  end.

(* ", ".join(parts) *)
Fixpoint join (sep : chars) (l : list chars) : chars :=
  match l with
  | [] => []
  | [x] => x
  | x :: l' => x ++ sep ++ join sep l'
  end.

Section Float.
Context {F : Type} (fprint : F -> chars) (fread : chars -> F).

(* printer.py l.27-80: print_expression(node, parent_precedence) *)
Fixpoint print_expression (e : expr F) (parent : nat) {struct e} : chars :=
  match e with
  | Num v => fprint v
  | Par n => n
  | Var n t => n ++ tix_str t
  | Neg a => str "-" ++ print_expression a 4
  | Bin o a b =>
      let my := prec o in
      let left_s := print_expression a my in
      let right_s := match o with
                     | POW => print_expression b (my - 1)
                     | _ => print_expression b my
                     end in
      let res := left_s ++ str " " ++ op_str o ++ str " " ++ right_s in
      if Nat.ltb my parent then str "(" ++ res ++ str ")" else res
  | Fun f args => f ++ str "(" ++ join (str ", ") (map (fun a => print_expression a 0) args) ++ str ")"
  | Expec a => str "E[][" ++ print_expression a 0 ++ str "]"
  end.

(* ---------- parser ---------- *)
(* pyparsing default whitespace: " \n\t\r" *)
Definition is_ws (c : ascii) : bool :=
  match N_of_ascii c with 32%N | 10%N | 9%N | 13%N => true | _ => false end.
Definition is_alpha (c : ascii) : bool :=
  let n := N_of_ascii c in
  ((N.leb 65 n && N.leb n 90) || (N.leb 97 n && N.leb n 122))%bool.
(* tokens.py: IDENTIFIER = Word(alphas + "_", alphanums + "_") *)
Definition is_id0 (c : ascii) : bool := (is_alpha c || Ascii.eqb c "_")%bool.
Definition is_idc (c : ascii) : bool := (is_id0 c || is_digit c)%bool.

Fixpoint skip (s : chars) : chars :=
  match s with
  | c :: s' => if is_ws c then skip s' else s
  | [] => []
  end.

Fixpoint span (f : ascii -> bool) (s : chars) : chars * chars :=
  match s with
  | c :: s' => if f c then let '(a, b) := span f s' in (c :: a, b) else ([], s)
  | [] => ([], [])
  end.

(* Result of a pyparsing element on the remaining input: success, ordinary failure (the caller tries the
   next alternative), fatal failure (after the '-' operator or a GCNParseFailure: no alternative is tried),
   or fuel exhaustion of the model (shown impossible for the fuel used by [parse_expression]). *)
Inductive pres (A : Type) := POk (a : A) (rest : chars) | PFail | PFatal | POut.
Arguments POk {A} a rest. Arguments PFail {A}. Arguments PFatal {A}. Arguments POut {A}.

(* Literal / Suppress: leading whitespace is skipped, then the exact characters. *)
Fixpoint eat (w : chars) (s : chars) : option chars :=
  match w, s with
  | [], _ => Some s
  | c :: w', d :: s' => if Ascii.eqb c d then eat w' s' else None
  | _ :: _, [] => None
  end.
Definition lit (w : string) (s : chars) : option chars := eat (str w) (skip s).

Definition p_ident (s : chars) : option (chars * chars) :=
  match skip s with
  | c :: s' => if is_id0 c then let '(a, b) := span is_idc s' in Some (c :: a, b) else None
  | [] => None
  end.

(* tokens.py NUMBER_PATTERN  (?:\d+\.\d*|\d+|\.\d+)(?:[eE][+-]?\d+)?(?![.\w])  on input whose whitespace
   has been skipped.  Regex backtracking never helps: giving back characters leaves a digit, '.', 'e' or 'E'
   to the right, which the negative lookahead rejects. *)
Definition p_mantissa (s : chars) : option (chars * chars) :=
  let '(d1, r1) := span is_digit s in
  match d1 with
  | _ :: _ =>
      match r1 with
      | c :: r2 => if Ascii.eqb c "."
                   then let '(d2, r3) := span is_digit r2 in Some (d1 ++ c :: d2, r3)
                   else Some (d1, r1)
      | [] => Some (d1, r1)
      end
  | [] =>
      match r1 with
      | c :: r2 => if Ascii.eqb c "."
                   then let '(d2, r3) := span is_digit r2 in
                        match d2 with [] => None | _ :: _ => Some (c :: d2, r3) end
                   else None
      | [] => None
      end
  end.
Definition p_sign (s : chars) : chars * chars :=
  match s with
  | c :: s' => if (Ascii.eqb c "+" || Ascii.eqb c "-")%bool then ([c], s') else ([], s)
  | [] => ([], [])
  end.
Definition p_exponent (s : chars) : chars * chars :=
  match s with
  | c :: s' =>
      if (Ascii.eqb c "e" || Ascii.eqb c "E")%bool then
        let '(sg, r) := p_sign s' in
        let '(d, r') := span is_digit r in
        match d with [] => ([], s) | _ :: _ => (c :: sg ++ d, r') end
      else ([], s)
  | [] => ([], [])
  end.
Definition word_or_dot (s : chars) : bool :=
  match s with c :: _ => (is_idc c || Ascii.eqb c ".")%bool | [] => false end.
Definition p_number (s : chars) : option (chars * chars) :=
  match p_mantissa (skip s) with
  | Some (m, r) =>
      let '(ex, r') := p_exponent r in
      if word_or_dot r' then None else Some (m ++ ex, r')
  | None => None
  end.

(* expressions.py l.38-48: TIME_INDEX = "[" + Optional(Regex("-?\d+") | Keyword("ss")) + "]" *)
Definition p_int (s : chars) : option (Z * chars) :=
  match skip s with
  | c :: s' =>
      if Ascii.eqb c "-" then
        let '(d, r) := span is_digit s' in
        match undec d with Some n => Some (- Z.of_N n, r)%Z | None => None end
      else
        let '(d, r) := span is_digit (c :: s') in
        match undec d with Some n => Some (Z.of_N n, r) | None => None end
  | [] => None
  end.
Definition p_kw (w : string) (s : chars) : option chars :=
  match lit w s with
  | Some r => match r with c :: _ => if is_idc c then None else Some r | [] => Some r end
  | None => None
  end.
Definition p_tix_content (s : chars) : tix * chars :=
  match p_int s with
  | Some (z, r) => (TI z, r)
  | None => match p_kw "ss" s with
            | Some r => (TIss, r)
            | None => (TI 0, s)          (* default "" -> T *)
            end
  end.
Definition p_time_index (s : chars) : option (tix * chars) :=
  match lit "[" s with
  | Some r => let '(t, r') := p_tix_content r in
              match lit "]" r' with Some r'' => Some (t, r'') | None => None end
  | None => None
  end.

(* expressions.py l.76-97 VARIABLE = IDENTIFIER + TIME_INDEX *)
Definition p_variable (s : chars) : option (expr F * chars) :=
  match p_ident s with
  | Some (n, r) => match p_time_index r with Some (t, r') => Some (Var n t, r') | None => None end
  | None => None
  end.
(* expressions.py l.51-74 INVALID_TIME_INDEX_VAR: raises when an identifier is followed by "[...]" with a
   non-empty content (it is only tried after VARIABLE failed at the same place). *)
Definition p_invalid_time_index (s : chars) : bool :=
  match p_ident s with
  | Some (_, r) =>
      match eat (str "[") (skip r) with
      | Some r' => let '(content, r'') := span (fun c => negb (Ascii.eqb c "]")) (skip r') in
                   match content, r'' with _ :: _, _ :: _ => true | _, _ => false end
      | None => false
      end
  | None => false
  end.
(* expressions.py l.117: PARAMETER = IDENTIFIER + ~FollowedBy("[" | "(") *)
Definition p_parameter (s : chars) : option (expr F * chars) :=
  match p_ident s with
  | Some (n, r) =>
      match lit "[" r, lit "(" r with
      | None, None => Some (Par n, r)
      | _, _ => None
      end
  | None => None
  end.
(* expressions.py l.119-124: Combine(KW_E + "[]" + "[") : the characters E[][ must be adjacent *)
Definition p_expectation_open (s : chars) : option chars := lit "E[][" s.
(* IDENTIFIER + "(" *)
Definition p_func_open (s : chars) : option (chars * chars) :=
  match p_ident s with
  | Some (n, r) => match lit "(" r with Some r' => Some (n, r') | None => None end
  | None => None
  end.

(* Precedence levels of infix_notation, expressions.py l.201-209, loosest first. *)
Inductive lvl := LAdd | LMul | LPow | LUn | LAtom.

Definition p_op (l : lvl) (s : chars) : option (bop * chars) :=
  match l with
  | LAdd => match lit "+" s with
            | Some r => Some (ADD, r)
            | None => match lit "-" s with Some r => Some (SUB, r) | None => None end
            end
  | LMul => match lit "*" s with
            | Some r => Some (MUL, r)
            | None => match lit "/" s with Some r => Some (DIV, r) | None => None end
            end
  | LPow => match lit "**" s with       (* one_of("^ **") *)
            | Some r => Some (POW, r)
            | None => match lit "^" s with Some r => Some (POW, r) | None => None end
            end
  | _ => None
  end.

(* The next tighter level *)
Definition tighter (l : lvl) : lvl :=
  match l with LAdd => LMul | LMul => LPow | LPow => LUn | LUn => LAtom | LAtom => LAtom end.

(* infix_notation (pyparsing/helpers.py):
   left-associative binary level:   last (op last)*  folded to the left (_make_binary_op_left l.177-186)
   right-associative binary level:  last (op this)*  where [this] itself consumes the longest chain, folded by
                                    _make_binary_op_right l.189-198
   prefix level:                    '-' this | last
   ATOM (l.155) = EXPECTATION | FUNC_CALL | VARIABLE | INVALID_TIME_INDEX_VAR | NUMBER | PARAMETER | PAREN *)
Fixpoint p_expr (fuel : nat) (l : lvl) (s : chars) {struct fuel} : pres (expr F) :=
  match fuel with
  | O => POut
  | S fuel =>
    match l with
    | LAdd | LMul | LPow =>
        match p_expr fuel (tighter l) s with
        | POk a r => p_loop fuel l a r
        | x => x
        end
    | LUn =>
        match lit "-" s with
        | Some r =>
            match p_expr fuel LUn r with
            | POk a r' => POk (Neg a) r'
            | PFail => p_expr fuel LAtom s
            | x => x
            end
        | None => p_expr fuel LAtom s
        end
    | LAtom =>
        match p_expectation_open s with
        | Some r =>
            match p_expr fuel LAdd r with
            | POk a r' => match lit "]" r' with Some r'' => POk (Expec a) r'' | None => PFatal end
            | PFail => PFatal
            | x => x
            end
        | None =>
        match p_func_open s with
        | Some (f, r) =>
            match lit ")" r with
            | Some _ => PFatal                     (* EMPTY_FUNC_CALL *)
            | None =>
              match p_args fuel r with
              | POk args r' => match lit ")" r' with Some r'' => POk (Fun f args) r'' | None => PFatal end
              | PFail => PFatal
              | PFatal => PFatal
              | POut => POut
              end
            end
        | None =>
        match p_variable s with
        | Some (e, r) => POk e r
        | None =>
        if p_invalid_time_index s then PFatal else
        match p_number s with
        | Some (t, r) => POk (Num (fread t)) r
        | None =>
        match p_parameter s with
        | Some (e, r) => POk e r
        | None =>
        match lit "(" s with
        | Some r =>
            match p_expr fuel LAdd r with
            | POk a r' => match lit ")" r' with Some r'' => POk a r'' | None => PFatal end
            | PFail => PFatal
            | x => x
            end
        | None => PFail
        end end end end end end
    end
  end
(* (op operand)*, accumulating to the left *)
with p_loop (fuel : nat) (l : lvl) (acc : expr F) (s : chars) {struct fuel} : pres (expr F) :=
  match fuel with
  | O => POut
  | S fuel =>
    match p_op l s with
    | Some (o, r) =>
        match p_expr fuel (match l with LPow => LPow | _ => tighter l end) r with
        | POk b r' => p_loop fuel l (Bin o acc b) r'
        | PFail => POk acc s
        | x => x
        end
    | None => POk acc s
    end
  end
(* DelimitedList(EXPR, min=1) *)
with p_args (fuel : nat) (s : chars) {struct fuel} : pres (list (expr F)) :=
  match fuel with
  | O => POut
  | S fuel =>
    match p_expr fuel LAdd s with
    | POk a r =>
        match lit "," r with
        | Some r' =>
            match p_args fuel r' with
            | POk l r'' => POk (a :: l) r''
            | PFail => POk [a] r
            | PFatal => PFatal
            | POut => POut
            end
        | None => POk [a] r
        end
    | PFail => PFail
    | PFatal => PFatal
    | POut => POut
    end
  end.

Definition enough_fuel (s : chars) : nat := 8 * length s + 8.

(* expressions.py parse_expression: EXPR.parse_string(text, parse_all=True); any failure raises
   GCNGrammarError (GEconError 0). *)
Definition parse_expression (s : chars) : result (expr F) :=
  match p_expr (enough_fuel s) LAdd s with
  | POk e r => match skip r with [] => Ok e | _ :: _ => Err (GEconError 0) end
  | PFail => Err (GEconError 0)
  | PFatal => Err (GEconError 0)
  | POut => Err RecursionError
  end.

End Float.
Arguments POk {A} a rest. Arguments PFail {A}. Arguments PFatal {A}. Arguments POut {A}.

(* A concrete float type for examples: non-negative integers. *)
Definition nprint (n : N) : chars := dec n.
Definition nread (s : chars) : N := match undec s with Some n => n | None => 0%N end.
