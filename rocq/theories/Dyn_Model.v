(* gEconpy/dynare_convert.py: writing a model as a Dynare .mod file.
     DynareCodePrinter l.20-114, write_lines_from_list l.117-134, write_variable_declarations l.137-139, write_shock_declarations
     l.142-144, write_values_from_dict l.147-151, write_param_names l.154-156, write_parameter_declarations l.159-164,
     find_ss_variables l.167-173, write_model_equations l.176-200, write_steady_state l.203-236, write_shock_std l.239-247,
     make_mod_file l.250-292.
   Simplifications:
   - A SymPy expression is given in the form the printer looks at: sums as their terms in printing order, products as their numerical
     coefficient (as_coeff_Mul) and the other factors in printing order (as_ordered_factors), powers, function calls, numbers and
     symbols; all of them commutative scalars, no complex numbers.
   - Printed expressions are lists of tokens: blanks are not recorded ("-x" begins with the token minus).
   - precedence(Mul) is Add's when could_extract_minus_sign() says so: the argument [minus] below, which is true for a negative
     coefficient and may be anything otherwise.
   - Two equal bases with exponent -1 in one product are merged by SymPy, so b.index(item.base) finds the item itself.
   - sp.cse (write_steady_state with use_cse=True) is left out: use_cse=False is modelled.
   - A finite float is the rational number it stands for; f"{x:0.3f}" rounds half to even. *)
From Verif Require Import Common Expr_Model Sort_Lib SymDict_Model.
From Coq Require Import QArith Qround Qabs.
Local Open Scope nat_scope.
Local Open Scope list_scope.

(* ---------- write_lines_from_list l.117-134 ---------- *)
Fixpoint write_loop (width : nat) (start : chars) (items : list chars) (line : chars) : list chars :=
  match items with
  | [] => [line ++ str ";"]
  | item :: rest =>
      let addition := (if chars_eqb line start then str " " else str ", ") ++ item in
      if Nat.ltb width (length line + length addition + 1)
      then (line ++ str ";") :: write_loop width start rest (start ++ str " " ++ item)
      else write_loop width start rest (line ++ addition)
  end.
(* the lines that are joined by newline characters *)
Definition write_lines (width : nat) (start : chars) (items : list chars) : list chars := write_loop width start items start.

(* ---------- numbers ---------- *)
Inductive num := Rat (p : Z) (q : positive) | Flt (neg : bool) (lit : chars).
Inductive dx :=
| DNum (n : num) | DSym (n : chars) | DVar (b : chars) (t : tix)
| DAdd (terms : list dx) | DMul (coeff : option num) (factors : list dx) | DPow (b e : dx) | DFun (f : chars) (args : list dx).
Inductive tok := TkId (n : chars) | TkInt (n : N) | TkLit (l : chars) | TkPlus | TkMinus | TkTimes | TkDiv | TkPow | TkLP | TkRP | TkComma.

Section Printer.
Variable lit_value : chars -> Q.                            (* the value of a printed non-negative float *)
Variable minus : dx -> bool.                                (* could_extract_minus_sign of a product *)
Definition num_value (n : num) : Q := match n with Rat p q => Qmake p q | Flt neg l => if neg then (- lit_value l)%Q else lit_value l end.
Definition is_neg (n : num) : bool := match n with Rat p _ => Z.ltb p 0 | Flt neg _ => neg end.
Definition opposite (n : num) : num := match n with Rat p q => Rat (- p) q | Flt neg l => Flt (negb neg) l end.
(* StrPrinter._print_Integer, _print_Rational, _print_Float *)
Definition num_toks (n : num) : list tok :=
  match n with
  | Rat p q => (if Z.ltb p 0 then [TkMinus] else []) ++ [TkInt (Z.to_N (Z.abs p))] ++ (if Pos.eqb q 1 then [] else [TkDiv; TkInt (Npos q)])
  | Flt neg l => (if neg then [TkMinus] else []) ++ [TkLit l]
  end.
(* sympy.printing.precedence *)
Definition prec_add := 40. Definition prec_mul := 50. Definition prec_pow := 60.
Definition precedence (e : dx) : nat :=
  match e with
  | DNum (Rat p q) => if Z.ltb p 0 then prec_add else if Pos.eqb q 1 then 1000 else prec_mul
  | DNum (Flt neg _) => if neg then prec_add else 1000
  | DSym _ | DVar _ _ => 1000
  | DAdd _ => prec_add
  | DMul _ _ => if minus e then prec_add else prec_mul
  | DPow _ _ => prec_pow
  | DFun _ _ => 70
  end.
(* CodePrinter.parenthesize, strict=False *)
Definition parens (e : dx) (level : nat) (ts : list tok) : list tok := if Nat.leb (precedence e) level then [TkLP] ++ ts ++ [TkRP] else ts.
Definition equal_valued (e : dx) (x : Q) : bool := match e with DNum n => Qeq_bool (num_value n) x | _ => false end.
Definition sqrt_toks (ts : list tok) : list tok := [TkId (str "sqrt"); TkLP] ++ ts ++ [TkRP].
(* _print_Pow l.86-103, from the printed base and exponent *)
Definition pow_toks (b : dx) (tb : list tok) (e : dx) (te : list tok) : list tok :=
  if equal_valued e (1 # 2) then sqrt_toks tb
  else if equal_valued e (- (1 # 2)) then [TkInt 1; TkDiv] ++ sqrt_toks tb
  else if equal_valued e (- (1)) then [TkInt 1; TkDiv] ++ parens b prec_pow tb
  else parens b prec_pow tb ++ [TkPow] ++ parens e prec_pow te.
(* _print_TimeAwareSymbol l.105-114 *)
Definition var_toks (b : chars) (t : tix) : list tok :=
  match t with
  | TIss => [TkId (b ++ str "_ss")]
  | TI t => if Z.eqb t 0 then [TkId b]
            else if Z.ltb 0 t then [TkId b; TkLP; TkPlus; TkInt (Z.to_N t); TkRP]
            else [TkId b; TkLP; TkMinus; TkInt (Z.to_N (- t)); TkRP]
  end.
(* multjoin l.72-78; "," in calls *)
Fixpoint join (sep : tok) (l : list (list tok)) : list tok := match l with [] => [] | [t] => t | t :: rest => t ++ [sep] ++ join sep rest end.
(* _print_Mul, one item of the product: its contributions to numerator and denominator, l.48-70 *)
Definition is_mul (e : dx) : bool := match e with DMul _ _ => true | _ => false end.
Definition num_item (prec : nat) (n : num) : list (list tok) * list (list tok) :=
  match n with
  | Rat p q => ((if Z.eqb p 1 then [] else [parens (DNum (Rat p 1)) prec (num_toks (Rat p 1))]), (if Pos.eqb q 1 then [] else [num_toks (Rat (Zpos q) 1)]))
  | Flt neg l => ([parens (DNum (Flt neg l)) prec (num_toks (Flt neg l))], [])
  end.
(* [tb]: the printed base when the item is a power; [ti]: the printed item *)
Definition item_toks (prec : nat) (item : dx) (tb ti : list tok) : list (list tok) * list (list tok) :=
  match item with
  | DPow b (DNum (Rat p q)) =>
      if Z.ltb p 0 then
        if (Z.eqb p (-1) && Pos.eqb q 1)%bool
        then ([], [let s := parens b prec tb in if is_mul b then [TkLP] ++ s ++ [TkRP] else s])
        else let e' := DNum (Rat (- p) q) in ([], [parens (DPow b e') prec (pow_toks b tb e' (num_toks (Rat (- p) q)))])
      else ([parens item prec ti], [])
  | DNum n => num_item prec n
  | _ => ([parens item prec ti], [])
  end.
(* _print_Mul l.31-84 *)
Definition mul_toks (prec : nat) (coeff : option num) (items : list (list (list tok) * list (list tok))) : list tok :=
  let sign := match coeff with Some c => if is_neg c then [TkMinus] else [] | None => [] end in
  let first := match coeff with Some c => [num_item prec (if is_neg c then opposite c else c)] | None => [] end in
  let a := flat_map fst (first ++ items) in
  let b := flat_map snd (first ++ items) in
  let a := match a with [] => [[TkInt 1]] | _ => a end in
  sign ++ join TkTimes a ++
  match b with [] => [] | [d] => [TkDiv] ++ d | _ => [TkDiv; TkLP] ++ join TkTimes b ++ [TkRP] end.
(* StrPrinter._print_Add *)
Definition is_add (e : dx) : bool := match e with DAdd _ => true | _ => false end.
Definition signed_term (e : dx) (t : list tok) : tok * list tok :=
  if is_add e then (TkPlus, [TkLP] ++ t ++ [TkRP]) else match t with TkMinus :: t' => (TkMinus, t') | _ => (TkPlus, t) end.
Definition add_toks (terms : list (tok * list tok)) : list tok :=
  match terms with
  | [] => []
  | (s, t) :: rest => (match s with TkPlus => [] | _ => [s] end) ++ t ++ flat_map (fun st => fst st :: snd st) rest
  end.
Fixpoint print (e : dx) : list tok :=
  match e with
  | DNum n => num_toks n
  | DSym n => [TkId n]
  | DVar b t => var_toks b t
  | DAdd terms => add_toks (map (fun x => signed_term x (print x)) terms)
  | DMul c items => mul_toks (precedence e) c (map (fun x => item_toks (precedence e) x (match x with DPow b _ => print b | _ => [] end) (print x)) items)
  | DPow b ex => pow_toks b (print b) ex (print ex)
  | DFun f args => [TkId f; TkLP] ++ join TkComma (map print args) ++ [TkRP]
  end.

(* ---------- the file ---------- *)
(* what the writer reads from the Model object: names of variables, shocks and free parameters; parameters(); equations;
   steady_state_relationships, lhs by name of the variable; and what steady_state() returns, by name *)
Record dmodel := DM { d_vars : list chars; d_shocks : list chars; d_params : list chars; d_values : list (chars * Q); d_eqs : list dx;
  d_ssrel : list (chars * dx); d_steady : result (list (chars * Q)) }.
Fixpoint ss_names (e : dx) : list chars :=
  match e with
  | DVar b TIss => [b]
  | DAdd l | DMul _ l | DFun _ l => flat_map ss_names l
  | DPow b ex => ss_names b ++ ss_names ex
  | _ => []
  end.
(* find_ss_variables l.167-173: a set, sorted by name *)
Definition find_ss_variables (m : dmodel) : list chars := isort chars_leb (nodup (list_eq_dec ascii_dec) (flat_map ss_names (d_eqs m))).
Definition ss_name (b : chars) : chars := b ++ str "_ss".
Definition has (x : chars) (l : list chars) : bool := existsb (chars_eqb x) l.
(* f"{value:0.3f}" *)
Definition round_half_even (x : Q) : Z :=
  let f := Qfloor x in
  match Qcompare (x - inject_Z f) (1 # 2) with Lt => f | Gt => f + 1 | Eq => if Z.even f then f else f + 1 end%Z.
Definition pad3 (n : N) : chars := (if N.ltb n 10 then str "00" else if N.ltb n 100 then str "0" else []) ++ dec n.
Definition fixed3 (x : Q) : chars :=
  let neg := match Qcompare x 0 with Lt => true | _ => false end in
  let n := Z.to_N (round_half_even (Qabs.Qabs x * 1000)) in
  (if neg then str "-" else []) ++ dec (n / 1000) ++ str "." ++ pad3 (n mod 1000).
(* a local variable of the model block: "#K_ss = <printed formula or number>;" *)
Inductive body := Formula (ts : list tok) | Value (x : Q).
Record modfile := MF {
  f_var : list chars; f_varexo : list chars; f_parameters : list chars;       (* lines *)
  f_assigned : list (chars * chars);                                          (* "name = text;" *)
  f_locals : list (chars * body); f_equations : list (list tok);              (* model; ... end; *)
  f_steady : list (chars * list tok) + list (chars * chars);                  (* steady_state_model or initval *)
  f_stderr : list (chars * chars) }.
(* write_model_equations l.179-192 *)
Definition locals (m : dmodel) : result (list (chars * body)) :=
  let required := find_ss_variables m in
  if forallb (fun v => has v (map fst (d_ssrel m))) required
  then Ok (map (fun kv => (ss_name (fst kv), Formula (print (snd kv)))) (filter (fun kv => has (fst kv) required) (d_ssrel m)))
  else ss <- d_steady m ;; Ok (map (fun kv => (ss_name (fst kv), Value (snd kv))) (filter (fun kv => has (fst kv) required) ss)).
(* write_steady_state l.203-236 *)
Definition steady_block (m : dmodel) : result (list (chars * list tok) + list (chars * chars)) :=
  if Nat.eqb (length (d_ssrel m)) (length (d_vars m))
  then Ok (inl (map (fun kv => (fst kv, print (snd kv))) (d_ssrel m)))
  else ss <- d_steady m ;; Ok (inr (map (fun kv => (fst kv, fixed3 (snd kv))) ss)).
Definition make_mod_file (m : dmodel) (width : nat) : result modfile :=
  ls <- locals m ;;
  st <- steady_block m ;;
  Ok (MF (write_lines width (str "var") (d_vars m)) (write_lines width (str "varexo") (d_shocks m)) (write_lines width (str "parameters") (d_params m))
         (map (fun kv => (fst kv, fixed3 (snd kv))) (d_values m)) ls (map print (d_eqs m)) st
         (map (fun s => (s, str "0.01")) (d_shocks m))).
End Printer.
