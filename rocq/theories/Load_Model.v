(* From the parsed file to the equations of the model:
     gEconpy/parser/transform/to_sympy.py  ASTToSympyConverter l.50-140
     gEconpy/parser/transform/to_block.py  ast_block_to_block l.98-186, _convert_calibration l.189-243, ast_model_to_block_dict l.246-297
     gEconpy/parser/loader.py              _block_dict_to_equation_list l.104-109, _extract_ss_solution_dict l.288-326,
                                           ast_model_to_primitives l.363-400 (the equations), load_gcn_string l.490-503
   Simplifications: SymPy expressions are the trees of Sym_Model (no automatic simplification): a - b is a + (-b), a / b is
   a * inv(b), a ^ k for an integer k is the function pow_k of a, any other power a ^ b is exp(b * log(a)), a float that is not a
   whole number is a constant function; the assumptions of symbols and source locations are dropped; a symbol table has
   symbols as keys (its string keys are C14, its order C46); sp.Eq of two equal or two plainly different sides, which is True or False
   and not an equation, is not modelled. Validation never raises here (C104). *)
From Verif Require Import Common Expr_Model Sym_Model SymDict_Model.
From Verif Require Gcn_Model ExpandTime_Model Block_Model.
Local Open Scope list_scope.

Definition ovf : exn := GEconError 90. (* OverflowError of int(inf) *)
(* SYMPY_FUNCTIONS, to_sympy.py l.23-40 *)
Definition sympy_functions : list chars := map str
  ["log"; "exp"; "sqrt"; "abs"; "sin"; "cos"; "tan"; "asin"; "acos"; "atan"; "sinh"; "cosh"; "tanh"; "sign"; "floor"; "ceiling"]%string.
Definition inv_name : chars := str "inv".
Definition pow_name (z : Z) : chars :=
  str "pow" ++ (if Z.ltb z 0 then str "-" else []) ++ dec (Z.abs_N z).
Definition inv (b : sx) : sx := Fn inv_name 0 b.
(* the value of an exponent that is an Integer after conversion *)
Definition integer_of (b : sx) : option Z :=
  match b with Cst z => Some z | Ng (Cst z) => Some (- z)%Z | _ => None end.
Definition spow (a b : sx) : sx :=
  match integer_of b with
  | Some z => Fn (pow_name z) 0 a
  | None => Fn (str "exp") 0 (Mu b (Fn (str "log") 0 a))
  end.
(* OPERATOR_MAP, l.42-48 *)
Definition apply_op (o : bop) (a b : sx) : sx :=
  match o with ADD => Ad a b | SUB => Ad a (Ng b) | MUL => Mu a b | DIV => Mu a (inv b) | POW => spow a b end.
(* func( *args ), l.129: every function takes one argument; log takes a base; the second parameter of sqrt is an evaluation flag *)
Definition call (f : chars) (args : list sx) : result sx :=
  match args with
  | [a] => Ok (Fn f 0 a)
  | [a; b] => if chars_eqb f (str "log") then Ok (Mu (Fn f 0 a) (inv (Fn f 0 b)))
              else if chars_eqb f (str "sqrt") then Ok (Fn f 0 a)
              else Err TypeError
  | _ => Err TypeError
  end.

Section Load.
Context {F : Type}.
(* how the code sees a float: an error of int(v), a whole number, or another number, whose literal is lit v *)
Variables (whole : F -> result (option Z)) (lit : F -> chars).
Definition number (v : F) : result sx :=
  w <- whole v ;; Ok match w with Some z => Cst z | None => Fn (lit v) 0 (Cst 0) end.
(* convert, l.63-98 *)
Fixpoint convert (e : expr F) : result sx :=
  match e with
  | Num v => number v
  | Par n => Ok (Sy (SPar n))
  | Var n TIss => Ok (Sy (SSs n))
  | Var n (TI z) => Ok (Sy (SDate n z))
  | Neg a => x <- convert a ;; Ok (Ng x)
  | Bin o a b => x <- convert a ;; y <- convert b ;; Ok (apply_op o x y)
  | Fun f args =>
      if existsb (chars_eqb f) sympy_functions then
        xs <- (fix all (l : list (expr F)) : result (list sx) :=
                 match l with [] => Ok [] | a :: l' => x <- convert a ;; xs <- all l' ;; Ok (x :: xs) end) args ;;
        call f xs
      else Err ValueError
  | Expec a => convert a
  end.
Definition convert_var (v : Gcn_Model.varref) : sym :=
  match snd v with TIss => SSs (fst v) | TI z => SDate (fst v) z end.

Fixpoint map_ok {A B} (f : A -> result B) (l : list A) : result (list B) :=
  match l with [] => Ok [] | a :: l' => x <- f a ;; xs <- map_ok f l' ;; Ok (x :: xs) end.
(* an equation as Block_Model takes it: both sides converted, with its tags *)
Definition has_tag (t : Gcn_Model.tag) (l : list chars) : bool := existsb (chars_eqb (Gcn_Model.tag_name t)) l.
Definition to_geq (q : ExpandTime_Model.equation F) : result Block_Model.geq :=
  l <- convert (ExpandTime_Model.lhs q) ;; r <- convert (ExpandTime_Model.rhs q) ;;
  let tg t := has_tag t (ExpandTime_Model.tags q) in
  Ok (Block_Model.GEq l r (tg Gcn_Model.Exclude) (tg Gcn_Model.Minimize) (tg Gcn_Model.Maximize)
        (ExpandTime_Model.lagrange q) (ExpandTime_Model.calibrating q)).

(* the block as expand_block_time_indices sees it *)
Definition rest := (list Gcn_Model.varref * list (Gcn_Model.item F))%type.
Definition eq_of (q : Gcn_Model.equation F) : ExpandTime_Model.equation F :=
  ExpandTime_Model.Eqn (Gcn_Model.lhs q) (Gcn_Model.rhs q) (Gcn_Model.multiplier q) (Gcn_Model.calibrating q)
    (map Gcn_Model.tag_name (Gcn_Model.tags q)).
Definition gblock_of (b : Gcn_Model.block F) : ExpandTime_Model.gblock F rest :=
  ExpandTime_Model.GBlock (Gcn_Model.b_name b) (map eq_of (Gcn_Model.definitions b))
    (map (fun v => Var (fst v) (snd v)) (Gcn_Model.controls b)) (map eq_of (Gcn_Model.objective b))
    (map eq_of (Gcn_Model.constraints b)) (map eq_of (Gcn_Model.identities b)) (Gcn_Model.shocks b, Gcn_Model.calibration b).
(* _convert_calibration: a distribution with an initial value is a parameter with that value, sp.Float *)
Definition to_citem (i : Gcn_Model.item F) : result Block_Model.citem :=
  match i with
  | Gcn_Model.IEqn q => e <- to_geq (eq_of q) ;; Ok (Block_Model.CEqn e)
  | Gcn_Model.IDist d =>
      Ok match Gcn_Model.d_init d with
         | Some v => Block_Model.CEqn (Block_Model.GEq (Sy (SPar (Gcn_Model.d_par d))) (Fn (lit v) 0 (Cst 0)) false false false None None)
         | None => Block_Model.CDist (Gcn_Model.d_par d) None
         end
  end.
Definition control_sym (e : expr F) : result sym :=
  x <- convert e ;; match x with Sy s => Ok s | _ => Err TypeError end.
(* the arguments of ast_block_to_block, in its order: controls, shocks, definitions, objective, constraints, identities, calibration *)
Definition ablock_of (b : ExpandTime_Model.gblock F rest) : result Block_Model.ablock :=
  cs <- map_ok control_sym (ExpandTime_Model.controls b) ;;
  let sh := map convert_var (fst (ExpandTime_Model.other b)) in
  df <- map_ok to_geq (ExpandTime_Model.definitions b) ;;
  ob <- map_ok to_geq (ExpandTime_Model.objective b) ;;
  co <- map_ok to_geq (ExpandTime_Model.constraints b) ;;
  id <- map_ok to_geq (ExpandTime_Model.identities b) ;;
  ca <- map_ok to_citem (snd (ExpandTime_Model.other b)) ;;
  Ok (Block_Model.ABlock (ExpandTime_Model.bname b) cs sh df ob co id ca).

(* b.name.upper().replace("_", "") *)
Definition upper (c : ascii) : ascii :=
  let n := nat_of_ascii c in if ((97 <=? n) && (n <=? 122))%nat%bool then ascii_of_nat (n - 32) else c.
Definition plain_name (n : chars) : chars := filter (fun c => if ascii_dec c "_"%char then false else true) (map upper n).
Definition one_of (l : list string) (n : chars) : bool := existsb (fun s => chars_eqb (str s) (plain_name n)) l.
(* ast_model_to_block_dict, l.283-286 *)
Definition skipped (n : chars) : bool := one_of ["STEADYSTATE"; "SS"]%string n.
(* _extract_ss_solution_dict, l.291-293, with STEADY_STATE_NAMES of constants.py l.27 *)
Definition ss_named (n : chars) : bool := one_of ["STEADYSTATE"; "SS"; "STEADYSTATE"; "STEADY"]%string n.

Variables ord sord : set_order.
Variable aord : list sx -> list sx.
(* _extract_ss_solution_dict, l.288-326: sub_dict[eq.lhs] = eq.rhs; a left-hand side that is not a symbol replaces nothing, but
   among the identities it is refused by the SymbolDictionary at the end *)
Definition ss_equation (q : Gcn_Model.equation F) : result (sx * sx) :=
  l <- convert (Gcn_Model.lhs q) ;; r <- convert (Gcn_Model.rhs q) ;; Ok (l, r).
Definition add_rule (d : sdict) (lr : sx * sx) : sdict := match fst lr with Sy s => dset sym_eqb s (snd lr) d | _ => d end.
Definition ss_dict (flat : sdict) (keys : list (sx * sx)) : result sdict :=
  fold_left (fun r lr => d <- r ;; match fst lr with
                                   | Sy s => match slookup s flat with Some v => Ok (dset sym_eqb s v d) | None => Err KeyError end
                                   | _ => Err KeyError
                                   end) keys (Ok []).
Definition extract_ss (m : Gcn_Model.gmodel F) : result sdict :=
  match filter (fun b => ss_named (Gcn_Model.b_name b)) (Gcn_Model.blocks m) with
  | [] => Ok []
  | b :: _ =>
      df <- map_ok ss_equation (Gcn_Model.definitions b) ;;
      id <- map_ok ss_equation (Gcn_Model.identities b) ;;
      flat <- flatten ord sord (fold_left add_rule (df ++ id) []) ;;
      ss_dict flat id
  end.

(* one iteration of ast_model_to_block_dict, l.288-294 (try_simplify=False) *)
Definition load_block (sss : sdict) (b : Gcn_Model.block F) : result Block_Model.block :=
  a <- ablock_of (ExpandTime_Model.expand_block (gblock_of b)) ;;
  k <- Block_Model.to_block ord sord a ;;
  p <- Block_Model.param_dicts ord sord sss k ;;
  Block_Model.solve_optimization ord sord aord k.
Fixpoint block_dict (sss : sdict) (bs : list (Gcn_Model.block F)) (d : list (chars * Block_Model.block)) : result (list (chars * Block_Model.block)) :=
  match bs with
  | [] => Ok d
  | b :: bs' =>
      if skipped (Gcn_Model.b_name b) then block_dict sss bs' d
      else k <- load_block sss b ;; block_dict sss bs' (dset chars_eqb (Gcn_Model.b_name b) k d)
  end.
(* ast_model_to_primitives: the steady state and the equations *)
Definition load (m : Gcn_Model.gmodel F) : result (sdict * list sx) :=
  sss <- extract_ss m ;;
  d <- block_dict sss (Gcn_Model.blocks m) [] ;;
  Ok (sss, flat_map (fun kb => Block_Model.k_sys (snd kb)) d).
(* load_gcn_string *)
Definition load_gcn_string (fread : chars -> F) (farith : Gcn_Model.dop -> F -> F -> result F) (text : chars) : result (sdict * list sx) :=
  m <- Gcn_Model.parse_gcn fread farith text ;; load m.
End Load.
