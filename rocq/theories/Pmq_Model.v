(* What a parsed file shows before it is turned into a model:
     gEconpy/parser/transform/to_sympy.py  equation_to_sympy l.164-206, block_to_sympy l.209-253, model_to_sympy l.256-281
     gEconpy/parser/ast/nodes.py           GCNModel.get_block, block_names, all_equations, all_variables, all_parameters l.446-480
     gEconpy/parser/loader.py              ast_block_to_equations l.153-192, ast_block_to_calibration l.195-243,
                                           ast_block_to_variables_and_shocks l.246-298
     gEconpy/parser/preprocessor.py        ParseResult l.12-98 (the three cached properties)
   Simplifications: those of Load_Model (SymPy trees without automatic simplification, symbols without assumptions; sp.Eq of two
   equal sides, which is not an equation, is not modelled); sets are duplicate-free lists whose order means nothing; the distribution
   object of a prior is the parsed distribution (how it is made is C107); str() of an expression that is not a symbol and the name of
   a symbol are the function show. *)
From Verif Require Import Common Expr_Model Sym_Model SymDict_Model.
From Verif Require Gcn_Model Load_Model.
Local Open Scope list_scope.

(* the metadata of equation_to_sympy, l.189-193 *)
Record meta := Meta { is_calibrating : bool; calibrating_parameter : option sym; lagrange_multiplier : option sym }.

Section M.
Context {F : Type}.
Variables (whole : F -> result (option Z)) (lit : F -> chars).
Notation convert := (Load_Model.convert whole lit).
Notation gequation := (Gcn_Model.equation F).
Notation gblock := (Gcn_Model.block F).
Notation gmodel := (Gcn_Model.gmodel F).

(* `if x` for an optional text: neither None nor empty *)
Definition truthy (o : option chars) : option chars :=
  match o with Some (c :: n) => Some (c :: n) | _ => None end.

(* equation_to_sympy, l.164-206: an equation is the pair of its sides *)
Definition equation_to_sympy (q : gequation) : result ((sx * sx) * meta) :=
  l <- convert (Gcn_Model.lhs q) ;;
  r <- convert (Gcn_Model.rhs q) ;;
  let par := option_map SPar (truthy (Gcn_Model.calibrating q)) in
  let eq := match par with Some p => (Sy p, Ad l (Ng r)) | None => (l, r) end in
  Ok (eq, Meta (match Gcn_Model.calibrating q with Some _ => true | None => false end) par
               (option_map (fun n => SDate n 0) (truthy (Gcn_Model.multiplier q)))).

Definition converted := list ((sx * sx) * meta).
Record components := Components {
  c_definitions : converted; c_objective : converted; c_constraints : converted; c_identities : converted;
  c_calibration : converted }.

(* the items of a calibration component that are equations, l.248-251 *)
Definition calibration_equations (b : gblock) : list gequation :=
  flat_map (fun i => match i with Gcn_Model.IEqn q => [q] | Gcn_Model.IDist _ => [] end) (Gcn_Model.calibration b).

(* block_to_sympy, l.209-253 *)
Definition block_to_sympy (b : gblock) : result components :=
  d <- Load_Model.map_ok equation_to_sympy (Gcn_Model.definitions b) ;;
  o <- Load_Model.map_ok equation_to_sympy (Gcn_Model.objective b) ;;
  c <- Load_Model.map_ok equation_to_sympy (Gcn_Model.constraints b) ;;
  i <- Load_Model.map_ok equation_to_sympy (Gcn_Model.identities b) ;;
  k <- Load_Model.map_ok equation_to_sympy (calibration_equations b) ;;
  Ok (Components d o c i k).

(* ast_block_to_equations, loader.py l.153-192: the same four lists *)
Definition ast_block_to_equations (b : gblock) : result (converted * converted * converted * converted) :=
  d <- Load_Model.map_ok equation_to_sympy (Gcn_Model.definitions b) ;;
  o <- Load_Model.map_ok equation_to_sympy (Gcn_Model.objective b) ;;
  c <- Load_Model.map_ok equation_to_sympy (Gcn_Model.constraints b) ;;
  i <- Load_Model.map_ok equation_to_sympy (Gcn_Model.identities b) ;;
  Ok (d, o, c, i).

(* model_to_sympy, l.256-281: result[block.name] = ... *)
Fixpoint fill (bs : list gblock) (d : list (chars * components)) : result (list (chars * components)) :=
  match bs with
  | [] => Ok d
  | b :: bs' => c <- block_to_sympy b ;; fill bs' (dset chars_eqb (Gcn_Model.b_name b) c d)
  end.
Definition model_to_sympy (m : gmodel) : result (list (chars * components)) := fill (Gcn_Model.blocks m) [].

(* GCNModel.get_block, nodes.py l.446-450 *)
Fixpoint get_block (name : chars) (bs : list gblock) : option gblock :=
  match bs with
  | [] => None
  | b :: bs' => if chars_eqb (Gcn_Model.b_name b) name then Some b else get_block name bs'
  end.
(* block_names, l.452 *)
Definition block_names (m : gmodel) : list chars := map Gcn_Model.b_name (Gcn_Model.blocks m).
(* all_equations, l.455-463 *)
Definition all_equations (m : gmodel) : list gequation :=
  fold_left (fun equations b => equations ++ Gcn_Model.definitions b ++ Gcn_Model.objective b ++ Gcn_Model.constraints b ++ Gcn_Model.identities b)
    (Gcn_Model.blocks m) [].
(* collect_nodes_of_type with Variable and with Parameter, l.483-490: C142 *)
Definition tix_eqb (a b : tix) : bool := match a, b with TIss, TIss => true | TI x, TI y => Z.eqb x y | _, _ => false end.
Definition var_eqb (a b : chars * tix) : bool := chars_eqb (fst a) (fst b) && tix_eqb (snd a) (snd b).
Definition vadd (s : list (chars * tix)) (v : chars * tix) : list (chars * tix) := if existsb (var_eqb v) s then s else s ++ [v].
Definition padd (s : list chars) (n : chars) : list chars := if existsb (chars_eqb n) s then s else s ++ [n].
Fixpoint collect_variables (s : list (chars * tix)) (e : expr F) : list (chars * tix) :=
  match e with
  | Num _ | Par _ => s
  | Var n t => vadd s (n, t)
  | Neg a | Expec a => collect_variables s a
  | Bin _ a b => collect_variables (collect_variables s a) b
  | Fun _ args => fold_left collect_variables args s
  end.
Fixpoint collect_parameters (s : list chars) (e : expr F) : list chars :=
  match e with
  | Num _ | Var _ _ => s
  | Par n => padd s n
  | Neg a | Expec a => collect_parameters s a
  | Bin _ a b => collect_parameters (collect_parameters s a) b
  | Fun _ args => fold_left collect_parameters args s
  end.
(* all_variables, l.465-471; all_parameters, l.473-479 *)
Definition all_variables (m : gmodel) : list (chars * tix) :=
  fold_left (fun s q => collect_variables (collect_variables s (Gcn_Model.lhs q)) (Gcn_Model.rhs q)) (all_equations m) [].
Definition all_parameters (m : gmodel) : list chars :=
  fold_left (fun s q => collect_parameters (collect_parameters s (Gcn_Model.lhs q)) (Gcn_Model.rhs q)) (all_equations m) [].

(* ast_block_to_calibration, l.195-243 *)
Variable show : sx -> chars.
Inductive pvalue := Expression (x : sx) | Initial (v : F).
Definition dicts := (list (chars * pvalue) * list (sym * (sx * sx)) * list (chars * Gcn_Model.dist F))%type.
Definition calibrate (r : result dicts) (i : Gcn_Model.item F) : result dicts :=
  st <- r ;;
  let '(param_dict, calib_dict, distributions) := st in
  match i with
  | Gcn_Model.IDist d =>
      Ok (match Gcn_Model.d_init d with
          | Some v => dset chars_eqb (Gcn_Model.d_par d) (Initial v) param_dict
          | None => param_dict
          end, calib_dict, dset chars_eqb (Gcn_Model.d_par d) d distributions)
  | Gcn_Model.IEqn q =>
      l <- convert (Gcn_Model.lhs q) ;; r <- convert (Gcn_Model.rhs q) ;;
      Ok match Gcn_Model.calibrating q with
         | Some n => (param_dict, dset sym_eqb (SPar n) (l, r) calib_dict, distributions)
         | None => (dset chars_eqb (show l) (Expression r) param_dict, calib_dict, distributions)
         end
  end.
Definition ast_block_to_calibration (b : gblock) : result dicts :=
  fold_left calibrate (Gcn_Model.calibration b) (Ok ([], [], [])).

(* ast_block_to_variables_and_shocks, l.246-298 *)
Definition today (x : sx) : list sym := match x with Sy (SDate n _) => [SDate n 0] | Sy (SSs n) => [SDate n 0] | _ => [] end.
Definition sadd (s : list sym) (v : sym) : list sym := if existsb (sym_eqb v) s then s else s ++ [v].
Definition as_set (l : list sym) : list sym := fold_left sadd l [].
Definition ast_block_to_variables_and_shocks (b : gblock) : result (list sym * list sym) :=
  let cs := map (fun v => Sy (Load_Model.convert_var v)) (Gcn_Model.controls b) in
  let sh := map (fun v => Sy (Load_Model.convert_var v)) (Gcn_Model.shocks b) in
  l1 <- Load_Model.map_ok (fun q => convert (Gcn_Model.lhs q)) (Gcn_Model.definitions b ++ Gcn_Model.identities b) ;;
  l2 <- Load_Model.map_ok (fun q => convert (Gcn_Model.lhs q)) (Gcn_Model.objective b) ;;
  l3 <- Load_Model.map_ok (fun q => convert (Gcn_Model.lhs q)) (Gcn_Model.constraints b) ;;
  Ok (as_set (flat_map today (cs ++ l1 ++ l2 ++ l3)), as_set (flat_map today sh)).
End M.

(* ParseResult: a file and three results, each computed when first asked for.  An attribute is computed by one of three
   functions of the file (full_validation, model_to_sympy, distributions_from_model); an exception leaves nothing behind. *)
Section Cache.
Context {Ast Value : Type}.
Inductive attribute := ValidationErrors | SympyEquations | Distributions.
Variable compute : attribute -> Ast -> result Value.
Record parse_result := PR { ast : Ast; cached : attribute -> option Value }.
(* __init__, l.19-30 *)
Definition new (a : Ast) : parse_result := PR a (fun _ => None).
Definition attribute_eqb (x y : attribute) : bool :=
  match x, y with
  | ValidationErrors, ValidationErrors | SympyEquations, SympyEquations | Distributions, Distributions => true
  | _, _ => false
  end.
(* reading a property, l.32-56 *)
Definition read (x : attribute) (p : parse_result) : result Value * parse_result :=
  match cached p x with
  | Some v => (Ok v, p)
  | None => match compute x (ast p) with
            | Ok v => (Ok v, PR (ast p) (fun y => if attribute_eqb x y then Some v else cached p y))
            | Err e => (Err e, p)
            end
  end.
(* what a user does: read a property, or change the file (the ast attribute, or the blocks inside it) *)
Inductive action := Read (x : attribute) | Change (a : Ast).
Definition act (p : parse_result) (c : action) : option (attribute * result Value) * parse_result :=
  match c with
  | Read x => let '(r, p') := read x p in (Some (x, r), p')
  | Change a => (None, PR a (cached p))
  end.
Fixpoint run (p : parse_result) (l : list action) : list (attribute * result Value) * parse_result :=
  match l with
  | [] => ([], p)
  | c :: l' => let '(o, p1) := act p c in
               let '(os, p2) := run p1 l' in
               (match o with Some x => x :: os | None => os end, p2)
  end.
End Cache.
