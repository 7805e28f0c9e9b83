(* Model of the semantic validation of a parsed GCN model:
     gEconpy/parser/ast/nodes.py       GCNEquation l.271-352, GCNDistribution l.358-410, GCNBlock l.416-445, GCNModel l.451-471
     gEconpy/parser/ast/visitor.py     NodeVisitor.generic_visit l.58-83, collect_variable_names / collect_parameter_names
                                       (gEconpy/parser/ast/__init__.py)
     gEconpy/parser/ast/validation.py  validate_block l.21-91, validate_model l.94-170, validate_equation l.173-193,
                                       check_undefined_variables l.196-246, check_undefined_parameters l.249-298,
                                       full_validation l.301-341
     gEconpy/parser/errors.py          ErrorCollector.has_errors / warnings / raise_first l.617-631
     gEconpy/parser/preprocessor.py    ParseResult.validate l.78-95, preprocess l.98-140.
   Simplifications: an issue is its kind with the names in its message (not the text, code or location); only the parts of
   a distribution the validation looks at (its parameter name) are kept; options, tryreduce and assumptions are dropped;
   Python sets are lists without repetition, sorted() is Sort_Lib.isort. *)
From Verif Require Import Common Expr_Model SymDict_Model Sort_Lib.
Local Open Scope list_scope.

Section V.
Context {F : Type}.
Record equation := Eqn {
  lhs : expr F; rhs : expr F; multiplier : option chars; calibrating : option chars }.
Inductive calibration_item := CEq (e : equation) | CDist (parameter : chars).
Record block := Block {
  b_name : chars; definitions : list equation; controls : list chars; objective : list equation;
  constraints : list equation; identities : list equation; shocks : list chars; calibration : list calibration_item }.
Definition model := list block.

(* collect_variable_names / collect_parameter_names: every Variable (Parameter) node below the expression *)
Fixpoint var_names (e : expr F) : list chars :=
  match e with
  | Num _ | Par _ => []
  | Var n _ => [n]
  | Neg a | Expec a => var_names a
  | Bin _ a b => var_names a ++ var_names b
  | Fun _ args => flat_map var_names args
  end.
Fixpoint par_names (e : expr F) : list chars :=
  match e with
  | Num _ | Var _ _ => []
  | Par n => [n]
  | Neg a | Expec a => par_names a
  | Bin _ a b => par_names a ++ par_names b
  | Fun _ args => flat_map par_names args
  end.

Inductive issue :=
| DuplicateControl (name block : chars)
| DuplicateShock (name block : chars)
| DuplicateCalibration (name block : chars)
| NoObjective (block : chars)             (* warning W002 *)
| NoConstraints (block : chars)           (* warning W003 *)
| DuplicateBlock (name : chars)
| DefinedTwice (name : chars) (blocks : list chars)
| UndefinedVariable (name : chars)        (* warning *)
| UndefinedParameter (name : chars).      (* warning *)
Definition is_error (i : issue) : bool :=
  match i with NoObjective _ | NoConstraints _ | UndefinedVariable _ | UndefinedParameter _ => false | _ => true end.

Definition mem (x : chars) (l : list chars) : bool := existsb (chars_eqb x) l.
(* the loop  "if name in seen: report; seen.add(name)"  *)
Fixpoint repeats (seen : list chars) (l : list chars) : list chars :=
  match l with
  | [] => []
  | x :: l' => (if mem x seen then [x] else []) ++ repeats (x :: seen) l'
  end.
(* the parameter a calibration item defines, as the validation sees it: the left-hand side if it is a bare parameter *)
Definition item_name (i : calibration_item) : list chars :=
  match i with
  | CDist p => [p]
  | CEq e => match lhs e with Par n => [n] | _ => [] end
  end.
Definition calibrated (b : block) : list chars := flat_map item_name (calibration b).

(* validate_block l.21-91 *)
Definition validate_block (b : block) : list issue :=
  map (fun n => DuplicateControl n (b_name b)) (repeats [] (controls b)) ++
  map (fun n => DuplicateShock n (b_name b)) (repeats [] (shocks b)) ++
  map (fun n => DuplicateCalibration n (b_name b)) (repeats [] (calibrated b)) ++
  (match controls b, objective b with _ :: _, [] => [NoObjective (b_name b)] | _, _ => [] end) ++
  (match objective b, constraints b with _ :: _, [] => [NoConstraints (b_name b)] | _, _ => [] end).

(* l.150-167: param_definitions, a dict in insertion order from parameter to the blocks defining it *)
Definition add_definition (d : list (chars * list chars)) (p blk : chars) : list (chars * list chars) :=
  if mem p (map fst d) then map (fun kv => if chars_eqb (fst kv) p then (fst kv, snd kv ++ [blk]) else kv) d
  else d ++ [(p, [blk])].
Definition param_definitions (m : model) : list (chars * list chars) :=
  fold_left (fun d pb => add_definition d (fst pb) (snd pb)) (flat_map (fun b => map (fun p => (p, b_name b)) (calibrated b)) m) [].
Definition two_or_more {A} (l : list A) : bool := match l with _ :: _ :: _ => true | _ => false end.
(* validate_model l.94-170 (the sets of l.123-149 are computed and not used) *)
Definition validate_model (m : model) : list issue :=
  flat_map validate_block m ++
  map DuplicateBlock (repeats [] (map b_name m)) ++
  map (fun kv => DefinedTwice (fst kv) (snd kv)) (filter (fun kv => two_or_more (snd kv)) (param_definitions m)).

(* check_undefined_variables l.196-246 *)
Definition lhs_variable (e : equation) : list chars := match lhs e with Var n _ => [n] | _ => [] end.
Definition defined_vars (m : model) : list chars :=
  flat_map (fun b => controls b ++ shocks b ++ flat_map lhs_variable (definitions b ++ identities b) ++ flat_map lhs_variable (objective b)) m.
Definition used_vars (m : model) : list chars :=
  flat_map (fun b => flat_map (fun e => var_names (rhs e)) (definitions b ++ constraints b ++ identities b) ++
                     flat_map (fun e => var_names (rhs e)) (objective b)) m.
Definition chars_dec := list_eq_dec ascii_dec.
Definition sorted_difference (used defined external : list chars) : list chars :=
  isort chars_leb (filter (fun x => negb (mem x defined) && negb (mem x external))%bool (nodup chars_dec used)).
Definition check_undefined_variables (m : model) (external : list chars) : list issue :=
  map UndefinedVariable (sorted_difference (used_vars m) (defined_vars m) external).
(* check_undefined_parameters l.249-298 *)
Definition used_pars (m : model) : list chars :=
  flat_map (fun b => flat_map (fun e => par_names (lhs e) ++ par_names (rhs e)) (definitions b ++ constraints b ++ identities b) ++
                     flat_map (fun e => par_names (lhs e) ++ par_names (rhs e)) (objective b)) m.
Definition check_undefined_parameters (m : model) (external : list chars) : list issue :=
  map UndefinedParameter (sorted_difference (used_pars m) (flat_map calibrated m) external).
(* full_validation l.301-341 *)
Definition full_validation (m : model) (external_vars external_pars : list chars) : list issue :=
  validate_model m ++ check_undefined_variables m external_vars ++ check_undefined_parameters m external_pars.

(* ErrorCollector *)
Definition has_errors (l : list issue) : bool := existsb is_error l.
Definition warnings (l : list issue) : list issue := filter (fun i => negb (is_error i)) l.
Definition first_error (l : list issue) : option issue := find is_error l.
(* ParseResult.validate l.78-95: the issues, or the exception raised *)
Definition validate (m : model) (raise_on_error : bool) : issue + list issue :=
  let l := full_validation m [] [] in
  if (raise_on_error && has_errors l)%bool
  then match first_error l with Some i => inl i | None => inr l end
  else inr l.
(* preprocess l.98-140 on the result of the parser: the exception, or the model that is returned *)
Definition preprocess (parsed : result model) (validate_flag : bool) : issue + result model :=
  match parsed with
  | Err e => inr (Err e)
  | Ok m => if validate_flag then match validate m false with inl i => inl i | inr _ => inr (Ok m) end else inr (Ok m)
  end.
End V.
Arguments equation F : clear implicits. Arguments calibration_item F : clear implicits.
Arguments block F : clear implicits. Arguments model F : clear implicits.
