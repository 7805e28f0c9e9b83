(* The text of validation errors.
     gEconpy/exceptions.py: GCNValidationError l.14-144, the exceptions raised about a block l.147-237 and l.359-388, about the parameters
     of a model and about distributions l.240-356; gEconpy/model/block/basic.py: the tests that choose the exception, l.220-245, l.454-457.
   Locations and the stripping of lines are those of Err_Model.v.
   Simplifications: characters are ASCII and only a line feed ends a line (splitlines); line and column are natural numbers; equations
   and symbols are given by their printed text; an empty annotation or file path is the missing one, as in Python's truth values. *)
From Verif Require Import Common Err_Model.
Local Open Scope list_scope.

Definition nl : chars := [newline].
(* str.splitlines *)
Definition splitlines (s : chars) : list chars :=
  let l := split nl s in match last l [] with [] => removelast l | _ => l end.
Definition num (n : nat) : chars := dec (N.of_nat n).
(* {line_num:>{width}} *)
Definition padded (w n : nat) : chars := let d := num n in repeat " "%char (w - length d) ++ d.

Record verror := Verror {
  base_message : chars; v_source : option chars; v_location : option location; v_annotation : chars; v_notes : list chars;
  v_filepath : chars; v_code : option chars }.

(* the line with its number, l.111-117 *)
Definition shown_line (w n : nat) (text : chars) : chars :=
  match rstrip text with [] => str "  " ++ padded w n ++ str " |" | t => str "  " ++ padded w n ++ str " | " ++ t end.
(* the carets, l.119-136 *)
Definition caret_line (w : nat) (p : location) (annotation : chars) : chars :=
  let len := match end_column p with Some ec => Nat.max 1 (ec - column p) | None => 3 end in
  let padding := repeat " "%char (w + 5 + column p - 1) in
  padding ++ repeat "^"%char len ++ match annotation with [] => [] | a => str " " ++ a end.
(* the loop over the lines, l.111-136: i counts from 0 *)
Definition context (w : nat) (p : location) (annotation : chars) (lines : list chars) (first last : nat) : list chars :=
  flat_map (fun i => shown_line w (i + 1) (nth i lines []) ::
                     (if i + 1 =? line p then [caret_line w p annotation] else []))
           (seq first (last - first)).
(* _format_with_source, l.82-144 *)
Definition format_with_source (e : verror) (source : chars) (p : location) : chars :=
  let lines := splitlines source in
  if ((line p <? 1) || (length lines <? line p))%bool then base_message e
  else
    let head := match v_code e with Some c => str "error[" ++ c ++ str "]: " ++ base_message e | None => base_message e end in
    let file := match v_filepath e with [] => str "<source>" | f => f end in
    let c := match column p with 0 => 1 | S k => S k end in
    let first := Nat.max 0 (line p - 2) in
    let last := Nat.min (length lines) (line p + 2) in
    let w := length (num last) in
    join nl ([head; str "  --> " ++ file ++ str ":" ++ num (line p) ++ str ":" ++ num c; str "     |"] ++
             context w p (v_annotation e) lines first last ++
             [str "     |"] ++ map (fun n => str "   = note: " ++ n) (v_notes e)).
(* _format_message, l.75-80 *)
Definition format_message (e : verror) : chars :=
  match v_source e, v_location e with
  | Some s, Some p => format_with_source e s p
  | _, _ => base_message e
  end.

(* DynamicCalibratingEquationException, l.147-175 *)
Definition dynamic_calibrating (block : chars) (source : option chars) (p : option location) (file : chars) : verror :=
  Verror (str "Calibrating equation in block " ++ block ++ str " uses non-steady-state variables") source p
    (str "variables must use [ss] time index")
    [str "Calibrating equations define steady-state relationships"; str "Use X[ss] instead of X[] for all variables"] file (Some (str "V001")).
(* ControlVariableNotFoundException, l.208-237 *)
Definition control_not_found (block control : chars) (source : option chars) (p : option location) (file : chars) : verror :=
  Verror (str "Control variable '" ++ control ++ str "' in block " ++ block ++ str " not found in equations") source p
    (str "undeclared control variable")
    [str "Control variables must appear in the objective or constraints"; str "Check spelling of the variable name";
     str "Verify the variable has the correct time index"] file (Some (str "V002")).
(* DuplicateParameterError, l.359-388 *)
Definition duplicate_parameters (names : list chars) (block : option chars) (source : option chars) (p : option location) (file : chars) : verror :=
  Verror (str "Duplicate parameter declaration in " ++
            match block with Some (c :: b) => str "block " ++ c :: b | _ => str "calibration blocks" end) source p
    (str "'" ++ join (str ", ") names ++ str "' already defined")
    [str "Each parameter should be declared only once"; str "Remove the duplicate declaration"] file (Some (str "V003")).
(* what the constructors of the block pass, basic.py l.238-246 and l.454-457: the location is that of the name's first record *)
Definition located (locations : list (chars * location)) (name : chars) : option location :=
  option_map snd (find (fun kv => chars_eqb name (fst kv)) locations).
Definition block_control_error (block : chars) (source : option chars) (locations : list (chars * location)) (base_name control : chars) : verror :=
  control_not_found block control source (located locations base_name) [].
Definition block_duplicate_error (block : chars) (source : option chars) (locations : list (chars * location)) (duplicates : list chars) : option verror :=
  match duplicates with
  | [] => None
  | d :: _ => Some (duplicate_parameters duplicates (Some block) source (located locations d) [])
  end.

(* OptimizationProblemNotDefinedException, l.178-189: missing is "controls" or "objective" *)
Definition problem_not_defined (block missing : chars) : chars :=
  let not_missing := if chars_eqb missing (str "controls") then str "objective" else str "controls" in
  str "Block " ++ block ++ str " has a " ++ missing ++ str " component but no " ++ not_missing ++
  str " component, verify whetheror not this block has an optimization problem.".
(* MultipleObjectiveFunctionsException, l.192-205 *)
Definition multiple_objectives (block : chars) (eqs : list chars) : chars :=
  str "Block " ++ block ++ str " appears to have multiple objectives, excepted just one but found " ++ num (length eqs) ++ str ":" ++ nl ++
  flat_map (fun e => e ++ nl) eqs ++
  str " Only one objective function is supported. Please manually simplify the objective to a single function.".
(* the tests on objective and controls, basic.py l.220-227; None: the component is absent *)
Definition problem_message (block : chars) (objective : option (list chars)) (controls : option (list chars)) : option chars :=
  match objective, controls with
  | Some _, None => Some (problem_not_defined block (str "controls"))
  | None, Some _ => Some (problem_not_defined block (str "objective"))
  | Some eqs, Some _ => if 1 <? length eqs then Some (multiple_objectives block eqs) else None
  | None, None => None
  end.

(* OrphanParameterError, l.320-330: order: the order in which a set of names is walked *)
Section Order.
Variable order : list chars -> list chars.
Fixpoint uniq (l : list chars) : list chars :=
  match l with [] => [] | x :: r => if existsb (chars_eqb x) r then uniq r else x :: uniq r end.
Definition orphan_message (orphans : list chars) : chars :=
  let o := order (uniq orphans) in
  str "The following parameter" ++ (if 1 <? length o then str "s" else []) ++ str " " ++
  (if length o =? 1 then str "was" else str "were") ++
  str " found among model equations but did not appear in any calibration block: " ++ join (str ", ") o.
End Order.
(* ExtraParameterError and ExtraParameterWarning, l.333-356 *)
Definition extra_message (extras : list chars) : chars :=
  str "The following parameter" ++ (if 1 <? length extras then str "s" else []) ++ str " " ++
  (if length extras =? 1 then str "was" else str "were") ++
  str " were given initial values in calibration blocks but were not used in model equations: " ++ join (str ", ") extras ++ str " " ++ nl ++
  str "Verify your model equations, or remove these parameters if they are not needed.".
(* ModelUnknownParameterError, l.240-249 *)
Definition unknown_message (unknown : list chars) : chars :=
  str "The following parameters were given new values, but do not exist in the model: " ++ join (str ", ") unknown ++ str ".".
(* SteadyStateNotFoundError, l.262-270 *)
Definition steady_state_message (equations : list chars) : chars :=
  str "The provided steady-state values did not result in zero residuals for the following equations:" ++ nl ++
  join (str ", ") equations ++ nl ++ nl ++
  str "If you used custom parameter values to compute the provided steady state, you must also provide these parameter values to ``solve_model``.".
(* MultipleParameterDefinitionException, l.299-307 *)
Definition multiple_definition_message (variable d_name param_name : chars) (given : list chars) : chars :=
  str "The " ++ d_name ++ str " distribution associated with """ ++ variable ++ str """ has multiple declarations for " ++ param_name ++
  str ". Please pass only one of: " ++ join (str ", ") given.
(* InvalidParameterException, l.310-317 *)
Definition invalid_parameter_message (dist_name param_name : chars) (valid : list chars) : chars :=
  str "Unknown parameter " ++ param_name ++ str " passed to distribution " ++ dist_name ++ str ". Valid parameters for this distribution are: " ++
  join (str ", ") valid.
