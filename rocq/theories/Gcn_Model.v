(* Model of the GCN file grammar, the AST it builds and the printer:
     gEconpy/parser/grammar/statements.py      EQUATION l.124-208, DISTRIBUTION l.288-443
     gEconpy/parser/grammar/components.py      COMPONENT
     gEconpy/parser/grammar/blocks.py          MODEL_BLOCK, _build_block, parse_block
     gEconpy/parser/grammar/special_blocks.py  OPTIONS_BLOCK, TRYREDUCE_BLOCK, ASSUMPTIONS_BLOCK
     gEconpy/parser/grammar/gcn_file.py        GCN_FILE, _build_model, parse_gcn
     gEconpy/parser/ast/nodes.py               Tag l.107-126, GCNEquation, GCNDistribution, GCNBlock, GCNModel
     gEconpy/parser/ast/printer.py             print_equation l.86-113, print_block l.150-240, print_model l.243-305
     gEconpy/parser/constants.py               BLOCK_COMPONENTS, GCN_ASSUMPTIONS, PRELIZ_DISTS, PRELIZ_DIST_WRAPPERS
   Simplifications: locations, error codes and messages are dropped (every rejection is GCNGrammarError, GEconError 0);
   floats are an abstract type F (fread = float of the token, fstr = str of a float, fprint as in Expr_Model);
   a Python exception raised while a distribution is built is reported only if the whole text parses; frozenset of tags is
   the sublist of [Exclude; Minimize; Maximize] of its members; dicts are association lists in insertion order. *)
From Verif Require Import Common Expr_Model SymDict_Model Gcn_Lex.
Local Open Scope list_scope.
Local Open Scope parser_scope.

Inductive tag := Exclude | Minimize | Maximize.
Definition tag_name (t : tag) : chars := match t with Exclude => str "exclude" | Minimize => str "minimize" | Maximize => str "maximize" end.
Definition all_tags : list tag := [Exclude; Minimize; Maximize].
Definition tag_eqb (a b : tag) : bool := match a, b with Exclude, Exclude | Minimize, Minimize | Maximize, Maximize => true | _, _ => false end.
(* frozenset(tokens.tags) *)
Definition tag_set (l : list tag) : list tag := filter (fun t => existsb (tag_eqb t) l) all_tags.
(* Tag.from_string, nodes.py l.118-126 *)
Definition tag_of (name : chars) : option tag := find (fun t => chars_eqb (map lower name) (tag_name t)) all_tags.

(* arithmetic written inside a distribution; DOp: a Group  last (op last)+  of one precedence level *)
Inductive dop := DDiv | DMul | DAdd | DSub.
Inductive dnum := DN (t : chars) | DOp (o : dop) (first : dnum) (rest : list dnum).
Inductive darg := ANum (e : dnum) | ANone | AName (n : chars).
(* what the grammar delivers for a distribution, before evaluation *)
Record rawdist := RawDist {
  rd_par : chars; rd_name : chars; rd_args : list (chars * darg); rd_wrapper : option (chars * list (chars * darg)); rd_init : option dnum }.

Section Model.
Context {F : Type}.
Record equation := Eqn { lhs : expr F; rhs : expr F; multiplier : option chars; calibrating : option chars; tags : list tag }.
(* GCNDistribution of a calibration block, evaluated *)
Inductive dval := VNum (v : F) | VNone | VName (n : chars).
Record dist := Dist {
  d_par : chars; d_name : chars; d_args : list (chars * dval); d_wrapper : option chars; d_wargs : list (chars * dval); d_init : option F }.
Inductive item := IDist (d : dist) | IEqn (e : equation).
Definition varref := (chars * tix)%type.
Record block := Block {
  b_name : chars; definitions : list equation; controls : list varref; objective : list equation; constraints : list equation;
  identities : list equation; shocks : list varref; shock_dists : list rawdist; calibration : list item }.
Definition optval := (bool + chars)%type.
Record gmodel := Model {
  blocks : list block; options : list (chars * optval); tryreduce : list chars; assumptions : list (chars * list (chars * bool)) }.
End Model.
Arguments equation F : clear implicits. Arguments dval F : clear implicits. Arguments dist F : clear implicits.
Arguments item F : clear implicits. Arguments block F : clear implicits. Arguments gmodel F : clear implicits.

(* constants.py l.71-126 *)
Definition preliz_dists : list chars := map str [
  "AsymmetricLaplace"; "Bernoulli"; "Beta"; "BetaBinomial"; "BetaScaled"; "Binomial"; "Categorical"; "Cauchy"; "ChiSquared";
  "Dirichlet"; "DiscreteUniform"; "DiscreteWeibull"; "ExGaussian"; "Exponential"; "Gamma"; "Geometric"; "Gumbel"; "HalfCauchy";
  "HalfNormal"; "HalfStudentT"; "HyperGeometric"; "InverseGamma"; "Kumaraswamy"; "Laplace"; "LogLogistic"; "LogNormal"; "Logistic";
  "LogitNormal"; "Moyal"; "MvNormal"; "NegativeBinomial"; "Normal"; "Pareto"; "Poisson"; "Rice"; "SkewNormal"; "SkewStudentT";
  "StudentT"; "Triangular"; "TruncatedNormal"; "Uniform"; "VonMises"; "Wald"; "Weibull"; "ZeroInflatedBinomial";
  "ZeroInflatedNegativeBinomial"; "ZeroInflatedPoisson"]%string.
Definition preliz_wrappers : list chars := map str ["maxent"; "Censored"; "Truncated"; "Hurdle"]%string.
Definition gcn_assumptions : list chars := map str ["positive"; "negative"; "nonpositive"; "nonnegative"; "real"; "integer"; "finite"; "unit_interval"]%string.

Section Grammar.
Variable sk : chars -> chars.
Context {F : Type} (fread : chars -> F).
Notation L := (t_lit sk).
Notation ID := (t_ident sk).
Notation EXPR := (p_ex sk fread).

(* statements.py l.70-72 VARIABLE_REF *)
Definition p_varref : parser varref := n <~ ID ; t <~ p_tix sk ; ret (n, t).
Definition p_varlist : parser (list varref) := delimited sk p_varref.
(* l.72-90 TAG: an unknown tag is fatal *)
Definition p_tag : parser tag := n <~ t_tag_name sk ; match tag_of n with Some t => ret t | None => fatal end.
(* l.92 LAGRANGE_MULT, l.124 CALIBRATING_PARAM *)
Definition p_multiplier : parser chars := L ":" >> n <~ ID ; p_tix sk >> ret n.
Definition p_calibrating : parser chars := L "->" >> ID.
(* l.137-208 *)
Definition missing_lhs : parser (equation F) := many p_tag >> peek (L "=") >> fatal.
Definition missing_rhs : parser (equation F) := many p_tag >> EXPR >> L "=" >> peek (L ";" <|> L ":") >> fatal.
Definition missing_equals : parser (equation F) := many p_tag >> EXPR >> nota (L "=") >> peek (L ";") >> fatal.
Definition post_rhs_check : parser (option unit) := opt ((L ")" <|> L "]" <|> L "}") >> fatal).
Definition valid_equation : parser (equation F) :=
  ts <~ many p_tag ; l <~ EXPR ; L "=" >> r <~ EXPR ; post_rhs_check >>
  m <~ opt p_multiplier ; c <~ opt p_calibrating ; L ";" >> ret (Eqn l r m c (tag_set ts)).
Definition p_equation : parser (equation F) := missing_lhs <|> missing_rhs <|> missing_equals <|> valid_equation.

(* l.318-332 _DIST_NUMBER_EXPR: infix_notation with the levels / * + - (each its own), tightest first *)
Definition d_level (o : dop) (w : string) (p : parser dnum) : parser dnum :=
  a <~ p ; l <~ many (L w >> p) ; ret (match l with [] => a | _ :: _ => DOp o a l end).
Fixpoint p_dnum_f (fuel : nat) (s : chars) {struct fuel} : pres dnum :=
  match fuel with
  | O => POut
  | S fuel' =>
      d_level DSub "-" (d_level DAdd "+" (d_level DMul "*" (d_level DDiv "/"
        ((t <~ t_dnumber sk ; ret (DN t)) <|> (L "(" >> e <~ p_dnum_f fuel' ; L ")" >> ret e))))) s
  end.
Definition p_dnum : parser dnum := fun s => p_dnum_f (S (length s)) s.
(* l.334-350 *)
Definition p_dist_name : parser chars := t_oneof sk preliz_dists.
Definition p_wrapper_name : parser chars := t_oneof sk preliz_wrappers.
Definition p_darg : parser (chars * darg) :=
  n <~ ID ; L "=" >> v <~ ((e <~ p_dnum ; ret (ANum e)) <|> (t_kw sk "None" >> ret ANone) <|> (x <~ ID ; ret (AName x))) ; ret (n, v).
Definition args_of {A} (o : option (list A)) : list A := match o with Some l => l | None => [] end.
Definition p_dist_call : parser (chars * list (chars * darg)) :=
  n <~ p_dist_name ; L "(" >> a <~ opt (delimited sk p_darg) ; L ")" >> ret (n, args_of a).
Definition rawcall := (chars * list (chars * darg) * option (chars * list (chars * darg)))%type.
Definition p_wrapped : parser rawcall :=
  w <~ p_wrapper_name ; L "(" >> c <~ !p_dist_call ; a <~ !(opt (L "," >> delimited sk p_darg)) ; !(L ")") >> ret (c, Some (w, args_of a)).
Definition unknown_wrapper : parser rawcall :=
  nota (p_dist_name <|> p_wrapper_name) >> ID >> peek (L "(" >> p_dist_name) >> fatal.
Definition unknown_dist : parser rawcall :=
  nota (p_dist_name <|> p_wrapper_name) >> ID >> peek (L "(" >> nota p_dist_name) >> fatal.
Definition p_dist_expr : parser rawcall :=
  p_wrapped <|> (c <~ p_dist_call ; ret (c, None)) <|> unknown_wrapper <|> unknown_dist.
(* l.391 DISTRIBUTION *)
Definition p_distribution : parser rawdist :=
  n <~ ID ; L "~" >> c <~ !p_dist_expr ; i <~ !(opt (L "=" >> p_dnum)) ; !(L ";") >>
  ret (RawDist n (fst (fst c)) (snd (fst c)) (snd c) i).
(* l.394-413 MISSING_TILDE *)
Definition missing_tilde {A} : parser A :=
  ID >> peek (L "=" >> (p_wrapper_name <|> p_dist_name)) >> L "=" >> (p_wrapper_name <|> p_dist_name) >> fatal.

(* components.py l.36-126 *)
Inductive component :=
| CDefinitions (l : list (equation F)) | CControls (l : list varref) | CObjective (l : list (equation F)) | CConstraints (l : list (equation F))
| CIdentities (l : list (equation F)) | CShocks (v : list varref) (d : list rawdist) | CCalibration (l : list (rawdist + equation F)).
Definition eq_component (kw : string) (mk : list (equation F) -> component) : parser component :=
  t_kwc sk kw >> !(L "{") >> l <~ !(many p_equation) ; !(L "}") >> !(L ";") >> ret (mk l).
Definition p_optvars : parser (list varref) := v <~ opt (v <~ p_varlist ; L ";" >> ret v) ; ret (args_of v).
Definition p_controls : parser component :=
  t_kwc sk "controls" >> !(L "{") >> v <~ !p_optvars ; !(L "}") >> !(L ";") >> ret (CControls v).
(* SHOCK_DISTRIBUTION | SHOCK_VAR_LIST | SHOCK_VAR: the variables and distributions an item adds (_build_shocks) *)
Definition p_shock_item : parser (list varref * list rawdist) :=
  (v <~ p_varref ; L "~" >> c <~ p_dist_expr ; i <~ opt (L "=" >> t_number sk) ; L ";" >>
     ret ([(fst v, TI 0)], [RawDist (fst v) (fst (fst c)) (snd (fst c)) (snd c) (option_map DN i)])) <|>
  (v <~ p_varref ; L "," >> l <~ delimited sk p_varref ; L ";" >> ret (v :: l, [])) <|>
  (v <~ p_varref ; L ";" >> ret ([v], [])).
Definition p_shocks : parser component :=
  t_kwc sk "shocks" >> !(L "{") >> l <~ !(many p_shock_item) ; !(L "}") >> !(L ";") >>
  ret (CShocks (flat_map fst l) (flat_map snd l)).
Definition p_cal_item : parser (rawdist + equation F) :=
  (d <~ p_distribution ; ret (inl d)) <|> missing_tilde <|> (e <~ p_equation ; ret (inr e)).
Definition p_calibration : parser component :=
  t_kwc sk "calibration" >> !(L "{") >> l <~ !(many p_cal_item) ; !(L "}") >> !(L ";") >> ret (CCalibration l).
Definition valid_component : parser component :=
  eq_component "definitions" CDefinitions <|> p_controls <|> eq_component "objective" CObjective <|>
  eq_component "constraints" CConstraints <|> eq_component "identities" CIdentities <|> p_shocks <|> p_calibration.
Definition p_component : parser component :=
  valid_component <|> (nota valid_component >> ID >> peek (L "{") >> fatal).

(* blocks.py l.14: MODEL_BLOCK *)
Definition p_block : parser (chars * list component) :=
  t_kwc sk "block" >> n <~ !ID ; !(L "{") >> c <~ !(many p_component) ; !(L "}") >> !(L ";") >> ret (n, c).

(* special_blocks.py *)
Inductive special := SOptions (l : list (chars * optval)) | STryreduce (l : list chars) | SAssumptions (l : list (chars * list chars)).
Definition p_option_value : parser optval :=
  (t_kwc sk "TRUE" >> ret (inl true)) <|> (t_kwc sk "FALSE" >> ret (inl false)) <|> (n <~ ID ; ret (inr n)).
Definition p_option_entry : parser (chars * optval) :=
  k <~ t_option_key sk ; !(L "=") >> v <~ !p_option_value ; !(L ";") >> ret (k, v).
Definition p_options : parser special :=
  t_kwc sk "options" >> !(L "{") >> l <~ !(many p_option_entry) ; !(L "}") >> !(L ";") >> ret (SOptions l).
Definition p_tryreduce : parser special :=
  t_kwc sk "tryreduce" >> !(L "{") >> v <~ !p_optvars ; !(L "}") >> !(L ";") >> ret (STryreduce (map fst v)).
Definition p_assumption_item : parser chars := (v <~ p_varref ; ret (fst v)) <|> ID.
Definition p_subblock : parser (chars * list chars) :=
  (a <~ t_oneof_ci sk gcn_assumptions ; !(L "{") >> l <~ !(delimited sk p_assumption_item) ; !(L ";") >> !(L "}") >> !(L ";") >> ret (a, l)) <|>
  (ID >> peek (L "{") >> fatal).
Definition p_assumptions : parser special :=
  t_kwc sk "assumptions" >> !(L "{") >> l <~ !(many p_subblock) ; !(L "}") >> !(L ";") >> ret (SAssumptions l).
Definition p_special : parser special := p_options <|> p_tryreduce <|> p_assumptions.

(* gcn_file.py l.43-59: GCN_FILE with parse_all=True *)
Definition component_keyword : parser unit :=
  t_kwc sk "DEFINITIONS" <|> t_kwc sk "CONTROLS" <|> t_kwc sk "OBJECTIVE" <|> t_kwc sk "CONSTRAINTS" <|> t_kwc sk "IDENTITIES" <|>
  t_kwc sk "SHOCKS" <|> t_kwc sk "CALIBRATION".
Definition p_top : parser (chars * list component) := (component_keyword >> peek (L "{") >> fatal) <|> p_block.
Definition p_file : parser (list special * list (chars * list component)) :=
  sp <~ many p_special ; b <~ p_top ; bs <~ many p_top ; t_end sk >> ret (sp, b :: bs).
End Grammar.
Arguments component F : clear implicits.
Arguments CDefinitions {F} l. Arguments CControls {F} l. Arguments CObjective {F} l. Arguments CConstraints {F} l.
Arguments CIdentities {F} l. Arguments CShocks {F} v d. Arguments CCalibration {F} l.

(* ---- building the AST ---- *)
Section Build.
Context {F : Type} (fread : chars -> F) (farith : dop -> F -> F -> result F).
(* statements.py l.288-315 _evaluate_number_expr: numbers left to right; float() of a nested group is a TypeError *)
Definition as_number (e : dnum) : result F := match e with DN t => Ok (fread t) | DOp _ _ _ => Err TypeError end.
Fixpoint eval_rest (o : dop) (acc : F) (l : list dnum) : result F :=
  match l with
  | [] => Ok acc
  | e :: l' => match as_number e with
               | Ok v => match farith o acc v with Ok acc' => eval_rest o acc' l' | Err x => Err x end
               | Err x => Err x
               end
  end.
Definition eval_dnum (e : dnum) : result F :=
  match e with
  | DN t => Ok (fread t)
  | DOp o a l => match as_number a with Ok v => eval_rest o v l | Err x => Err x end
  end.
Definition eval_darg (a : darg) : result (dval F) :=
  match a with ANone => Ok VNone | AName n => Ok (VName n) | ANum e => match eval_dnum e with Ok v => Ok (VNum v) | Err x => Err x end end.
(* l.415-443 _build_distribution; later arguments of the same name overwrite earlier ones *)
Fixpoint eval_args (acc : list (chars * dval F)) (l : list (chars * darg)) : result (list (chars * dval F)) :=
  match l with
  | [] => Ok acc
  | (k, a) :: l' => match eval_darg a with Ok v => eval_args (dset chars_eqb k v acc) l' | Err x => Err x end
  end.
Definition build_dist (d : rawdist) : result (dist F) :=
  match eval_args [] (rd_args d) with
  | Err x => Err x
  | Ok a =>
    match (match rd_wrapper d with Some (_, l) => eval_args [] l | None => Ok [] end) with
    | Err x => Err x
    | Ok w =>
      match rd_init d with
      | None => Ok (Dist (rd_par d) (rd_name d) a (option_map fst (rd_wrapper d)) w None)
      | Some e => match eval_dnum e with
                  | Ok v => Ok (Dist (rd_par d) (rd_name d) a (option_map fst (rd_wrapper d)) w (Some v))
                  | Err x => Err x
                  end
      end
    end
  end.
Fixpoint build_items (l : list (rawdist + equation F)) : result (list (item F)) :=
  match l with
  | [] => Ok []
  | inr e :: l' => match build_items l' with Ok r => Ok (IEqn e :: r) | Err x => Err x end
  | inl d :: l' => match build_dist d with
                   | Err x => Err x
                   | Ok d' => match build_items l' with Ok r => Ok (IDist d' :: r) | Err x => Err x end
                   end
  end.
(* blocks.py l.17-41 _build_block: every component overwrites an earlier one of the same kind *)
Definition set_component (b : block F) (c : component F) : result (block F) :=
  let '(Block n d ct o cs i s sd cal) := b in
  match c with
  | CDefinitions l => Ok (Block n l ct o cs i s sd cal)
  | CControls l => Ok (Block n d l o cs i s sd cal)
  | CObjective l => Ok (Block n d ct l cs i s sd cal)
  | CConstraints l => Ok (Block n d ct o l i s sd cal)
  | CIdentities l => Ok (Block n d ct o cs l s sd cal)
  | CShocks v ds => Ok (Block n d ct o cs i v ds cal)
  | CCalibration l => match build_items l with Ok r => Ok (Block n d ct o cs i s sd r) | Err x => Err x end
  end.
Fixpoint set_components (b : block F) (l : list (component F)) : result (block F) :=
  match l with [] => Ok b | c :: l' => match set_component b c with Ok b' => set_components b' l' | Err x => Err x end end.
Definition build_block (nc : chars * list (component F)) : result (block F) :=
  set_components (Block (fst nc) [] [] [] [] [] [] [] []) (snd nc).
Fixpoint build_blocks (l : list (chars * list (component F))) : result (list (block F)) :=
  match l with
  | [] => Ok []
  | b :: l' => match build_block b with
               | Err x => Err x
               | Ok b' => match build_blocks l' with Ok r => Ok (b' :: r) | Err x => Err x end
               end
  end.
(* special_blocks.py l.32-36, l.96-112: dicts; DEFAULT_ASSUMPTIONS = {"real": True}; unit_interval implies positive *)
Definition build_options (l : list (chars * optval)) : list (chars * optval) := fold_left (fun d kv => dset chars_eqb (fst kv) (snd kv) d) l [].
Definition default_assumptions : list (chars * bool) := [(str "real", true)].
Definition assume (a v : chars) (d : list (chars * list (chars * bool))) : list (chars * list (chars * bool)) :=
  let cur := match dget chars_eqb v d with Some x => x | None => default_assumptions end in
  let cur1 := dset chars_eqb (map lower a) true cur in
  dset chars_eqb v (if chars_eqb (map lower a) (str "unit_interval") then dset chars_eqb (str "positive") true cur1 else cur1) d.
Definition build_assumptions (l : list (chars * list chars)) : list (chars * list (chars * bool)) :=
  fold_left (fun d av => assume (fst av) (snd av) d) (flat_map (fun sb => map (fun v => (fst sb, v)) (snd sb)) l) [].
(* gcn_file.py l.62-76 _build_model: a later special block of the same kind overwrites an earlier one *)
Definition set_special (m : gmodel F) (s : special) : gmodel F :=
  let '(Model b o t a) := m in
  match s with
  | SOptions l => Model b (build_options l) t a
  | STryreduce l => Model b o l a
  | SAssumptions l => Model b o t (build_assumptions l)
  end.
Definition build_model (x : list special * list (chars * list (component F))) : result (gmodel F) :=
  match build_blocks (snd x) with
  | Ok bs => Ok (fold_left set_special (fst x) (Model bs [] [] []))
  | Err e => Err e
  end.
(* gcn_file.py l.236-243 parse_gcn *)
Definition parse_gcn (text : chars) : result (gmodel F) :=
  match p_file skipc fread text with
  | POk x _ => build_model x
  | POut => Err RecursionError
  | _ => Err (GEconError 0)
  end.
(* statements.py l.449-451 parse_equation: text.strip() first, which changes nothing here *)
Definition parse_equation (text : chars) : result (equation F) :=
  match (e <~ p_equation skipc fread ; t_end skipc >> ret e) text with
  | POk e _ => Ok e
  | POut => Err RecursionError
  | _ => Err (GEconError 0)
  end.
(* blocks.py l.47-57 parse_block_from_text, parse_block *)
Definition parse_block_from_text (text : chars) : result (block F) :=
  match (b <~ p_block skipc fread ; t_end skipc >> ret b) text with
  | POk b _ => build_block b
  | POut => Err RecursionError
  | _ => Err (GEconError 0)
  end.
Definition parse_block (name content : chars) : result (block F) :=
  parse_block_from_text (str "block " ++ name ++ str " { " ++ content ++ str " }").
End Build.

(* ---- printer.py ---- *)
Section Print.
Context {F : Type} (fprint fstr : F -> chars).
Definition newline : chars := ["010"%char].
(* l.86-113 print_equation *)
Definition print_equation (e : equation F) : chars :=
  let r := print_expression fprint (lhs e) 0 ++ str " = " ++ print_expression fprint (rhs e) 0 in
  let r := match multiplier e with Some (c :: n) => r ++ str " : " ++ (c :: n) ++ str "[]" | _ => r end in
  match calibrating e with Some (c :: n) => r ++ str " -> " ++ (c :: n) | _ => r end.
Definition print_dval (v : dval F) : chars := match v with VNum x => fstr x | VNone => str "None" | VName n => n end.
Definition print_kwargs (l : list (chars * dval F)) : chars := join (str ", ") (map (fun kv => fst kv ++ str "=" ++ print_dval (snd kv)) l).
(* l.116-147 print_distribution *)
Definition print_distribution (d : dist F) : chars :=
  let ds := d_name d ++ str "(" ++ print_kwargs (d_args d) ++ str ")" in
  let ds := match d_wrapper d with
            | Some (c :: w) => match print_kwargs (d_wargs d) with
                               | [] => (c :: w) ++ str "(" ++ ds ++ str ")"
                               | k => (c :: w) ++ str "(" ++ ds ++ str ", " ++ k ++ str ")"
                               end
            | _ => ds
            end in
  d_par d ++ str " ~ " ++ ds ++ match d_init d with Some v => str " = " ++ fstr v | None => [] end.
Definition print_item (i : item F) : chars := match i with IDist d => print_distribution d | IEqn e => print_equation e end.
Definition indent : chars := str "    ".
(* one component: nothing when empty (l.169-236) *)
Definition component_lines (kw : string) (body : list chars) : list chars :=
  match body with
  | [] => []
  | _ :: _ => [indent ++ str kw; indent ++ str "{"] ++ map (fun b => indent ++ indent ++ b ++ str ";") body ++ [indent ++ str "};"; []]
  end.
Definition print_var (v : varref) : chars := fst v ++ tix_str (snd v).
Definition one_line (l : list chars) : list chars := match l with [] => [] | _ :: _ => [join (str ", ") l] end.
Definition print_block (b : block F) : chars :=
  join newline (
    [str "block " ++ b_name b; str "{"] ++
    component_lines "definitions" (map print_equation (definitions b)) ++
    component_lines "controls" (one_line (map print_var (controls b))) ++
    component_lines "objective" (map print_equation (objective b)) ++
    component_lines "constraints" (map print_equation (constraints b)) ++
    component_lines "identities" (map print_equation (identities b)) ++
    component_lines "shocks" (one_line (map print_var (shocks b))) ++
    component_lines "calibration" (map print_item (calibration b)) ++
    [str "};"]).
Definition print_optval (v : optval) : chars := match v with inl true => str "TRUE" | inl false => str "FALSE" | inr n => n end.
(* l.284-296: assumptions grouped by kind, in order of first appearance *)
Definition group_assumptions (l : list (chars * list (chars * bool))) : list (chars * list chars) :=
  fold_left (fun d av => match dget chars_eqb (fst av) d with
                         | Some vs => dset chars_eqb (fst av) (vs ++ [snd av]) d
                         | None => dset chars_eqb (fst av) [snd av] d
                         end)
    (flat_map (fun va => flat_map (fun ab => if snd ab : bool then [(fst ab, fst va)] else []) (snd va)) l) [].
Context (sort : list chars -> list chars).
Definition print_model (m : gmodel F) : chars :=
  join (newline ++ newline) (
    (match options m with
     | [] => []
     | o => [join newline ([str "options"; str "{"] ++ map (fun kv => indent ++ fst kv ++ str " = " ++ print_optval (snd kv) ++ str ";") o ++ [str "};"])]
     end) ++
    (match tryreduce m with
     | [] => []
     | t => [join newline [str "tryreduce"; str "{"; indent ++ join (str ", ") t ++ str ";"; str "};"]]
     end) ++
    (match group_assumptions (assumptions m) with
     | [] => []
     | g => [join newline ([str "assumptions"; str "{"] ++
              flat_map (fun av => [indent ++ fst av; indent ++ str "{"; indent ++ indent ++ join (str ", ") (sort (snd av)) ++ str ";"; indent ++ str "};"]) g ++
              [str "};"])]
     end) ++
    map print_block (blocks m)).
End Print.
