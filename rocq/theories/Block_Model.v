(* Models of
     gEconpy/parser/transform/to_block.py: _equation_to_sympy l.18-38, _extract_flags l.50-64, _extract_multiplier l.67-77,
       _convert_equation_list l.80-95, ast_block_to_block l.98-186, _convert_calibration l.189-243
     gEconpy/model/block/basic.py: Block.__init__ l.79-168, _validate_initialization l.192-298,
       _consolidate_definitions l.300-307, _get_variable_list l.309-349, _get_param_dict_and_calibrating_equations l.367-457,
       _try_substitute_ss_values l.459-517, _build_lagrangian l.519-551, _get_discount_factor l.553-601,
       solve_optimization l.644-742 (with try_simplify=False), _compute_foc l.744-752.
   Simplifications:
   - equations arrive already translated to symbolic expressions (ast_to_sympy, see Expr_Model / ExpandTime_Model);
     SymPy's automatic simplification, Eq(x, x) collapsing to True and .powsimp() are not modelled;
   - rhs.is_number is "contains no symbol"; .evalf() and the conversion to float are not modelled, and .doit() is
     dropped;
   - source locations and error texts are dropped;
   - the left-hand side of a definition that is not a symbol makes _expand_definition_for_all_times raise
     AttributeError; the model raises it already when the block is built;
   - Python dicts are association lists updated by [dset] (SymDict_Model), which keeps positions like CPython.
   GEconError numbers: 20 OptimizationProblemNotDefinedException, 21 MultipleObjectiveFunctionsException,
   22 ControlVariableNotFoundException, 23 DynamicCalibratingEquationException, 24 DuplicateParameterError. *)
From Verif Require Import Common Sym_Model SymDict_Model.
Local Open Scope list_scope.

(* ---- the parsed block ---- *)
Record geq := GEq {
  g_lhs : sx; g_rhs : sx; g_exclude : bool; g_min : bool; g_max : bool;
  g_lm : option chars;      (* ": name[]" *)
  g_cal : option chars }.   (* "-> name" *)
Inductive citem := CEqn (e : geq) | CDist (p : chars) (init : option Z).
Record ablock := ABlock {
  ab_name : chars; ab_controls : list sym; ab_shocks : list sym;
  ab_defs : list geq; ab_obj : list geq; ab_cons : list geq; ab_ids : list geq; ab_calib : list citem }.

Record eqn := Eqn { lhs : sx; rhs : sx }.
Record flags := Flags { fl_exclude : bool; fl_min : bool; fl_max : bool; fl_cal : bool }.

Definition ntab (V : Type) := list (nat * V).
Definition nset {V} (k : nat) (v : V) (d : ntab V) : ntab V := dset Nat.eqb k v d.
Definition nget {V} (k : nat) (d : ntab V) : option V := dget Nat.eqb k d.

Definition equation_to_sympy (e : geq) : eqn :=
  match g_cal e with
  | Some p => Eqn (Sy (SPar p)) (Ad (g_rhs e) (Ng (g_lhs e)))
  | None => Eqn (g_lhs e) (g_rhs e)
  end.
Definition extract_flags (e : geq) : flags :=
  Flags (g_exclude e) (g_min e) (g_max e) (match g_cal e with Some _ => true | None => false end).
Definition extract_multiplier (e : geq) : option sym :=
  match g_lm e with Some n => Some (SDate n 0) | None => None end.

(* The four mutable things _convert_equation_list threads. *)
Record conv := Conv { cv_num : nat; cv_flags : ntab flags; cv_mult : ntab (option sym) }.

Definition convert_one (e : eqn) (f : flags) (m : option sym) (st : ntab eqn * conv) : ntab eqn * conv :=
  let (res, c) := st in
  (nset (cv_num c) e res,
   Conv (S (cv_num c)) (nset (cv_num c) f (cv_flags c)) (nset (cv_num c) m (cv_mult c))).

(* _convert_equation_list *)
Definition convert_list (eqs : list geq) (c : conv) : ntab eqn * conv :=
  fold_left (fun st e => convert_one (equation_to_sympy e) (extract_flags e) (extract_multiplier e) st) eqs ([], c).
(* "x = None; if ast_block.x: x, eq_num = ..." *)
Definition convert_opt (eqs : list geq) (c : conv) : option (ntab eqn) * conv :=
  match eqs with
  | [] => (None, c)
  | _ => let (r, c') := convert_list eqs c in (Some r, c')
  end.
(* _convert_calibration *)
Definition calib_entry (i : citem) : list (eqn * flags * option sym) :=
  match i with
  | CEqn e => [(equation_to_sympy e, extract_flags e, extract_multiplier e)]
  | CDist p (Some v) => [(Eqn (Sy (SPar p)) (Cst v), Flags false false false false, None)]
  | CDist _ None => []
  end.
Definition convert_calibration (items : list citem) (c : conv) : option (ntab eqn) * conv :=
  match flat_map calib_entry items with
  | [] => (None, c)
  | l => let (r, c') := fold_left (fun st efm => let '(e, f, m) := efm in convert_one e f m st) l ([], c) in (Some r, c')
  end.

(* ---- the Block object ---- *)
Record block := Block {
  k_short : chars;
  k_controls : option (list sym); k_shocks : list sym;
  k_defs : option (ntab eqn); k_obj : option (ntab eqn); k_cons : option (ntab eqn);
  k_ids : option (ntab eqn); k_cal : option (ntab eqn);
  k_mult : ntab (option sym); k_flags : ntab flags;
  k_sys : list sx }.

(* name.split("_") *)
Fixpoint split_us (s : chars) : list chars :=
  match s with
  | [] => [[]]
  | c :: s' =>
      if Ascii.eqb c "_"%char then [] :: split_us s'
      else match split_us s' with w :: ws => (c :: w) :: ws | [] => [[c]] end
  end.
(* l.131: word[0] of an empty word is an IndexError *)
Fixpoint initials (ws : list chars) : result chars :=
  match ws with
  | [] => Ok []
  | [] :: _ => Err IndexError
  | (c :: _) :: ws' => r <- initials ws' ;; Ok (c :: r)
  end.
Definition short_name (name : chars) : result chars := initials (split_us name).

Definition tab {V} (o : option (ntab V)) : ntab V := match o with Some d => d | None => [] end.

(* _validate_initialization *)
Definition fl_ok (name_ok : bool) (b : bool) : result unit := if (b && negb name_ok)%bool then Err ValueError else Ok tt.
Fixpoint check_flags (fl : ntab flags) (in_obj in_cons : bool) (d : ntab eqn) : result unit :=
  match d with
  | [] => Ok tt
  | (key, _) :: d' =>
      match nget key fl with
      | None => Err KeyError
      | Some f =>
          u1 <- fl_ok false (fl_cal f) ;;
          u2 <- fl_ok in_cons (fl_exclude f) ;;
          u3 <- fl_ok in_obj (fl_min f) ;;
          u4 <- fl_ok in_obj (fl_max f) ;;
          check_flags fl in_obj in_cons d'
      end
  end.
Fixpoint check_minmax (fl : ntab flags) (d : ntab eqn) : result unit :=
  match d with
  | [] => Ok tt
  | (key, _) :: d' =>
      match nget key fl with
      | None => Err KeyError
      | Some f => if (fl_min f && fl_max f)%bool then Err ValueError else check_minmax fl d'
      end
  end.
Definition eqn_atoms (e : eqn) : list sym := atoms (lhs e) ++ atoms (rhs e).
Definition control_found (b : block) (c : sym) : bool :=
  existsb (fun d => existsb (fun ke => smem c (eqn_atoms (snd ke))) d) [tab (k_defs b); tab (k_obj b); tab (k_cons b)].
Definition validate (b : block) : result unit :=
  match k_obj b, k_controls b with
  | Some _, None => Err (GEconError 20)
  | None, Some _ => Err (GEconError 20)
  | _, _ =>
      if Nat.ltb 1 (length (tab (k_obj b))) then Err (GEconError 21)
      else if negb (forallb (control_found b) (match k_controls b with Some l => l | None => [] end)) then Err (GEconError 22)
      else u1 <- check_flags (k_flags b) false false (tab (k_defs b)) ;;
           u2 <- check_flags (k_flags b) true false (tab (k_obj b)) ;;
           u3 <- check_flags (k_flags b) false true (tab (k_cons b)) ;;
           u4 <- check_flags (k_flags b) false false (tab (k_ids b)) ;;
           check_minmax (k_flags b) (tab (k_obj b))
  end.

Section Orders.
(* ord: iteration order of sets; sord: the order in which SymPy's subs applies a dict's entries; aord: the order of the
   arguments of a SymPy sum or product. *)
Variables ord sord : set_order.
Variable aord : list sx -> list sx.

(* expr.subs(d) *)
Definition subs_dict (d : sdict) (e : sx) : sx := subs_seq (get_all d (sord (map fst d))) e.

(* {eq.lhs: eq.rhs for eq in definitions.values()} *)
Fixpoint def_entries (d : ntab eqn) : result sdict :=
  match d with
  | [] => Ok []
  | (_, e) :: d' =>
      match lhs e with
      | Sy s => r <- def_entries d' ;; Ok ((s, rhs e) :: r)
      | _ => Err AttributeError
      end
  end.
Definition def_dict (d : ntab eqn) : result sdict := l <- def_entries d ;; Ok (dupd sym_eqb [] l).

(* _consolidate_definitions *)
Definition consolidate (o : option (ntab eqn)) : result (option (ntab eqn)) :=
  match o with
  | None => Ok None
  | Some d =>
      sd <- def_dict d ;;
      flat <- flatten ord sord sd ;;
      Ok (Some (map (fun ke => (fst ke, Eqn (lhs (snd ke)) (subs_dict flat (rhs (snd ke))))) d))
  end.

(* ast_block_to_block followed by Block.__init__ up to _consolidate_definitions (dispatch to the specialised subclasses:
   see CobbDouglas_Model) *)
Definition to_block (a : ablock) : result block :=
  let c0 := Conv 0 [] [] in
  let (defs, c1) := convert_opt (ab_defs a) c0 in
  let (obj, c2) := convert_opt (ab_obj a) c1 in
  let (cons, c3) := convert_opt (ab_cons a) c2 in
  let (ids, c4) := convert_opt (ab_ids a) c3 in
  let (cal, c5) := convert_calibration (ab_calib a) c4 in
  short <- short_name (ab_name a) ;;
  let b := Block short (match ab_controls a with [] => None | l => Some l end) (ab_shocks a) defs obj cons ids cal
                 (cv_mult c5) (cv_flags c5) [] in
  u <- validate b ;;
  d' <- consolidate defs ;;
  Ok (Block short (k_controls b) (ab_shocks a) d' obj cons ids cal (cv_mult c5) (cv_flags c5) []).

(* _build_lagrangian, l.527-532: the definitions at the three dates *)
Fixpoint expand_defs (d : ntab eqn) (acc : sdict) : result sdict :=
  match d with
  | [] => Ok acc
  | (_, e) :: d' =>
      match lhs e with
      | Sy (SDate b t0) =>
          l <- expand_definition ord b t0 (rhs e) ;;
          expand_defs d' (dupd sym_eqb acc
            (flat_map (fun kv => match fst kv with Sy s => [(s, snd kv)] | _ => [] end) l))
      | Sy (SSs _) => Err TypeError
      | _ => Err AttributeError
      end
  end.
Definition lambda_name (short : chars) (i : nat) : chars := str "lambda__" ++ short ++ str "_" ++ dec (N.of_nat i).
(* l.541-549 *)
Fixpoint lag_loop (short : chars) (sd : sdict) (cs : ntab eqn) (i : nat) (mu : ntab (option sym)) (L : sx)
  : result (sx * ntab (option sym)) :=
  match cs with
  | [] => Ok (L, mu)
  | (key, c) :: cs' =>
      let term lm := Ad L (Ng (Mu (Sy lm) (Ad (subs_dict sd (lhs c)) (Ng (subs_dict sd (rhs c)))))) in
      match nget key mu with
      | None => Err KeyError
      | Some (Some lm) => lag_loop short sd cs' i mu (term lm)
      | Some None =>
          let lm := SDate (lambda_name short i) 0 in
          lag_loop short sd cs' (S i) (nset i (Some lm) mu) (term lm)
      end
  end.
(* l.519-551; constraints = None makes .items() raise AttributeError *)
Definition build_lagrangian (b : block) : result (sx * ntab (option sym)) :=
  match tab (k_obj b) with
  | [] => Err AttributeError
  | (obj_key, obj) :: _ =>
      match nget obj_key (k_flags b) with
      | None => Err KeyError
      | Some f =>
          sd <- expand_defs (tab (k_defs b)) [] ;;
          let o := subs_dict sd (rhs obj) in
          match k_cons b with
          | None => Err AttributeError
          | Some cs => lag_loop (k_short b) sd cs 1 (k_mult b) (if fl_min f then Ng o else o)
          end
      end
  end.

(* expr.args of a sum: its addends; of a product: its factors (a sign counts as the factor -1) *)
Fixpoint addends (e : sx) : list sx :=
  match e with
  | Ad a b => addends a ++ addends b
  | Ng a => map Ng (addends a)
  | _ => [e]
  end.
Fixpoint factors (e : sx) : list sx :=
  match e with
  | Mu a b => factors a ++ factors b
  | Ng a => Cst (-1) :: factors a
  | _ => [e]
  end.
Definition args (e : sx) : list sx :=
  match addends e with
  | [a] => match a with Mu _ _ | Ng _ => aord (factors a) | Fn _ _ x => [x] | _ => [] end
  | l => aord l
  end.
(* _get_discount_factor, l.577-601.  objective.lhs without set_t (a parameter or a compound) raises AttributeError. *)
Definition is_now_or_lag (s : sym) : bool := match s with SDate _ t => (Z.eqb t 0 || Z.eqb t (-1))%bool | SSs _ => false | SPar _ => true end.
Definition discount_factor (obj : eqn) : result sx :=
  if forallb is_now_or_lag (eqn_atoms obj) then Ok (Cst 1)
  else match lhs obj with
       | Sy s =>
           match s with
           | SPar _ => Err AttributeError
           | _ =>
               let v1 := set_date (Some 1%Z) s in
               match filter (fun a => smem v1 (atoms a)) (args (rhs obj)) with
               | [] => Err ValueError
               | a :: _ => Ok (subs1 v1 (Cst 1) a)
               end
           end
       | _ => Err AttributeError
       end.

Definition foc_of (L : sx) (df : sx) (c : sym) : result sx :=
  match c with
  | SDate b t => diff_through_time ord L b t df
  | _ => Err AttributeError
  end.
Fixpoint all_focs (foc : sym -> result sx) (cs : list sym) : result (list sx) :=
  match cs with
  | [] => Ok []
  | c :: cs' => f <- foc c ;; r <- all_focs foc cs' ;; Ok (f :: r)
  end.

(* solve_optimization, l.688-736, try_simplify=False.  [compute_foc] is the method a subclass may override; it sees the
   block with the multiplier table left by _build_lagrangian.  Returned: the block with system_equations and
   multipliers updated. *)
Definition not_excluded (fl : ntab flags) (ke : nat * eqn) : result bool :=
  match nget (fst ke) fl with Some f => Ok (negb (fl_exclude f)) | None => Err KeyError end.
Fixpoint keep (fl : ntab flags) (d : ntab eqn) : result (list eqn) :=
  match d with
  | [] => Ok []
  | ke :: d' => b <- not_excluded fl ke ;; r <- keep fl d' ;; Ok (if (b : bool) then snd ke :: r else r)
  end.
Definition written (sd : sdict) (e : eqn) : sx := eq_zero (subs_dict sd (lhs e)) (subs_dict sd (rhs e)).

Definition solve_with (compute_foc : block -> sym -> sx -> sx -> result sx) (b : block) : result block :=
  sd <- def_dict (tab (k_defs b)) ;;
  kept <- keep (k_flags b) (tab (k_cons b)) ;;
  let sys0 := map (written sd) (map snd (tab (k_ids b))) ++ map (written sd) kept in
  match k_controls b, k_obj b with
  | None, None => Ok (Block (k_short b) (k_controls b) (k_shocks b) (k_defs b) (k_obj b) (k_cons b) (k_ids b) (k_cal b)
                            (k_mult b) (k_flags b) sys0)
  | Some controls, Some ((obj_idx, obj) :: _) =>
      (* l.717: the list of the table's values, taken before _build_lagrangian runs *)
      let mults := map snd (k_mult b) in
      df <- discount_factor obj ;;
      Lm <- build_lagrangian b ;;
      let (L, mu) := (Lm : sx * ntab (option sym)) in
      match nth_error mults obj_idx with
      | None => Err IndexError
      | Some (Some _) => Err NotImplementedError
      | Some None =>
          let b' := Block (k_short b) (k_controls b) (k_shocks b) (k_defs b) (k_obj b) (k_cons b) (k_ids b) (k_cal b)
                          mu (k_flags b) (sys0 ++ [written sd obj]) in
          focs <- all_focs (fun c => compute_foc b' c L df) controls ;;
          Ok (Block (k_short b) (k_controls b) (k_shocks b) (k_defs b) (k_obj b) (k_cons b) (k_ids b) (k_cal b)
                    mu (k_flags b) (sys0 ++ [written sd obj] ++ focs))
      end
  | _, _ => Err AttributeError
  end.
Definition solve_optimization (b : block) : result block :=
  solve_with (fun _ c L df => foc_of L df c) b.

(* _get_variable_list, l.309-349, as the list before sorting by name (duplicates removed by Python's set) *)
Definition variable_list (b : block) (before : list sym) : result (list sym) :=
  sd <- def_dict (tab (k_defs b)) ;;
  flat <- flatten ord sord sd ;;
  let eqs := map snd (tab (k_obj b)) ++ map snd (tab (k_cons b)) ++ map snd (tab (k_ids b)) in
  let here e := filter time_aware (atoms (subs_dict flat (lhs e)) ++ atoms (subs_dict flat (rhs e))) in
  let found := before ++ map to_ss_sym (flat_map here eqs) in
  let mults := flat_map (fun kv => match snd kv with Some m => [m] | None => [] end) (k_mult b) in
  Ok (filter (fun x => negb (smem (set_date (Some 0%Z) x) (k_shocks b))) (found ++ mults)).

(* _get_param_dict_and_calibrating_equations, l.391-457 *)
Record pdicts := PDicts { p_num : sdict; p_calib : sdict; p_det : sdict; p_dup : list sym }.
Definition has_key {V} (s : sym) (d : list (sym * V)) : bool := smem s (map fst d).
(* _try_substitute_ss_values: [sss] is the analytic steady state, if any.  Keys are compared by name. *)
Definition sym_is_ss (s : sym) : bool := match s with SSs _ => true | _ => false end.
Fixpoint find_all (sss : sdict) (l : list sym) : option sdict :=
  match l with
  | [] => Some []
  | s :: l' => match slookup s sss, find_all sss l' with Some v, Some r => Some ((s, v) :: r) | _, _ => None end
  end.
Definition try_substitute_ss (sss : sdict) (r : sx) (vars : list sym) : result sx :=
  if negb (forallb sym_is_ss vars) then Err ValueError
  else match sss with
       | [] => Err ValueError
       | _ => match find_all sss (ord vars) with Some d => Ok (subs_dict d r) | None => Err ValueError end
       end.
Definition param_step (sss : sdict) (fl : ntab flags) (ke : nat * eqn) (p : pdicts) : result pdicts :=
  let e := snd ke in
  match lhs e with
  | Sy s =>
      let r := rhs e in
      match atoms r with
      | [] =>
          if has_key s (p_num p) then Ok (PDicts (p_num p) (p_calib p) (p_det p) (p_dup p ++ [s]))
          else Ok (PDicts (p_num p ++ [(s, r)]) (p_calib p) (p_det p) (p_dup p))
      | _ =>
          match nget (fst ke) fl with
          | None => Err KeyError
          | Some f =>
              let vars := filter time_aware (eqn_atoms e) in
              if fl_cal f then
                if forallb sym_is_ss vars then
                  if has_key s (p_calib p) then Ok (PDicts (p_num p) (p_calib p) (p_det p) (p_dup p ++ [s]))
                  else Ok (PDicts (p_num p) (p_calib p ++ [(s, r)]) (p_det p) (p_dup p))
                else Err (GEconError 23)
              else
                r' <- (match vars with [] => Ok r | _ => try_substitute_ss sss r vars end) ;;
                if existsb time_aware (atoms r') then Err ValueError
                else if has_key s (p_det p) then Ok (PDicts (p_num p) (p_calib p) (p_det p) (p_dup p ++ [s]))
                else Ok (PDicts (p_num p) (p_calib p) (p_det p ++ [(s, r')]) (p_dup p))
          end
      end
  | _ => Err ValueError
  end.
Fixpoint param_loop (sss : sdict) (fl : ntab flags) (d : ntab eqn) (p : pdicts) : result pdicts :=
  match d with
  | [] => Ok p
  | ke :: d' => p' <- param_step sss fl ke p ;; param_loop sss fl d' p'
  end.
Definition param_dicts (sss : sdict) (b : block) : result pdicts :=
  p <- param_loop sss (k_flags b) (tab (k_cal b)) (PDicts [] [] [] []) ;;
  match p_dup p with [] => Ok p | _ => Err (GEconError 24) end.
End Orders.
