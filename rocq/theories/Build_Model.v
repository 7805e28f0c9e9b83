(* Models of
     gEconpy/parser/loader.py: _block_dict_to_param_dict l.118-137, _block_dict_to_variables_and_shocks l.140-161,
       _create_shock_distribution l.44-104 and the distribution loop of ast_model_to_primitives l.422-446
     gEconpy/model/build.py: split_out_hyper_params l.46-84, check_for_orphan_params l.100-131, check_for_extra_params
       l.134-175, validate_results l.204-258, _resolve_deterministic_params l.286-325, _split_distributions l.328-358,
       the parameter part of _compile_gcn l.361-
     gEconpy/model/parameters.py: compile_param_dict_func, and gEconpy/model/model.py: Model.parameters l.738-769
     gEconpy/model/timing.py: natural_sort_key l.11-27, classify_variables_by_timing l.46-94,
       make_all_variable_time_combinations l.97-128.
   Simplifications:
   - SymbolDictionaries are values: insertion-ordered association lists with symbol keys (their sharing behaviour is the
     subject of SymDict_Model); one set of assumptions per name, so a symbol is its name and date;
   - a numeric parameter value is a constant expression; f_params evaluates expressions exactly ([ev] in any algebra);
   - isdigit/\d on ASCII digits;
   - errors: GEconError 40 DuplicateParameterError, 41 OrphanParameterError, 42 ExtraParameterError,
     43 ModelUnknownParameterError. *)
From Verif Require Import Common Sym_Model Sym_Spec SymDict_Model Sort_Lib.
Local Open Scope list_scope.

Definition par_name (s : sym) : chars := match s with SPar n => n | SDate b _ | SSs b => b end.
Definition by_name {V} (a b : sym * V) : bool := chars_leb (par_name (fst a)) (par_name (fst b)).

(* ---- _block_dict_to_param_dict: one dictionary per block ---- *)
Definition merge_step (st : sdict * list sym) (d : sdict) : sdict * list sym :=
  (dupd sym_eqb (fst st) d, snd st ++ filter (fun k => smem k (map fst (fst st))) (map fst d)).
Definition merge_params (ds : list sdict) : result sdict :=
  let (d, dups) := fold_left merge_step ds ([], []) in
  match dups with [] => Ok (isort by_name d) | _ => Err (GEconError 40) end.

(* ---- split_out_hyper_params ---- *)
Definition ddel {V} (k : sym) (d : list (sym * V)) : list (sym * V) := filter (fun kv => negb (sym_eqb k (fst kv))) d.
Definition hyper_step {V} (params : list (sym * V)) (st : list (sym * V) * list (sym * V)) (p : sym) :=
  match dget sym_eqb p (fst st), dget sym_eqb p params with
  | Some _, Some v => (ddel p (fst st), dset sym_eqb p v (snd st))
  | _, _ => st
  end.
Definition split_out_hyper {V} (params : list (sym * V)) (hyper_names : list sym) : list (sym * V) * list (sym * V) :=
  fold_left (hyper_step params) hyper_names (params, []).

(* ---- _resolve_deterministic_params.  [eqs]: equations, [rels]: sp.Eq(var, value) of the steady-state block ---- *)
Definition rel_atoms (r : sx * sx) : list sym := atoms (fst r) ++ atoms (snd r).
Definition used_in (eqs : list sx) (rels : list (sx * sx)) (p : sym) : bool :=
  (existsb (fun e => smem p (atoms e)) eqs || existsb (fun r => smem p (rel_atoms r)) rels)%bool.
Section O.
Variables ord sord : set_order.
Definition resolve_deterministic (det : sdict) (eqs : list sx) (rels : list (sx * sx)) : result (sdict * list sym) :=
  flat <- flatten ord sord det ;;
  let det' := map (fun kv => (fst kv, match slookup (fst kv) flat with Some v => v | None => snd kv end)) det in
  Ok (filter (fun kv => used_in eqs rels (fst kv)) det', filter (fun p => negb (used_in eqs rels p)) (map fst det')).

(* ---- check_for_orphan_params, check_for_extra_params on the joint dictionary ---- *)
Definition is_par (s : sym) : bool := negb (time_aware s).
Definition orphans (eqs : list sx) (rels : list (sx * sx)) (joint : sdict) : list sym :=
  filter (fun s => (is_par s && negb (smem s (map fst joint)) && negb (existsb (fun kv => smem s (atoms (snd kv))) joint))%bool)
         (flat_map atoms eqs ++ flat_map rel_atoms rels).
Definition extras (eqs : list sx) (rels : list (sx * sx)) (joint : sdict) (dist_atoms : list sym) : list sym :=
  filter (fun p => negb (smem p (flat_map atoms eqs ++ flat_map rel_atoms rels ++ flat_map (fun kv => atoms (snd kv)) joint ++ dist_atoms)))
         (map fst joint).
Inductive on_unused := URaise | UWarn | UIgnore.
Definition validate_results (eqs : list sx) (rels : list (sx * sx)) (param calib det : sdict) (mode : on_unused) (dist_atoms : list sym)
  : result unit :=
  let joint := dupd sym_eqb (dupd sym_eqb param calib) det in
  match orphans eqs rels joint with
  | _ :: _ => Err (GEconError 41)
  | [] => match extras eqs rels joint dist_atoms, mode with
          | _ :: _, URaise => Err (GEconError 42)
          | _, _ => Ok tt
          end
  end.

(* ---- the parameter part of _compile_gcn: dictionaries of each kind per block ---- *)
Record params := Params { pr_free : sdict; pr_hyper : sdict; pr_det : sdict; pr_calib : sdict }.
Definition build_params (frees calibs dets : list sdict) (hyper_names : list sym) (eqs : list sx) (rels : list (sx * sx))
  (mode : on_unused) (dist_atoms : list sym) : result params :=
  free0 <- merge_params frees ;;
  calib <- merge_params calibs ;;
  det0 <- merge_params dets ;;
  let (free, hyper) := split_out_hyper free0 hyper_names in
  dr <- resolve_deterministic det0 eqs rels ;;
  let det := fst (dr : sdict * list sym) in
  _ <- validate_results eqs rels free calib det mode dist_atoms ;;
  Ok (Params free hyper det calib).
End O.

(* ---- Model.parameters ---- *)
Section P.
Context {V : Type} (A : alg V).
Definition env_of (d : list (sym * V)) (s : sym) : V := match dget sym_eqb s d with Some v => v | None => a_cst V A 0 end.
(* compile_param_dict_func: inputs are the free parameters; an expression over anything else cannot be compiled *)
Definition compile_params (free : list (sym * V)) (det : sdict) : result (list (sym * V) -> list (sym * V)) :=
  if forallb (fun kv => forallb (fun s => smem s (map fst free)) (atoms (snd kv))) det then
    Ok (fun given => let env := env_of given in
                     map (fun kv => (fst kv, env (fst kv))) free ++ map (fun kv => (fst kv, ev A env (snd kv))) det)
  else Err (GEconError 44).
Definition parameters (defaults : list (sym * V)) (det : sdict) (f : list (sym * V) -> list (sym * V)) (updates : list (sym * V))
  : result (list (sym * V)) :=
  let updates := filter (fun kv => negb (smem (fst kv) (map fst det))) updates in
  match filter (fun kv => negb (smem (fst kv) (map fst defaults))) updates with
  | _ :: _ => Err (GEconError 43)
  | [] => Ok (f (dupd sym_eqb defaults updates))
  end.
End P.

(* ---- distributions ---- *)
(* One kwarg of a shock distribution: a number or the name of a parameter. *)
Inductive kwarg := KNum (z : Z) | KRef (n : chars).
Record shock_item := ShockItem { si_name : chars; si_kwargs : list (chars * kwarg) }.
(* the priors declared in a block's calibration (name, prior) and its shock distributions *)
Record dist_block (D : Type) := DistBlock { db_priors : list (chars * D); db_shocks : list shock_item }.
Arguments DistBlock {D} _ _. Arguments db_priors {D} _. Arguments db_shocks {D} _.
Section D.
Context {D : Type}.
(* CompositeDistribution: for each kwarg that refers to a hyper-parameter, its name and its prior if known *)
Definition composite := list (chars * chars * option D).
(* _create_shock_distribution, for dist_name = "Normal" *)
Definition create_shock (item : shock_item) (known : list (chars * D)) : option composite :=
  match flat_map (fun kw => match snd kw with KRef h => [(fst kw, h, dget chars_eqb h known)] | KNum _ => [] end) (si_kwargs item) with
  | [] => None
  | l => Some l
  end.
Definition dist_step (st : list (chars * D) * list (chars * composite)) (b : dist_block D) :=
  let known := dupd chars_eqb (fst st) (db_priors b) in
  (known, fold_left (fun acc item => match create_shock item known with Some c => dset chars_eqb (si_name item) c acc | None => acc end)
                    (db_shocks b) (snd st)).
Definition collect_distributions (bs : list (dist_block D)) : list (chars * D) * list (chars * composite) :=
  fold_left dist_step bs ([], []).
(* _split_distributions: (parameter priors, shock priors) *)
Definition split_distributions (dists : list (chars * D)) (shock_dists : list (chars * composite)) (shock_names : list chars)
  : list (chars * D) * list (chars * composite) :=
  let hyper := flat_map (fun sc => map (fun khd => snd (fst khd)) (snd sc)) shock_dists in
  (filter (fun nd => negb (existsb (chars_eqb (fst nd)) shock_names) && negb (existsb (chars_eqb (fst nd)) hyper))%bool dists, shock_dists).
End D.

(* ---- variables and shocks ---- *)
Definition at0 (s : sym) : sym := match s with SDate b _ | SSs b => SDate b 0 | SPar n => SPar n end.
(* x.name of a symbol at date 0 *)
Definition name0 (s : sym) : chars := match s with SDate b _ | SSs b => b ++ str "_t" | SPar n => n end.
Definition name_leb (a b : sym) : bool := chars_leb (name0 a) (name0 b).
(* blocks' variable and shock lists; a Python set is a duplicate-free list in some order [ord] *)
Definition variables_and_shocks (ord : set_order) (vars shocks : list (list sym)) : list sym * list sym :=
  let sh := isort name_leb (ord (map at0 (concat shocks))) in
  (isort name_leb (ord (filter (fun x => negb (smem x sh)) (map at0 (concat vars)))), sh).

(* natural_sort_key: re.split(r"(\d+)", name) alternates text (possibly empty) and maximal runs of digits, starting and
   ending with text.  [groups] gives the first text and the (digits, text) pairs that follow. *)
Definition group_step (c : ascii) (g : chars * list (chars * chars)) : chars * list (chars * chars) :=
  if is_digit c then
    match g with
    | ([], (d, t) :: r) => ([], (c :: d, t) :: r)
    | (t, r) => ([], ([c], t) :: r)
    end
  else (c :: fst g, snd g).
Definition groups (s : chars) : chars * list (chars * chars) := fold_right group_step ([], []) s.
Definition to_number (d : chars) : N := match undec d with Some n => n | None => 0 end.
Inductive part := PText (t : chars) | PNum (n : N).
Definition natural_key (s : chars) : list part :=
  PText (fst (groups s)) :: flat_map (fun dt => [PNum (to_number (fst dt)); PText (snd dt)]) (snd (groups s)).
(* Python's a <= b on such lists: the first difference decides, a proper prefix is smaller; comparing an int with a str
   raises TypeError. *)
Definition part_eqb (x y : part) : bool :=
  match x, y with PText t, PText u => chars_eqb t u | PNum n, PNum m => N.eqb n m | _, _ => false end.
Fixpoint py_leb (a b : list part) : result bool :=
  match a, b with
  | [], _ => Ok true
  | _ :: _, [] => Ok false
  | x :: a', y :: b' =>
      if part_eqb x y then py_leb a' b'
      else match x, y with PText t, PText u => Ok (chars_leb t u) | PNum n, PNum m => Ok (N.leb n m) | _, _ => Err TypeError end
  end.
(* the order sorted(..., key=natural_sort_key) uses; that the comparison never raises is C51 *)
Definition nat_leb (a b : sym) : bool :=
  match py_leb (natural_key (par_name a)) (natural_key (par_name b)) with Ok r => r | Err _ => false end.
(* build.py l.446-447: variables = sorted(variables, key=natural_sort_key) *)
Definition model_order (l : list sym) : list sym := isort nat_leb l.

(* make_all_variable_time_combinations *)
Definition dedup (l : list sym) : list sym := fold_left (fun acc x => if smem x acc then acc else acc ++ [x]) l [].
Definition all_time_combinations (vars : list sym) : list sym * list sym * list sym :=
  let now := dedup (map at0 vars) in
  (map (fun s => match s with SDate b t => SDate b (t - 1) | _ => s end) now, now,
   map (fun s => match s with SDate b t => SDate b (t + 1) | _ => s end) now).
(* classify_variables_by_timing; a set is a list without duplicates in the order [ord] *)
Definition classify (ord : set_order) (eqs : list sx) (shock_names : list chars)
  : result (list sym * list sym * list sym * list sym) :=
  let all := ord (filter time_aware (flat_map atoms eqs)) in
  let near s := match s with SDate _ t => (Z.eqb t (-1) || Z.eqb t 0 || Z.eqb t 1)%bool | _ => false end in
  if forallb near all then
    let is_shock s := existsb (chars_eqb (par_name s)) shock_names in
    let at_time t := isort nat_leb (filter (fun s => negb (is_shock s) && match s with SDate _ t' => Z.eqb t' t | _ => false end)%bool all) in
    Ok (at_time (-1)%Z, at_time 0%Z, at_time 1%Z, isort nat_leb (filter is_shock all))
  else Err ValueError.
