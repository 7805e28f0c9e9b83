(* Perfect-foresight simulation.
     gEconpy/model/perfect_foresight/assemble.py: assemble_stacked_jacobian l.8-77;
     gEconpy/model/perfect_foresight/compile.py: _substitute_steady_state_values l.21-66, _build_jacobian_var_lists l.69-79,
       _build_vector_replacements l.82-102, _compile_single_period_function l.105-190,
       _compile_single_period_residual_function l.193-255, compile_perfect_foresight_problem l.280-297;
     gEconpy/model/perfect_foresight/solve.py l.23-493; gEconpy/model/perfect_foresight/validation.py l.4-63.
   Simplifications:
   - floating-point numbers are real numbers; NaN exists only in an initial guess (missing columns);
   - compiled pytensor functions are evaluation of the symbolic expressions; the CSE pass and rewrites on the Jacobian are one
     parameter [simp] (see Lin_Model); pytensor's MissingInputError is reported as RuntimeError;
   - the steady-state solver and the root solver are parameters; set iteration order is a parameter [ord];
   - periods, starts and lengths are natural numbers; keyword arguments of the compilation are left out. *)
From Verif Require Import Common Sort_Lib SymDict_Model Sym_Model Sym_Spec Build_Model Lin_Model.
From Coq Require Import Reals.
Local Open Scope list_scope.

(* ---------- Python dicts with string keys: insertion order, keys pairwise different ---------- *)
Definition dict (A : Type) := list (chars * A).
Definition dlook {A} (k : chars) (d : dict A) : option A :=
  match find (fun kv => chars_eqb k (fst kv)) d with Some kv => Some (snd kv) | None => None end.
Fixpoint dset {A} (k : chars) (v : A) (d : dict A) : dict A :=
  match d with
  | [] => [(k, v)]
  | (k', v') :: d' => if chars_eqb k k' then (k', v) :: d' else (k', v') :: dset k v d'
  end.
Definition from_pairs {A} (l : list (chars * A)) : dict A := fold_left (fun d kv => dset (fst kv) (snd kv) d) l [].
Definition has_key {A} (d : dict A) (k : chars) : bool := existsb (fun kv => chars_eqb k (fst kv)) d.
(* list.index: the position of the first occurrence, ValueError if there is none *)
Fixpoint index_of {A} (eqb : A -> A -> bool) (x : A) (l : list A) : option nat :=
  match l with
  | [] => None
  | y :: l' => if eqb x y then Some 0 else match index_of eqb x l' with Some i => Some (S i) | None => None end
  end.
Definition position := index_of chars_eqb.

(* ---------- assemble.py ---------- *)
Definition isnz (x : R) : bool := if Req_EM_T x 0 then false else true.
(* np.nonzero(J[:, lo:lo+n]): row-major positions of the entries that are not zero *)
Definition nonzeros (J : matrix R) (lo n : nat) : list (nat * nat) :=
  flat_map (fun ir => flat_map (fun jx => if isnz (snd jx) then [(fst ir, fst jx)] else [])
                               (combine (seq 0 n) (firstn n (skipn lo (snd ir)))))
           (combine (seq 0 (length J)) J).
(* J[r, lo + c] for every position *)
Definition at_pos (J : matrix R) (lo : nat) (p : nat * nat) : result R :=
  match nth_error J (fst p) with
  | None => Err IndexError
  | Some row => match nth_error row (lo + snd p) with Some x => Ok x | None => Err IndexError end
  end.
Definition triple : Type := nat * nat * R.
(* the three arrays rows, cols, data of length total_nnz; None is an element np.empty left uninitialised *)
Definition buffer := list (option triple).
(* buf[pos : pos + len vals] = vals; numpy raises ValueError when the (clipped) slice is shorter, unless one value is
   broadcast into it *)
Definition write (buf : buffer) (pos : nat) (vals : list triple) : result buffer :=
  if Nat.leb (pos + length vals) (length buf)
  then Ok (firstn pos buf ++ map Some vals ++ skipn (pos + length vals) buf)
  else if Nat.eqb (length vals) 1 then Ok buf
  else Err ValueError.
Definition block (J : matrix R) (lo row_offset col_offset : nat) (pattern : list (nat * nat)) : result (list triple) :=
  mapM (fun p => x <- at_pos J lo p ;; Ok (row_offset + fst p, col_offset + snd p, x)) pattern.
(* one pass of the loop l.49-75 *)
Definition fill_period (T n_vars n_eq : nat) (p_tm1 p_t p_tp1 : list (nat * nat)) (t : nat) (J : matrix R)
    (st : buffer * nat) : result (buffer * nat) :=
  let row_offset := t * n_eq in
  st <- (if Nat.ltb 0 t then
           b <- block J 0 row_offset ((t - 1) * n_vars) p_tm1 ;;
           buf <- write (fst st) (snd st) b ;; Ok (buf, snd st + length p_tm1)
         else Ok st) ;;
  b <- block J n_vars row_offset (t * n_vars) p_t ;;
  buf <- write (fst st) (snd st) b ;;
  let st := (buf, snd st + length p_t) in
  if Nat.ltb t (T - 1) then
    b <- block J (2 * n_vars) row_offset ((t + 1) * n_vars) p_tp1 ;;
    buf <- write (fst st) (snd st) b ;; Ok (buf, snd st + length p_tp1)
  else Ok st.
Fixpoint fill_all (T n_vars n_eq : nat) (p_tm1 p_t p_tp1 : list (nat * nat)) (t : nat) (Js : list (matrix R))
    (st : buffer * nat) : result (buffer * nat) :=
  match Js with
  | [] => Ok st
  | J :: Js' => st <- fill_period T n_vars n_eq p_tm1 p_t p_tp1 t J st ;; fill_all T n_vars n_eq p_tm1 p_t p_tp1 (S t) Js' st
  end.
(* scipy.sparse.csc_matrix((data, (rows, cols)), shape): entries at one position are added up *)
Record sparse := Sparse { s_rows : nat; s_cols : nat; s_data : buffer }.
Definition s_entry (M : sparse) (i j : nat) : R :=
  fold_right (fun o acc => match o with
                           | Some (r, c, x) => if (Nat.eqb r i && Nat.eqb c j)%bool then (x + acc)%R else acc
                           | None => acc
                           end) 0%R (s_data M).
Definition assemble (Js : list (matrix R)) (n_vars n_eq T : nat) : result sparse :=
  match Js with
  | [] => Err IndexError                                  (* period_jacobians[0] *)
  | J0 :: _ =>
      let p_tm1 := nonzeros J0 0 n_vars in
      let p_t := nonzeros J0 n_vars n_vars in
      let p_tp1 := nonzeros J0 (2 * n_vars) n_vars in
      let total := T * length p_t + (T - 1) * length p_tm1 + (T - 1) * length p_tp1 in
      st <- fill_all T n_vars n_eq p_tm1 p_t p_tp1 0 Js (repeat None total, 0) ;;
      Ok (Sparse (T * n_eq) (T * n_vars) (fst st))
  end.

(* ---------- compile.py ---------- *)
Record pf_model := PM {
  p_eqs : list sx; p_shocks : list chars;
  p_params : list chars;                       (* model.params + model.deterministic_params *)
  p_ss : sdict;                                (* model._ss_solution_dict *)
  p_defaults : dict R -> dict R }.             (* model.parameters(updates) *)
Record problem := PP { q_eqs : list sx; q_vars : list chars; q_shocks : list sym; q_params : list chars }.

Definition ss_atoms (eqs : list sx) : list sym := filter is_ss (flat_map atoms eqs).
(* the first key of the dictionary whose steady-state name is the name of the atom, l.50-55 *)
Definition ss_value (d : sdict) (a : sym) : option sx :=
  match find (fun kv => chars_eqb (node_name (to_ss_sym (fst kv))) (node_name a)) d with Some kv => Some (snd kv) | None => None end.
Definition ss_subs (d : sdict) (atoms : list sym) : sdict :=
  flat_map (fun a => match ss_value d a with Some v => [(a, v)] | None => [] end) atoms.
Definition substitute_ss (ord : set_order) (eqs : list sx) (d : sdict) : result (list sx) :=
  let ats := ord (ss_atoms eqs) in
  match ats with
  | [] => Ok eqs
  | _ => if forallb (fun a => match ss_value d a with Some _ => true | None => false end) ats
         then Ok (map (subs_seq (ss_subs d ats)) eqs)
         else Err ValueError
  end.
Definition bound (vars : list chars) (shocks : list sym) (params : list chars) (s : sym) : bool :=
  match s with
  | SPar n => existsb (chars_eqb n) params
  | SDate b _ => (smem s shocks || existsb (chars_eqb b) vars)%bool
  | SSs _ => false
  end.
(* _compile_single_period_function and _compile_single_period_residual_function up to the outputs *)
Definition compile (ord : set_order) (m : pf_model) : result problem :=
  eqs <- substitute_ss ord (p_eqs m) (p_ss m) ;;
  tm <- classify ord eqs (p_shocks m) ;;
  let '(vars_tm1, vars_t, vars_tp1, shocks_t) := tm in
  let written := flat_map atoms eqs in
  let params := filter (fun p => smem (SPar p) written) (p_params m) in
  let vars := map par_name vars_t in
  if forallb (bound vars shocks_t params) written
  then Ok (PP eqs vars shocks_t params)
  else Err RuntimeError.                       (* pytensor.function: MissingInputError *)

Section Evaluate.
Variable G : smooth.
Variable simp : sx -> sx.
(* the scalar inputs replaced by vector elements, _build_vector_replacements l.82-102 *)
Definition period_env (P : problem) (y_tm1 y_t y_tp1 x params : list R) (s : sym) : R :=
  match s with
  | SPar n => match position n (q_params P) with Some i => nth i params 0%R | None => 0%R end
  | SSs _ => 0%R
  | SDate b k =>
      match index_of sym_eqb s (q_shocks P) with
      | Some i => nth i x 0%R
      | None =>
          match position b (q_vars P) with
          | Some j => nth j (if Z.eqb k (-1) then y_tm1 else if Z.eqb k 0 then y_t else y_tp1) 0%R
          | None => 0%R
          end
      end
  end.
Definition wrt (P : problem) : list sym :=
  map (fun v => SDate v (-1)) (q_vars P) ++ map (fun v => SDate v 0) (q_vars P) ++ map (fun v => SDate v 1) (q_vars P).
Definition f_residual (P : problem) (y_tm1 y_t y_tp1 x params : list R) : list R :=
  map (ev (Ralg G) (period_env P y_tm1 y_t y_tp1 x params)) (q_eqs P).
Definition f_jacobian (P : problem) (y_tm1 y_t y_tp1 x params : list R) : matrix R :=
  map (fun eq => map (fun v => ev (Ralg G) (period_env P y_tm1 y_t y_tp1 x params) (simp (diff v eq))) (wrt P)) (q_eqs P).

(* ---------- solve.py ---------- *)
(* _evaluate_periods l.88-118 *)
Definition evaluate_periods {A} (f : list R -> list R -> list R -> list R -> list R -> A)
    (y y_initial y_terminal : list R) (x params : matrix R) (n T : nat) : result (list A) :=
  if Nat.eqb (length y) (T * n) then                       (* y.reshape(T, n_vars) *)
    let row t := firstn n (skipn (t * n) y) in
    Ok (map (fun t => f (if Nat.eqb t 0 then y_initial else row (t - 1)) (row t)
                        (if Nat.eqb t (T - 1) then y_terminal else row (t + 1)) (nth t x []) (nth t params [])) (seq 0 T))
  else Err ValueError.
(* residuals[t * n_eq : (t + 1) * n_eq] = r *)
Definition put (n : nat) (r : list R) : result (list R) :=
  if Nat.eqb (length r) n then Ok r
  else if Nat.eqb (length r) 1 then Ok (repeat (nth 0 r 0%R) n)
  else Err ValueError.
Definition stacked_residuals (P : problem) (T : nat) (y_initial y_terminal : list R) (x params : matrix R) (y : list R)
  : result (list R) :=
  rs <- evaluate_periods (f_residual P) y y_initial y_terminal x params (length (q_vars P)) T ;;
  blocks <- mapM (put (length (q_vars P))) rs ;;
  Ok (concat blocks).
Definition stacked_system (P : problem) (T : nat) (y_initial y_terminal : list R) (x params : matrix R) (y : list R)
  : result (list R * sparse) :=
  let n := length (q_vars P) in
  rjs <- evaluate_periods (fun a b c d e => (f_residual P a b c d e, f_jacobian P a b c d e)) y y_initial y_terminal x params n T ;;
  blocks <- mapM (fun rj => put n (fst rj)) rjs ;;
  J <- assemble (map snd rjs) n n T ;;
  Ok (concat blocks, J).

(* _normalize_condition_keys l.173-178 *)
Definition normalize (d : dict R) : dict R := from_pairs (map (fun kv => (removesuffix (fst kv), snd kv)) d).
(* _ss_dict_to_array l.181-183 *)
Definition ss_array (d : dict R) (names : list chars) : list R :=
  map (fun n : chars => match dlook (n ++ suffix_ss) d with
                | Some x => x
                | None => match dlook n d with Some x => x | None => 1%R end
                end) names.

(* _build_shock_matrix l.23-52 *)
Definition shock_column (shocks : dict (list R)) (T : nat) (name : chars) : result (list R) :=
  match dlook name shocks with
  | None => Ok (repeat 0%R T)
  | Some p => if Nat.leb (length p) T then Ok (p ++ repeat 0%R (T - length p)) else Err ValueError
  end.
Definition by_period (T : nat) (cols : list (list R)) : matrix R := map (fun t => map (fun c => nth t c 0%R) cols) (seq 0 T).
Definition build_shock_matrix (shocks : dict (list R)) (names : list chars) (T : nat) : result (matrix R) :=
  cols <- mapM (shock_column shocks T) names ;; Ok (by_period T cols).

(* a value of param_paths: a number, a numpy array, or another sequence such as a list *)
Inductive path := Number (x : R) | Array (l : list R) | Sequence (l : list R).
(* param_matrix[:, idx] = value *)
Definition as_column (T : nat) (v : path) : result (list R) :=
  match v with
  | Number x => Ok (repeat x T)
  | Array l | Sequence l =>
      if Nat.eqb (length l) T then Ok l
      else if Nat.eqb (length l) 1 then Ok (repeat (nth 0 l 0%R) T)
      else Err ValueError
  end.
Fixpoint set_nth {A} (i : nat) (x : A) (l : list A) : list A :=
  match l, i with
  | [], _ => []
  | _ :: l', O => x :: l'
  | y :: l', S i' => y :: set_nth i' x l'
  end.
(* _build_param_matrix l.55-85 *)
Fixpoint set_paths (T : nat) (names : list chars) (paths : dict path) (cols : list (list R)) : result (list (list R)) :=
  match paths with
  | [] => Ok cols
  | (k, v) :: paths' =>
      match position k names with
      | None => Err ValueError
      | Some i => c <- as_column T v ;; set_paths T names paths' (set_nth i c cols)
      end
  end.
Definition build_param_matrix (paths : dict path) (names : list chars) (defaults : dict R) (T : nat) : result (matrix R) :=
  d <- mapM (fun n => match dlook n defaults with Some x => Ok x | None => Err KeyError end) names ;;
  cols <- set_paths T names paths (map (fun x => repeat x T) d) ;;
  Ok (by_period T cols).

(* _extract_boundary_param_kwargs l.259-281 *)
Definition boundary_values (kv : chars * path) : result (chars * R * R) :=
  match snd kv with
  | Number x => Ok (fst kv, x, x)
  | Array [] => Err IndexError
  | Array (x :: l) => Ok (fst kv, x, last (x :: l) 0%R)
  | Sequence _ => Err TypeError
  end.
Definition boundary_kwargs (paths : dict path) : result (dict R * dict R) :=
  l <- mapM boundary_values paths ;;
  Ok (map (fun v => (fst (fst v), snd (fst v))) l, map (fun v => (fst (fst v), snd v)) l).
Definition same_values (a b : dict R) : bool :=            (* dicts with the same keys in the same order *)
  forallb (fun xy => if Req_EM_T (snd (fst xy)) (snd (snd xy)) then true else false) (combine a b).

Inductive guess :=
| No_guess
| Steady (d : dict R)
| Frame (columns : list chars) (rows : list (list R))
| Matrix (rows : list (list R)) (n_cols : nat).
Record pf_args := PA {
  g_length : nat; g_guess : guess; g_initial : dict R; g_terminal : dict R;
  g_shocks : dict (list R); g_paths : dict path;
  g_updates : dict R }.                        (* parameter updates inside steady_state_kwargs *)

(* validation.py *)
Definition validate (a : pf_args) (initial terminal : dict R) (P : problem) : result unit :=
  let known (names : list chars) (k : chars) := existsb (chars_eqb k) names in
  if negb (forallb (fun kv => known (q_vars P) (fst kv)) initial) then Err ValueError
  else if negb (forallb (fun kv => known (q_vars P) (fst kv)) terminal) then Err ValueError
  else if negb (forallb (fun kv => known (map par_name (q_shocks P)) (fst kv)) (g_shocks a)) then Err ValueError
  else if negb (forallb (fun kv => Nat.eqb (length (snd kv)) (g_length a)) (g_shocks a)) then Err ValueError
  else if negb (forallb (fun kv => known (q_params P) (fst kv)) (g_paths a)) then Err ValueError
  else if negb (forallb (fun kv => match snd kv with Array l => Nat.eqb (length l) (g_length a) | _ => true end) (g_paths a))
       then Err ValueError
  else Ok tt.

(* the values of one boundary, l.441-455 *)
Fixpoint overwrite (names : list chars) (conds : dict R) (vals : list R) : result (list R) :=
  match conds with
  | [] => Ok vals
  | (k, x) :: conds' =>
      match position k names with
      | None => Err ValueError
      | Some i => overwrite names conds' (set_nth i x vals)
      end
  end.
Definition covers (names : list chars) (conds : dict R) : bool := forallb (has_key conds) names.
Definition boundary (names : list chars) (conds : dict R) (ss : option (dict R)) : result (list R) :=
  if covers names conds
  then mapM (fun n => match dlook n conds with Some x => Ok x | None => Err KeyError end) names
  else match ss with
       | None => Err AttributeError
       | Some d => overwrite names conds (ss_array d names)
       end.

Section Solve.
Variable steady_state : dict R -> result (dict R).         (* model.steady_state(keyword updates) *)
(* model.steady_state of the user's keyword arguments and the extra ones: a key given twice is a TypeError *)
Definition compute_ss (a : pf_args) (extra : dict R) : result (dict R) :=
  if existsb (fun kv => has_key (g_updates a) (fst kv)) extra then Err TypeError
  else steady_state (g_updates a ++ extra).
Definition tile {A} (T : nat) (l : list A) : list A := concat (repeat l T).
(* x0.reindex(columns=var_names): None is NaN; ValueError when the columns are not unique *)
Definition reindex (columns : list chars) (rows : list (list R)) (names : list chars) : result (list (list (option R))) :=
  if (fix unique l := match l with [] => true | c :: l' => negb (existsb (chars_eqb c) l') && unique l' end) columns
  then Ok (map (fun row => map (fun n => match position n columns with Some i => nth_error row i | None => None end) names) rows)
  else Err ValueError.
Definition ss_if_needed (a : pf_args) (need_i need_t : bool) (ik tk : dict R) : result (option (dict R) * option (dict R)) :=
  iss <- (if need_i then d <- compute_ss a ik ;; Ok (Some d) else Ok None) ;;
  tss <- (if need_t
          then match iss with
               | Some d => if same_values tk ik then Ok (Some d) else d <- compute_ss a tk ;; Ok (Some d)
               | None => d <- compute_ss a tk ;; Ok (Some d)
               end
          else Ok None) ;;
  Ok (iss, tss).
Record prepared := PR {
  r_problem : problem; r_initial : list R; r_terminal : list R; r_shocks : matrix R; r_params : matrix R;
  r_guess : list (option R) }.
(* solve_perfect_foresight l.374-462 *)
Definition prepare (ord : set_order) (m : pf_model) (a : pf_args) : result prepared :=
  let T := g_length a in
  let initial := normalize (g_initial a) in
  let terminal := normalize (g_terminal a) in
  P <- compile ord m ;;
  let names := q_vars P in
  ks <- boundary_kwargs (g_paths a) ;;
  let '(ik, tk) := ks in
  let need_i := negb (covers names initial) in
  let need_t := negb (covers names terminal) in
  start <- match g_guess a with
           | Steady d => Ok (map Some (tile T (ss_array d names)), Some d, Some d)
           | Frame columns rows =>
               if Nat.eqb (length rows) T
               then v <- reindex columns rows names ;;
                    sss <- ss_if_needed a need_i need_t ik tk ;; Ok (concat v, fst sss, snd sss)
               else Err ValueError
           | Matrix rows n_cols =>
               if (Nat.eqb (length rows) T && Nat.eqb n_cols (length names))%bool
               then sss <- ss_if_needed a need_i need_t ik tk ;; Ok (map Some (concat rows), fst sss, snd sss)
               else Err ValueError
           | No_guess =>
               d <- compute_ss a ik ;;
               d' <- (if same_values tk ik then Ok d else compute_ss a tk) ;;
               Ok (map Some (tile T (ss_array d names)), Some d, Some d')
           end ;;
  let '(guess0, iss, tss) := start in
  u <- validate a initial terminal P ;;
  y_initial <- boundary names initial iss ;;
  y_terminal <- boundary names terminal tss ;;
  x <- build_shock_matrix (g_shocks a) (map par_name (q_shocks P)) T ;;
  params <- build_param_matrix (g_paths a) (q_params P) (p_defaults m []) T ;;
  Ok (PR P y_initial y_terminal x params guess0).

(* sparse_root with whatever solver: from the system and the guess to the vector result.x *)
Variable root : (list R -> result (list R * sparse)) -> list (option R) -> result (list R).
Definition system (r : prepared) (T : nat) : list R -> result (list R * sparse) :=
  stacked_system (r_problem r) T (r_initial r) (r_terminal r) (r_shocks r) (r_params r).
(* the function handed to the line search, l.468-477; it is compiled separately *)
Definition merit (r : prepared) (P' : problem) (T : nat) : list R -> result (list R) :=
  stacked_residuals P' T (r_initial r) (r_terminal r) (r_shocks r) (r_params r).
(* the returned table: column names and rows, and result.x *)
Definition solve_pf (ord : set_order) (m : pf_model) (a : pf_args) : result (list chars * matrix R * list R) :=
  r <- prepare ord m a ;;
  x <- root (system r (g_length a)) (r_guess r) ;;
  let n := length (q_vars (r_problem r)) in
  if Nat.eqb (length x) (g_length a * n)
  then Ok (q_vars (r_problem r), map (fun t => firstn n (skipn (t * n) x)) (seq 0 (g_length a)), x)
  else Err ValueError.
End Solve.
End Evaluate.

(* ---------- make_piecewise_x0 l.198-256 ---------- *)
Definition infer_names (a b : dict R) : list chars :=
  isort chars_leb (nodup (list_eq_dec ascii_dec) (map (fun kv => removesuffix (fst kv)) (a ++ b))).
(* np.linspace(0, 1, n)[k] for n >= 2 *)
Definition weight (n k : nat) : R := (INR k / INR (n - 1))%R.
Definition piecewise_x0 (initial_ss terminal_ss : dict R) (T : nat) (var_names : option (list chars))
    (transition_start : option nat) (transition_periods : nat) : list chars * matrix R :=
  let names := match var_names with Some l => l | None => infer_names initial_ss terminal_ss end in
  let start := match transition_start with Some s => s | None => T / 2 end in
  let init := ss_array initial_ss names in
  let term := ss_array terminal_ss names in
  let stop := Nat.min (start + transition_periods) T in
  let n := stop - start in
  (names,
   map (fun t => if (Nat.leb start t && Nat.ltb t stop)%bool
                 then if Nat.eqb n 1 then term
                      else map2 (fun a b => ((1 - weight n (t - start)) * a + weight n (t - start) * b)%R) init term
                 else if Nat.leb stop t then term else init) (seq 0 T)).
