(* Linearisation.
     gEconpy/model/model.py: DROrder.from_model l.199-252, symbolic_linearization l.1363-1488, linearize_model l.1489-1680,
       forward_variables l.656-681, symbolic_forward_variables l.642-654, lead_var_idx l.694-703;
     gEconpy/model/perturbation.py: linearize_model l.28-196, make_not_loglin_flags l.199-283;
     gEconpy/model/compile.py: build_symbolic_jacobians l.163-222.
   Simplifications:
   - floating-point numbers are real numbers; pytensor graphs are symbolic expressions;
   - sympy's automatic simplification of a derivative, the CSE pass and pytensor rewrites are one parameter [simp],
     about which only value preservation and no new symbols are assumed;
   - variables are given by their base names (symbols at date 0), declared signs by two boolean functions;
   - logging is omitted; the steady-state solver is a parameter. *)
From Verif Require Import Common Sort_Lib Sym_Model Sym_Spec Build_Model.
From Coq Require Import Reals.
Local Open Scope list_scope.

Definition matrix (A : Type) := list (list A).

(* ---------- orders ---------- *)
(* np.where(mask)[0] *)
Fixpoint where_from (i : nat) (mask : list bool) : list nat :=
  match mask with
  | [] => []
  | b :: m => if b then i :: where_from (S i) m else where_from (S i) m
  end.
Definition np_where := where_from 0.
Fixpoint map2 {A B C} (f : A -> B -> C) (l : list A) (m : list B) : list C :=
  match l, m with a :: l', b :: m' => f a b :: map2 f l' m' | _, _ => [] end.
Definition mask_and := map2 andb.
Definition mask_not := map negb.
(* v.set_t(t) in eq.atoms(TimeAwareSymbol) *)
Definition occurs_at (t : Z) (eq : sx) (v : chars) : bool := smem (SDate v t) (atoms eq).
Definition v_lag (vars : list chars) (eqs : list sx) := map (fun v => existsb (fun eq => occurs_at (-1) eq v) eqs) vars.
Definition v_lead (vars : list chars) (eqs : list sx) := map (fun v => existsb (fun eq => occurs_at 1 eq v) eqs) vars.
Definition e_lag (vars : list chars) (eqs : list sx) := map (fun eq => existsb (occurs_at (-1) eq) vars) eqs.
Definition e_lead (vars : list chars) (eqs : list sx) := map (fun eq => existsb (occurs_at 1 eq) vars) eqs.
(* np.argsort: the indices sorted by value (the values are distinct here, so the algorithm does not matter) *)
Definition argsort (l : list nat) : list nat :=
  isort (fun i j => Nat.leb (nth i l 0) (nth j l 0)) (seq 0 (length l)).

Record dr_order := DR {
  var_order : list nat; inv_var_order : list nat; eq_order : list nat; inv_eq_order : list nat;
  n_static_var : nat; n_pred_var : nat; n_mixed_var : nat; n_forward_var : nat;
  n_static_eq : nat; n_lag_eq : nat; n_lead_eq : nat; n_both_eq : nat }.
Definition from_model (vars : list chars) (eqs : list sx) : dr_order :=
  let vl := v_lag vars eqs in
  let vd := v_lead vars eqs in
  let s := np_where (mask_and (mask_not vl) (mask_not vd)) in
  let p := np_where (mask_and vl (mask_not vd)) in
  let m := np_where (mask_and vl vd) in
  let f := np_where (mask_and (mask_not vl) vd) in
  let vo := s ++ p ++ m ++ f in
  let el := e_lag vars eqs in
  let ed := e_lead vars eqs in
  let es := np_where (mask_and (mask_not el) (mask_not ed)) in
  let ela := np_where (mask_and el (mask_not ed)) in
  let ele := np_where (mask_and (mask_not el) ed) in
  let eb := np_where (mask_and el ed) in
  let eo := es ++ ela ++ ele ++ eb in
  DR vo (argsort vo) eo (argsort eo)
     (length s) (length p) (length m) (length f) (length es) (length ela) (length ele) (length eb).

(* [l[i] for i in idx]; M[idx] *)
Fixpoint take {A} (l : list A) (idx : list nat) : result (list A) :=
  match idx with
  | [] => Ok []
  | i :: idx' => match nth_error l i with
                 | None => Err IndexError
                 | Some a => r <- take l idx' ;; Ok (a :: r)
                 end
  end.
Fixpoint mapM {A B} (f : A -> result B) (l : list A) : result (list B) :=
  match l with [] => Ok [] | a :: l' => b <- f a ;; bs <- mapM f l' ;; Ok (b :: bs) end.
(* M[:, idx] *)
Definition take_cols {A} (M : matrix A) (idx : list nat) : result (matrix A) := mapM (fun row => take row idx) M.

(* ---------- build_symbolic_jacobians (to_ss=True) ---------- *)
Section Jac.
Variable ord : set_order.
Variable simp : sx -> sx.
Definition grid (shocks : list sym) (spec : list sx * list sym) : matrix sx :=
  match spec with
  | ([], _) | (_, []) => []
  | (eqs, wrt) => map (fun eq => map (fun v => eq_to_ss ord (diff v eq) shocks) wrt) eqs
  end.
Definition rows_of (flat : list sx) (offset n_wrt n_eq : nat) : matrix sx :=   (* the list comprehension over i, l.219 *)
  map (fun i => firstn n_wrt (skipn (offset + i * n_wrt) flat)) (seq 0 n_eq).
Fixpoint cut (flat : list sx) (offset : nat) (shapes : list (nat * nat)) : list (matrix sx) :=
  match shapes with
  | [] => []
  | (n_eq, n_wrt) :: shapes' =>
      if (Nat.eqb n_eq 0 || Nat.eqb n_wrt 0)%bool
      then repeat (repeat (Cst 0) n_wrt) n_eq :: cut flat offset shapes'
      else rows_of flat offset n_wrt n_eq :: cut flat (offset + n_eq * n_wrt) shapes'
  end.
Definition build_jacobians (specs : list (list sx * list sym)) (shocks : list sym) : list (matrix sx) :=
  let shapes := map (fun s => (length (fst s), length (snd s))) specs in
  let flat := concat (concat (map (grid shocks) specs)) in
  cut (map simp flat) 0 shapes.

(* ---------- perturbation.linearize_model: the four graphs ---------- *)
Definition linearize_graphs (vars shocks : list chars) (eqs : list sx) (eo vo : list nat) : result (list (matrix sx)) :=
  let '(lags, now, leads) := all_time_combinations (map (fun v => SDate v 0) vars) in
  let sh := map (fun s => SDate s 0) shocks in
  eqs' <- take eqs eo ;;
  lags' <- take lags vo ;;
  now' <- take now vo ;;
  leads' <- take leads vo ;;
  Ok (build_jacobians [(eqs', lags'); (eqs', now'); (eqs', leads'); (eqs', sh)] sh).
End Jac.

(* the column scale of variable v, l.172-181.  (The switch is evaluated here; the graph node is the ss symbol or 1.) *)
Definition column_scale (positive negative : chars -> bool) (loglin : list chars) (ssval : chars -> R) (v : chars) : R :=
  if (negb (existsb (chars_eqb v) loglin) || negative v)%bool then 1%R
  else if positive v then ssval v
  else if Rlt_dec 0 (ssval v) then ssval v else 1%R.

(* ---------- make_not_loglin_flags; [true] is the flag 1: not log-linearised ---------- *)
Definition near_zero (x : R) : bool := if Rlt_dec (Rabs x) (1 / 100000000) then true else false.
Definition is_neg (x : R) : bool := if Rlt_dec x 0 then true else false.
(* flags[mask] = 1, executed only if any(mask): numpy raises IndexError when the lengths differ *)
Definition set_mask (flags mask : list bool) : result (list bool) :=
  if existsb (fun b => b) mask
  then if Nat.eqb (length flags) (length mask) then Ok (map2 orb flags mask) else Err IndexError
  else Ok flags.
Definition make_flags (vars calibrated : list chars) (ss : list (chars * R)) (log_linearize : bool)
    (not_loglin : list chars) (loglin_negative_ss : bool) : result (list bool) :=
  if negb log_linearize then Ok (repeat true (length vars))
  else
    let names := vars ++ calibrated in
    if existsb (fun n => negb (existsb (chars_eqb n) names)) not_loglin then Err ValueError
    else
      let flags := map (fun n => existsb (chars_eqb n) not_loglin) names in
      flags <- set_mask flags (map (fun kv => near_zero (snd kv)) ss) ;;
      if loglin_negative_ss then Ok flags else set_mask flags (map (fun kv => is_neg (snd kv)) ss).
(* symbolic_linearization l.1457 *)
Definition loglin_vars (vars : list chars) (flags : list bool) : list chars :=
  map fst (filter (fun vf => negb (snd vf)) (combine vars flags)).

(* ---------- Model.linearize_model ---------- *)
Record lmodel := LM {
  l_vars : list chars; l_shocks : list chars; l_calibrated : list chars; l_eqs : list sx;
  l_positive : chars -> bool; l_negative : chars -> bool;
  l_linear : bool;
  l_has_ss : bool }.                     (* some analytic steady-state value is known: f_ss is not None *)
Definition suffix_ss : chars := str "_ss".
Definition removesuffix (n : chars) : chars :=
  let k := (length n - 3)%nat in
  if (Nat.leb 3 (length n) && chars_eqb (skipn k n) suffix_ss)%bool then firstn k n else n.
Definition rget (n : chars) (d : list (chars * R)) : option R :=
  match find (fun kv => chars_eqb n (fst kv)) d with Some kv => Some (snd kv) | None => None end.
(* the dict comprehension {k.removesuffix("_ss"): v}: the last entry wins *)
Definition strip_keys (ss : list (chars * R)) : list (chars * R) := rev (map (fun kv => (removesuffix (fst kv), snd kv)) ss).
Fixpoint need (d : list (chars * R)) (names : list chars) : result (list R) :=
  match names with
  | [] => Ok []
  | n :: names' => match rget n d with None => Err KeyError | Some x => r <- need d names' ;; Ok (x :: r) end
  end.

Section Lin.
Variable G : smooth.
Variable ord : set_order.
Variable simp : sx -> sx.
(* named graph inputs that are not steady-state variables of the model *)
Definition is_param (m : lmodel) (s : sym) : bool :=
  match s with
  | SPar _ => true
  | SSs b => negb (existsb (chars_eqb b) (l_vars m))
  | SDate _ _ => true
  end.
Definition node_name (s : sym) : chars := match s with SPar n => n | SSs b => b ++ suffix_ss | SDate b _ => b end.
Definition value_at (m : lmodel) (ssd params : list (chars * R)) (s : sym) : R :=
  match s with
  | SSs b => if existsb (chars_eqb b) (l_vars m)
             then match rget b ssd with Some x => x | None => 0%R end
             else match rget (node_name s) params with Some x => x | None => 0%R end
  | _ => match rget (node_name s) params with Some x => x | None => 0%R end
  end.
Definition ev_matrix (env : sym -> R) (M : matrix sx) : matrix R := map (map (ev (Ralg G) env)) M.
Definition scale_cols (scale : list R) (M : matrix R) : matrix R := map (fun row => map2 Rmult row scale) M.
Definition nat_list_eqb (a b : list nat) : bool := if list_eq_dec Nat.eq_dec a b then true else false.

(* evaluation of the compiled function, and undoing the orders, l.1659-1680 *)
Definition evaluate (m : lmodel) (loglin : list chars) (graphs : list (matrix sx)) (eo vo : list nat)
    (ss params : list (chars * R)) : result (matrix R * matrix R * matrix R * matrix R) :=
  let ssd := strip_keys ss in
  let o := from_model (l_vars m) (l_eqs m) in
  _ <- need ssd (l_vars m) ;;
  _ <- need params (map node_name (filter (is_param m) (concat (map atoms (concat (concat graphs)))))) ;;
  let env := value_at m ssd params in
  vs <- take (l_vars m) vo ;;
  let scale := map (column_scale (l_positive m) (l_negative m) loglin (fun v => env (SSs v))) vs in
  match map (ev_matrix env) graphs with
  | [A; B; C; D] =>
      let A := scale_cols scale A in
      let B := scale_cols scale B in
      let C := scale_cols scale C in
      let undo_rows M := if nat_list_eqb eo (seq 0 (length eo)) then Ok M else take M (inv_eq_order o) in
      let undo_cols M := if nat_list_eqb vo (seq 0 (length vo)) then Ok M else take_cols M (inv_var_order o) in
      A <- undo_rows A ;; B <- undo_rows B ;; C <- undo_rows C ;; D <- undo_rows D ;;
      A <- undo_cols A ;; B <- undo_cols B ;; C <- undo_cols C ;;
      Ok (A, B, C, D)
  | _ => Err ValueError
  end.

(* Arguments of one call of linearize_model *)
Record largs := LA {
  a_order : nat; a_log : bool; a_not_loglin : option (list chars); a_ss : option (list (chars * R));
  a_neg : bool; a_params : list (chars * R) (* self.parameters(...) of the updates *) }.
Variable f_ss : list (chars * R) -> result (list (chars * R)).          (* analytic values *)
Variable solve_ss : list (chars * R) -> result (list (chars * R)).      (* Model.steady_state *)
Definition steady_of (m : lmodel) (a : largs) : result (list (chars * R)) :=
  match a_ss a with
  | Some s => Ok s
  | None => if l_linear m then (if l_has_ss m then f_ss (a_params a) else Err TypeError) else solve_ss (a_params a)
  end.
Definition not_ll (a : largs) : list chars := match a_not_loglin a with None => [] | Some l => l end.
Definition linearize (m : lmodel) (a : largs) : result (matrix R * matrix R * matrix R * matrix R) :=
  if negb (Nat.eqb (a_order a) 1) then Err NotImplementedError
  else
    let log := (a_log a && negb (l_linear m))%bool in
    let o := from_model (l_vars m) (l_eqs m) in
    ss <- steady_of m a ;;
    flags <- make_flags (l_vars m) (l_calibrated m) ss log (not_ll a) (a_neg a) ;;
    let ll := loglin_vars (l_vars m) flags in
    graphs <- linearize_graphs ord simp (l_vars m) (l_shocks m) (l_eqs m) (eq_order o) (var_order o) ;;
    evaluate m ll graphs (eq_order o) (var_order o) ss (a_params a).

(* ---------- the two caches: a history of calls on one model object ----------
   _symbolic_linearize_cache: frozenset of logged names -> graphs; _linearize_cache: id of the first graph -> compiled
   function.  Graph objects get a fresh id when built and stay alive in the first cache.  A compiled function is
   represented by what it was compiled from. *)
Record caches := Caches {
  c_next : nat;
  c_graphs : list (list chars * (nat * list (matrix sx)));   (* key set -> (id, graphs) *)
  c_funs : list (nat * (list chars * list (matrix sx))) }.   (* id -> function: logged set baked into its scale *)
Definition set_eqb (a b : list chars) : bool :=
  (forallb (fun x => existsb (chars_eqb x) b) a && forallb (fun x => existsb (chars_eqb x) a) b)%bool.
Definition run_call (m : lmodel) (c : caches) (a : largs) : caches * result (matrix R * matrix R * matrix R * matrix R) :=
  if negb (Nat.eqb (a_order a) 1) then (c, Err NotImplementedError)
  else
    let log := (a_log a && negb (l_linear m))%bool in
    let o := from_model (l_vars m) (l_eqs m) in
    match steady_of m a with
    | Err e => (c, Err e)
    | Ok ss =>
        match make_flags (l_vars m) (l_calibrated m) ss log (not_ll a) (a_neg a) with
        | Err e => (c, Err e)
        | Ok flags =>
            let ll := loglin_vars (l_vars m) flags in
            match (match find (fun kg => set_eqb ll (fst kg)) (c_graphs c) with
                   | Some kg => Ok (c, snd kg)
                   | None =>
                       match linearize_graphs ord simp (l_vars m) (l_shocks m) (l_eqs m) (eq_order o) (var_order o) with
                       | Err e => Err e
                       | Ok gs => Ok (Caches (S (c_next c)) (c_graphs c ++ [(ll, (c_next c, gs))]) (c_funs c), (c_next c, gs))
                       end
                   end) with
            | Err e => (c, Err e)
            | Ok (c1, (id, gs)) =>
                let '(c2, f) :=
                  match find (fun kf => Nat.eqb id (fst kf)) (c_funs c1) with
                  | Some kf => (c1, snd kf)
                  | None => (Caches (c_next c1) (c_graphs c1) (c_funs c1 ++ [(id, (ll, gs))]), (ll, gs))
                  end in
                (c2, evaluate m (fst f) (snd f) (eq_order o) (var_order o) ss (a_params a))
            end
        end
    end.
Fixpoint run_calls (m : lmodel) (c : caches) (l : list largs) : caches * list (result (matrix R * matrix R * matrix R * matrix R)) :=
  match l with
  | [] => (c, [])
  | a :: l' => let (c1, r) := run_call m c a in let (c2, rs) := run_calls m c1 l' in (c2, r :: rs)
  end.
Definition fresh : caches := Caches 0 [] [].
End Lin.

(* ---------- forward variables (computed from the linearised system at the default parameters) ---------- *)
Definition symbolic_forward (vars : list chars) (eqs : list sx) : list chars :=
  filter (fun v => existsb (fun eq => occurs_at 1 eq v) eqs) vars.
Fixpoint col_sum (M : matrix R) (j : nat) : R :=
  match M with [] => 0%R | row :: M' => (Rabs (nth j row 0) + col_sum M' j)%R end.
Definition forward_variables (vars : list chars) (eqs : list sx) (lin : result (matrix R * matrix R * matrix R * matrix R)) : list chars :=
  match lin with
  | Ok (_, _, C, _) =>
      map fst (filter (fun vj => if Rlt_dec (1 / 100000000) (col_sum C (snd vj)) then true else false)
                      (combine vars (seq 0 (length vars))))
  | Err _ => symbolic_forward vars eqs
  end.
Definition lead_var_idx (vars fwd : list chars) : list nat :=
  map snd (filter (fun vi => existsb (chars_eqb (fst vi)) fwd) (combine vars (seq 0 (length vars)))).

(* the caller's steady_state_kwargs, l.1616-1619: [verbose not in steady_state_kwargs] tests the boolean as a key *)
Definition merge_verbose (verbose : bool) (kwargs : list (chars * bool)) : list (chars * bool) :=
  (* a boolean is never one of the string keys, so the assignment is always executed *)
  let k := str "verbose" in
  if existsb (fun kv => chars_eqb (fst kv) k) kwargs
  then map (fun kv => if chars_eqb (fst kv) k then (k, verbose) else kv) kwargs
  else kwargs ++ [(k, verbose)].
