(* gEconpy/model/statespace.py: the state-space (Kalman filter) form of a solved model.
     DSGEStateSpace.__init__ l.54-195, _setup_policy_matrices l.197-222, _setup_state_covariance l.240-258,
     _make_design_matrix l.260-332, _make_obs_intercept l.334-388, _parse_observation_equation l.390-444,
     _linearize_observation_equation l.446-507, _obs_eq_to_pytensor l.509-555, the layout properties l.557-596,
     _augment_transition l.598-650, _append_obs_lag_block l.652-694, _augment_selection l.696-723,
     make_symbolic_graph l.725-820, configure l.822-1090, set_states l.1092-1098, set_parameters l.1100-1124.
   Simplifications:
   - A PyTensor graph stands for its value at a draw of the parameters, a real number; matrices are functions of row and column.
   - The perturbation solver and the steady-state expressions are given ([world] below); [as_tensor]/[graph_replace] keep values.
   - The library class PyMCStateSpace is represented by what its __init__ does here: it records the state names and calls
     make_symbolic_graph; make_and_register_variable raises ValueError for a name that is already registered; obs_intercept and
     obs_cov are zero unless set.
   - Symbol assumptions are dropped as in Sym_Model.  The placeholder symbols "_tilde_v_lag" carry the assumption real=True, which
     keeps them apart from the model's symbols; here they are parameters with that name.
   - The solver-specific keyword arguments, [mode], [verbose] and the log messages are left out. *)
From Verif Require Import Common Sym_Model Sym_Spec.
From Verif Require Import SR_Model.
From Coq Require Import Reals.
Local Open Scope nat_scope.
Local Open Scope list_scope.

Fixpoint all_ok {A B} (f : A -> result B) (l : list A) : result (list B) :=
  match l with [] => Ok [] | a :: l' => b <- f a ;; bs <- all_ok f l' ;; Ok (b :: bs) end.
Fixpoint loop {A S} (f : S -> A -> result S) (l : list A) (s : S) : result S :=
  match l with [] => Ok s | a :: l' => s' <- f s a ;; loop f l' s' end.
Definition mem (x : chars) (l : list chars) : bool := existsb (chars_eqb x) l.
(* Python dictionaries with string keys *)
Fixpoint get {A} (k : chars) (d : list (chars * A)) : option A :=
  match d with [] => None | (k', v) :: d' => if chars_eqb k k' then Some v else get k d' end.
Fixpoint put {A} (k : chars) (v : A) (d : list (chars * A)) : list (chars * A) :=
  match d with [] => [(k, v)] | (k', v') :: d' => if chars_eqb k k' then (k', v) :: d' else (k', v') :: put k v d' end.
(* list.index *)
Fixpoint index (x : chars) (l : list chars) : result nat :=
  match l with [] => Err ValueError | y :: l' => if chars_eqb x y then Ok 0 else i <- index x l' ;; Ok (S i) end.

(* VALID_SOLVERS, VALID_AGGREGATIONS, CUMULATOR_AGGREGATIONS l.46-48 *)
Definition valid_solvers : list chars := [str "gensys"; str "cycle_reduction"; str "scan_cycle_reduction"; str "backward_direct"].
Definition valid_aggregations : list chars := [str "sum"; str "mean"; str "first"; str "last"].
Definition cumulator_aggregations : list chars := [str "sum"; str "mean"].

(* what __init__ stores: names of variables, shocks, input parameters, their default values (param_dict), the hyperparameters, the
   parameters with priors, the log-linearised variables, and the variables with an entry in steady_state_mapping; var_order *)
Record kmodel := KM { k_vars : list chars; k_shocks : list chars; k_inputs : list chars; k_defaults : list (chars * R); k_hyper : list chars;
  k_priors : list chars; k_logged : list chars; k_has_ss : list chars; k_var_order : list nat }.
(* the numerical world, as a function of the values of the input parameters *)
Record world := World { w_policy : (chars -> R) -> mat * mat;   (* T, R as the solver returns them: in var_order *)
                        w_ss : (chars -> R) -> chars -> R;      (* steady_state_mapping *)
                        w_fun : smooth }.                       (* exp, log, ... *)

(* an observation equation after linearisation: constant term, coefficients by (variable, time index) *)
Definition linear_eq := (sx * list ((chars * Z) * sx))%type.
(* the mutable fields set by configure *)
Record config := CF { c_observed : list chars; c_error : list chars; c_const : list chars; c_agg : list (chars * chars); c_period : Z;
  c_ssint : list chars; c_obs : list (chars * linear_eq); c_depths : list (chars * nat); c_starts : list (chars * nat); c_full : bool;
  c_configured : bool; c_solver : chars; c_states : list chars (* state_names of the underlying PyMCStateSpace *) }.
Definition new_object (m : kmodel) : config := CF [] [] [] [] 4 [] [] [] [] false false (str "gensys") (k_vars m).

(* ---------- layout: l.557-596 ---------- *)
Definition cumulates (method : option chars) : bool := match method with Some a => mem a cumulator_aggregations | None => false end.
Definition cumulator_variables (c : config) : list chars :=
  map fst (filter (fun vm => mem (snd vm) cumulator_aggregations && negb (mem (fst vm) (map fst (c_obs c))))%bool (c_agg c)).
Definition n_lags (c : config) : nat := Z.to_nat (c_period c - 1).
Definition n_cumulator_states (c : config) : nat := length (cumulator_variables c) * n_lags c.
Definition cumulator_state_names (c : config) : list chars :=
  flat_map (fun v => map (fun lag => v ++ str "_cumulator_lag" ++ dec (N.of_nat lag)) (seq 1 (n_lags c))) (cumulator_variables c).
Definition n_obs_lag_states (c : config) : nat := fold_right Nat.add 0 (map snd (c_depths c)).
Definition obs_lag_state_names (c : config) : list chars :=
  flat_map (fun vd => map (fun k => fst vd ++ str "_obs_lag" ++ dec (N.of_nat k)) (seq 1 (snd vd))) (c_depths c).
(* set_states l.1092-1098, the hidden states *)
Definition state_names (m : kmodel) (c : config) : list chars := k_vars m ++ cumulator_state_names c ++ obs_lag_state_names c.
Definition k_states (m : kmodel) (c : config) : nat := length (k_vars m) + n_cumulator_states c + n_obs_lag_states c.

(* ---------- _parse_observation_equation l.390-444: the checks after parsing ---------- *)
Definition bad_symbol (m : kmodel) (s : sym) : bool :=
  match s with
  | SSs _ => false
  | SDate b t => (Z.ltb 0 t || negb (mem b (k_vars m)))%bool
  | SPar n => negb (mem n (map fst (k_defaults m)) || mem n (k_hyper m))
  end.
Definition check_equation (m : kmodel) (e : sx) : result sx := if existsb (bad_symbol m) (atoms e) then Err ValueError else Ok e.

(* ---------- _linearize_observation_equation l.446-507 ---------- *)
Definition lag_tag (lag : Z) : chars := if Z.eqb lag 0 then str "0" else str "m" ++ dec (Z.to_N (- lag)).
Definition tilde (v : chars) (lag : Z) : sym := SPar (str "_tilde_" ++ v ++ str "_" ++ lag_tag lag).
Definition is_dated (s : sym) : bool := match s with SDate _ _ => true | _ => false end.
Definition key_of (s : sym) : chars * Z := match s with SDate b t => (b, t) | SPar n | SSs n => (n, 0%Z) end.
Definition appearing (ord : set_order) (e : sx) : list (chars * Z) := map key_of (ord (filter is_dated (atoms e))).
Definition forward (m : kmodel) (s : sym) : sx :=
  match s with
  | SDate v lag => if mem v (k_logged m) then Mu (Sy (SSs v)) (Fn (str "exp") 0 (Sy (tilde v lag)))
                   else Ad (Sy (SSs v)) (Sy (tilde v lag))
  | _ => Sy s
  end.
Definition zero_subs (keys : list (chars * Z)) (s : sym) : sx :=
  if existsb (fun k => sym_eqb s (tilde (fst k) (snd k))) keys then Cst 0 else Sy s.
Definition linearize_equation (m : kmodel) (ord : set_order) (e : sx) : linear_eq :=
  let keys := appearing ord e in
  let g := smap (forward m) e in
  (smap (zero_subs keys) g, map (fun k => (k, smap (zero_subs keys) (diff (tilde (fst k) (snd k)) g))) keys).

(* ---------- the graph ---------- *)
Section Graph.
Variables (m : kmodel) (W : world) (c : config).
Variable draw : chars -> R.                                 (* the values given to the parameters of the state-space model *)
Local Open Scope R_scope.

(* l.741-757: constants are baked in, other input parameters stay *)
Definition inputs_at (n : chars) : R := if mem n (c_const c) then match get n (k_defaults m) with Some x => x | None => draw n end else draw n.
Definition at_draw (s : sym) : R :=
  match s with SPar n => inputs_at n | SSs v => w_ss W inputs_at v | SDate _ _ => 0 end.
Definition value (e : sx) : R := ev (Ralg (w_fun W)) at_draw e.

Definition k_orig : nat := length (k_vars m).
Definition orig_index (v : chars) : result nat := index v (k_vars m).
Definition set_at (M : mat) (i j : nat) (x : R) : mat := fun a b => if (Nat.eqb a i && Nat.eqb b j)%bool then x else M a b.
Definition inc_at (M : mat) (i j : nat) (x : R) : mat := fun a b => if (Nat.eqb a i && Nat.eqb b j)%bool then M a b + x else M a b.
Definition zeros : mat := fun _ _ => 0.
(* block([[A, 0], [F, C]]) with A k by k *)
Definition block (k : nat) (A F C : mat) : mat :=
  fun i j => if Nat.ltb i k then (if Nat.ltb j k then A i j else 0) else (if Nat.ltb j k then F (i - k)%nat j else C (i - k)%nat (j - k)%nat).

(* _setup_policy_matrices l.214-220: back to the user's variable order.  np.argsort of a permutation is its inverse: the position of i. *)
Fixpoint place (i : nat) (l : list nat) : nat := match l with [] => 0 | x :: l' => if Nat.eqb x i then 0 else S (place i l') end%nat.
Definition inv_order (i : nat) : nat := place i (k_var_order m).
Definition is_identity (l : list nat) : bool := if list_eq_dec Nat.eq_dec l (seq 0 (length l)) then true else false.
Definition policy : mat * mat :=
  let '(T, R0) := w_policy W inputs_at in
  if is_identity (k_var_order m) then (T, R0) else ((fun i j => T (inv_order i) (inv_order j)), (fun i j => R0 (inv_order i) j)).

(* _augment_transition l.618-650 *)
Definition shift (n : nat) : mat := fun r q => if (Nat.ltb 1 n && Nat.leb 1 r && Nat.ltb r n && Nat.eqb r (S q))%bool then 1 else 0.
Definition kron_eye (n : nat) (S0 : mat) : mat :=
  fun i j => (if Nat.eqb (i / n) (j / n) then 1 else 0) * S0 (i mod n)%nat (j mod n)%nat.
Definition loadings (n : nat) (idx : list nat) : mat :=
  fold_left (fun F ai => set_at F (fst ai * n)%nat (snd ai) 1) (combine (seq 0 (length idx)) idx) zeros.
Definition augment_transition (T : mat) : result mat :=
  match cumulator_variables c with
  | [] => Ok T
  | cv => idx <- all_ok orig_index cv ;; Ok (block k_orig T (loadings (n_lags c) idx) (kron_eye (n_lags c) (shift (n_lags c))))
  end.
(* _append_obs_lag_block l.672-694 *)
Definition k_prev : nat := (k_orig + n_cumulator_states c)%nat.
Definition start_of (v : chars) : result nat := match get v (c_starts c) with Some s => Ok s | None => Err KeyError end.
Definition lag_chain (FC : mat * mat) (vd : chars * nat) : result (mat * mat) :=
  oi <- orig_index (fst vd) ;;
  s <- start_of (fst vd) ;;
  let b := (s - k_prev)%nat in
  Ok (set_at (fst FC) b oi 1, fold_left (fun C k => set_at C (b + k)%nat (b + k - 1)%nat 1) (seq 1 (snd vd - 1)) (snd FC)).
Definition append_obs_lags (T : mat) : result mat :=
  if Nat.eqb (n_obs_lag_states c) 0 then Ok T
  else FC <- loop lag_chain (c_depths c) (zeros, zeros) ;; Ok (block k_prev T (fst FC) (snd FC)).
(* _augment_selection l.718-723 *)
Definition augment_selection (R0 : mat) : mat :=
  if Nat.eqb (n_cumulator_states c + n_obs_lag_states c) 0 then R0 else fun i j => if Nat.ltb i k_orig then R0 i j else 0.

(* _make_design_matrix l.279-332 *)
Definition period : R := IZR (c_period c).
Definition method_of (name : chars) : option chars := get name (c_agg c).
Definition is_mean (method : option chars) : bool := match method with Some a => chars_eqb a (str "mean") | None => false end.
Definition is_sum (method : option chars) : bool := match method with Some a => chars_eqb a (str "sum") | None => false end.
Definition set_slots (Z0 : mat) (i start n : nat) (x : R) : mat := fold_left (fun M k => set_at M i (start + k)%nat x) (seq 0 n) Z0.
Definition plain_row (Z0 : mat) (iname : nat * chars) : result mat :=
  let '(i, name) := iname in
  oi <- orig_index name ;;
  if cumulates (method_of name) then
    pos <- index name (cumulator_variables c) ;;
    let cum_start := (k_orig + pos * n_lags c)%nat in
    let weight := if is_mean (method_of name) then 1 / period else 1 in
    Ok (set_slots (set_at Z0 i oi weight) i cum_start (n_lags c) weight)
  else Ok (set_at Z0 i oi 1).
(* _obs_lag_column l.593-596 *)
Definition lag_column (v : chars) (lag : Z) : result nat := s <- start_of v ;; Ok (s + (Z.to_nat (- lag) - 1))%nat.
Definition add_coefficient (i : nat) (weight : R) (n_periods : nat) (Z0 : mat) (kc : (chars * Z) * sx) : result mat :=
  let '((v, lag), coeff) := kc in
  loop (fun Z0 d =>
    let effective := (lag - Z.of_nat d)%Z in
    col <- (if Z.eqb effective 0 then orig_index v else lag_column v effective) ;;
    Ok (inc_at Z0 i col (weight * value coeff))) (seq 0 n_periods) Z0.
Definition symbolic_row (Z0 : mat) (iname : nat * chars) : result mat :=
  let '(i, name) := iname in
  match get name (c_obs c) with
  | Some (_, coeffs) =>
      let n_periods := if cumulates (method_of name) then Z.to_nat (c_period c) else 1%nat in
      let weight := if cumulates (method_of name) then (if is_sum (method_of name) then 1 else 1 / period) else 1 in
      loop (add_coefficient i weight n_periods) coeffs Z0
  | None =>
      let weight := if is_mean (method_of name) then 1 / period else 1 in
      oi <- orig_index name ;;
      let Z1 := set_at Z0 i oi weight in
      if cumulates (method_of name) then
        pos <- index name (cumulator_variables c) ;;
        Ok (set_slots Z1 i (k_orig + pos * n_lags c)%nat (n_lags c) weight)
      else Ok Z1
  end.
Definition numbered (l : list chars) : list (nat * chars) := combine (seq 0 (length l)) l.
Definition design : result mat :=
  loop (match c_obs c with [] => plain_row | _ => symbolic_row end) (numbered (c_observed c)) zeros.

(* _make_obs_intercept l.362-388 *)
Definition intercept_entry (name : chars) : result R :=
  base <- match get name (c_obs c) with
          | Some (i, _) => Ok (Some (value i))
          | None =>
              if mem name (c_ssint c) then
                if mem name (k_has_ss m) then
                  let v := w_ss W inputs_at name in Ok (Some (if mem name (k_logged m) then s_fn (w_fun W) (str "log") 0 v else v))
                else Err ValueError
              else Ok None
          end ;;
  match base with
  | None => Ok 0
  | Some b => Ok (if is_sum (method_of name) then period * b else b)
  end.
Definition obs_intercept : result (list R) :=
  match c_ssint c, c_obs c with
  | [], [] => Ok (map (fun _ => 0) (c_observed c))            (* not set *)
  | _, _ => all_ok intercept_entry (c_observed c)
  end.

(* registered names: l.741-749, _setup_state_covariance, l.801 *)
Definition sigma_name (s : chars) : chars := str "sigma_" ++ s.
Definition error_name (s : chars) : chars := str "error_sigma_" ++ s.
Definition register (names : list chars) (n : chars) : result (list chars) := if mem n names then Err ValueError else Ok (names ++ [n]).
Definition free_inputs : list chars := filter (fun n => negb (mem n (c_const c))) (k_inputs m).
Definition registered : result (list chars) :=
  names <- loop register (if c_full c then [str "state_cov"] else map sigma_name (k_shocks m)) free_inputs ;;
  loop register (map error_name (c_error c)) names.

(* the covariance matrices *)
Definition diag (l : list R) : mat := fun i j => if Nat.eqb i j then nth i l 0 else 0.
Variable full_cov : mat.                                   (* the value of the parameter state_cov *)
Definition state_cov : mat := if c_full c then full_cov else diag (map (fun s => draw (sigma_name s) * draw (sigma_name s)) (k_shocks m)).
Definition obs_cov : result mat :=
  match c_error c with
  | [] => Ok zeros                                          (* measurement_error is False *)
  | es =>
      let variances := map (fun s => draw (error_name s) * draw (error_name s)) es in
      if Nat.ltb (length (c_observed c)) (length es) then Err ValueError       (* set on a slice of another length *)
      else Ok (diag variances)                              (* zeros(k_endog)[:len].set(variances), diag *)
  end.

Record built := Built { b_T : mat; b_R : mat; b_Z : mat; b_d : list R; b_H : mat; b_Q : mat }.
Definition make_symbolic_graph : result built :=
  let '(T, R0) := policy in
  T1 <- augment_transition T ;;
  T2 <- append_obs_lags T1 ;;
  Z0 <- design ;;
  d <- obs_intercept ;;
  _ <- registered ;;
  H <- obs_cov ;;
  Ok (Built T2 (augment_selection R0) Z0 d H state_cov).
End Graph.

(* ---------- configure l.903-1090 ---------- *)
Inductive const_arg := NoConst | Auto | Fixed (l : list chars).
Record cargs := CA { a_observed : list chars; a_error : option (list chars); a_const : const_arg; a_full : bool;
  a_agg : option (list (chars * chars)); a_period : Z; a_ssint : option (list chars);
  a_obs : option (list (chars * result sx)) (* each value: what parse_expression makes of the string *); a_solver : chars }.
Definition or_nil {A} (o : option (list A)) : list A := match o with Some l => l | None => [] end.
Definition all_in (l big : list chars) : bool := forallb (fun x => mem x big) l.
(* l.903-1003: raises ValueError or returns the parameters to hold constant; nothing is assigned *)
Definition constants (m : kmodel) (a : cargs) : list chars :=
  match a_const a with
  | NoConst => []
  | Auto => filter (fun n => negb (mem n (k_priors m))) (k_inputs m)
  | Fixed l => l
  end.
Definition valid (m : kmodel) (c : config) (a : cargs) : bool :=
  let obs_names := map fst (or_nil (a_obs a)) in
  (forallb (fun x => mem x (c_states c) || mem x obs_names) (a_observed a) &&
   all_in (or_nil (a_error a)) (a_observed a) &&
   all_in (map fst (or_nil (a_agg a))) (a_observed a) &&
   forallb (fun vm => mem (snd vm) valid_aggregations) (or_nil (a_agg a)) &&
   negb (existsb (fun vm => mem (snd vm) cumulator_aggregations) (or_nil (a_agg a)) && Z.ltb (a_period a) 2) &&
   all_in (or_nil (a_ssint a)) (a_observed a) &&
   all_in (or_nil (a_ssint a)) (k_vars m) &&
   all_in obs_names (a_observed a) &&
   negb (existsb (fun x => mem x (or_nil (a_ssint a))) obs_names) &&
   (match a_const a with Fixed l => all_in l (k_inputs m) | _ => true end) &&
   mem (a_solver a) valid_solvers &&
   negb (Nat.ltb (length (or_nil (a_error a)) + length (k_shocks m)) (length (a_observed a))))%bool.
(* l.1028-1035: parse and linearise, filling _obs_equations one at a time *)
Fixpoint fill_equations (m : kmodel) (ord : set_order) (l : list (chars * result sx)) (done : list (chars * linear_eq))
  : list (chars * linear_eq) * result unit :=
  match l with
  | [] => (done, Ok tt)
  | (name, parsed) :: l' =>
      match (e <- parsed ;; check_equation m e) with
      | Err x => (done, Err x)
      | Ok e => fill_equations m ord l' (put name (linearize_equation m ord e) done)
      end
  end.
(* l.1043-1050 *)
Definition need_depth (broadcast : Z) (depths : list (chars * nat)) (kc : (chars * Z) * sx) : list (chars * nat) :=
  let '((v, lag), _) := kc in
  let required := (- lag + broadcast)%Z in
  if Z.ltb 0 required then put v (Nat.max (match get v depths with Some d => d | None => 0 end) (Z.to_nat required)) depths else depths.
Definition lag_depths (agg : list (chars * chars)) (period : Z) (obs : list (chars * linear_eq)) : list (chars * nat) :=
  fold_left (fun depths ne =>
    fold_left (need_depth (if cumulates (get (fst ne) agg) then period - 1 else 0)%Z) (snd (snd ne)) depths) obs [].
(* l.1072-1076 *)
Fixpoint lag_starts (offset : nat) (depths : list (chars * nat)) : list (chars * nat) :=
  match depths with [] => [] | (v, d) :: rest => (v, offset) :: lag_starts (offset + d) rest end.
Definition configure (m : kmodel) (W : world) (ord : set_order) (c : config) (a : cargs) : config * result unit :=
  if negb (valid m c a) then (c, Err ValueError)
  else
    let agg := or_nil (a_agg a) in
    let ssint := or_nil (a_ssint a) in
    let '(obs, r) := fill_equations m ord (or_nil (a_obs a)) [] in
    match r with
    | Err x => (CF (a_observed a) (or_nil (a_error a)) (constants m a) agg (a_period a) ssint obs (c_depths c) (c_starts c)
                   (c_full c) (c_configured c) (c_solver c) (c_states c), Err x)
    | Ok _ =>
        let depths := lag_depths agg (a_period a) obs in
        let c1 := CF (a_observed a) (or_nil (a_error a)) (constants m a) agg (a_period a) ssint obs depths []
                     (a_full a) true (a_solver a) (c_states c) in
        let c2 := CF (a_observed a) (or_nil (a_error a)) (constants m a) agg (a_period a) ssint obs depths
                     (lag_starts (length (k_vars m) + n_cumulator_states c1) depths) (a_full a) true (a_solver a) (state_names m c1) in
        match make_symbolic_graph m W c2 (fun _ => 0%R) (fun _ _ => 0%R) with
        | Ok _ => (c2, Ok tt)
        | Err x => (c2, Err x)
        end
    end.
