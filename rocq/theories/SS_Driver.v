(* Model.steady_state, gEconpy/model/model.py l.929-1094, with _linear_steady_state l.820-824, _try_analytic_steady_state
   l.826-848, _evaluate_all_resolved l.850-868, _postprocess_numerical_result l.870-927 with
   utilities.postprocess_optimizer_res l.185-235, _validate_provided_steady_state_variables l.799-818,
   _build_resid_with_fixed_values l.1096-1135, _validate_fixed_value_equations l.1137-1180, _vars_to_solve l.533-539,
   f_ss l.481-497, and pt_error_from_resid (steady_state.py l.44-71).
   Simplifications:
   - floating-point numbers are real numbers (no NaN, no rounding); pytensor graphs are expressions;
   - scipy's root/minimize is the parameter [optimizer]: given the equations and the unknowns it returns the point and
     its success flag; whether the gradient at the returned point is below the tolerance is the parameter [grad_small];
   - parameter names and the calibrated parameters' names are disjoint from each other; logging is omitted. *)
From Verif Require Import Common Sym_Model Sym_Spec SS_Model.
From Coq Require Import Reals.
Local Open Scope list_scope.

Record ssmodel := SSM {
  m_variables : list chars;      (* base names, model order *)
  m_calibrated : list chars;     (* calibrated parameters *)
  m_equations : list sx;         (* steady-state equations followed by the calibrating equations *)
  m_known : sdict;               (* _ss_solution_dict *)
  m_linear : bool }.
Definition ss_variables (m : ssmodel) : list sym := map SSs (m_variables m) ++ map SPar (m_calibrated m).
Definition vals := list (sym * R).
Definition vget (k : sym) (d : vals) : option R :=
  match find (fun kv => sym_eqb k (fst kv)) d with Some kv => Some (snd kv) | None => None end.
(* dict.update *)
Fixpoint vset (k : sym) (x : R) (d : vals) : vals :=
  match d with
  | [] => [(k, x)]
  | (k', x') :: d' => if sym_eqb k k' then (k, x) :: d' else (k', x') :: vset k x d'
  end.
Definition vupdate (d new : vals) : vals := fold_left (fun d kx => vset (fst kx) (snd kx) d) new d.

Section Run.
Variable G : smooth.
(* a compiled function called with keyword arguments: TypeError when an input is missing *)
Definition call (kw : vals) (e : sx) : result R :=
  match eval_graph R (Ralg G) (fun s => vget s kw) 0%R e with Some r => Ok r | None => Err TypeError end.
Fixpoint call_all (kw : vals) (es : list sx) : result (list R) :=
  match es with
  | [] => Ok []
  | e :: es' => r <- call kw e ;; rs <- call_all kw es' ;; Ok (r :: rs)
  end.
Definition small (tol r : R) : bool := if Rle_dec (Rabs r) tol then true else false.
Definition less (a b : R) : bool := if Rlt_dec a b then true else false.
Definition atol : R := (1 / 100000000)%R.
Definition sse (l : list R) : R := fold_right (fun r acc => (r * r + acc)%R) 0%R l.
Definition max_abs (l : list R) : R := fold_right (fun r acc => Rmax (Rabs r) acc) 0%R l.

(* f_ss called on the parameters, l.481-497: the known model variables, in model order *)
Fixpoint f_ss_values (params : vals) (d : sdict) : result vals :=
  match d with
  | [] => Ok []
  | (k, e) :: d' => r <- call params e ;; rest <- f_ss_values params d' ;; Ok ((k, r) :: rest)
  end.
Definition f_ss (m : ssmodel) (params : vals) : result vals :=
  f_ss_values params (known_ss_dict (m_known m) (m_variables m)).

(* _try_analytic_steady_state; None = falls through to the numerical solver *)
Definition try_analytic (m : ssmodel) (params : vals) : result (option (vals * bool)) :=
  match m_known m with
  | [] => Ok None
  | _ =>
      ss <- f_ss m params ;;
      if negb (Nat.eqb (length ss) (length (m_variables m))) then Ok None
      else rs <- call_all (ss ++ params) (m_equations m) ;;
           Ok (Some (ss, forallb (small atol) rs))
  end.

Definition removesuffix_ss (n : chars) : chars :=
  let k := (length n - 3)%nat in
  if (Nat.leb 3 (length n) && chars_eqb (skipn k n) (str "_ss"))%bool then firstn k n else n.
Definition cmem (x : chars) (l : list chars) : bool := existsb (chars_eqb x) l.
Fixpoint has_dup (l : list chars) : bool :=
  match l with [] => false | x :: l' => cmem x l' || has_dup l' end.
(* _validate_provided_steady_state_variables *)
Definition validate_names (m : ssmodel) (names : list chars) : result unit :=
  let normed := map removesuffix_ss names in
  if has_dup normed then Err ValueError
  else if existsb (fun n => negb (cmem n (m_variables m))) normed then Err ValueError
  else Ok tt.
(* {safe_to_ss(self.get(k)): v}; after validation get() finds the variable *)
Definition fixed_vals (fixed : list (chars * R)) : vals := map (fun nv => (SSs (removesuffix_ss (fst nv)), snd nv)) fixed.

(* provided_ss_values: f_ss values overridden by the fixed ones *)
Definition provided (m : ssmodel) (params : vals) (fixed : option (list (chars * R))) : result vals :=
  base <- (match m_known m with [] => Ok [] | _ => f_ss m params end) ;;
  Ok (match fixed with None => base | Some f => vupdate base (fixed_vals f) end).

(* pick the model's variables (and calibrated parameters) in order: KeyError if one is missing *)
Fixpoint pick (d : vals) (keys : list sym) : result vals :=
  match keys with
  | [] => Ok []
  | k :: keys' => match vget k d with
                  | None => Err KeyError
                  | Some v => rest <- pick d keys' ;; Ok ((k, v) :: rest)
                  end
  end.

(* _validate_fixed_value_equations: only equations all of whose steady-state inputs are fixed *)
Definition fixed_determined (m : ssmodel) (fixed : vals) (e : sx) : bool :=
  negb (existsb (fun s => smem s (ss_variables m) && negb (smem s (map fst fixed)))%bool (atoms e)).
Definition validate_fixed (m : ssmodel) (params : vals) (fixed : vals) : result unit :=
  rs <- call_all (vupdate fixed params) (filter (fixed_determined m fixed) (m_equations m)) ;;
  if forallb (small atol) rs then Ok tt else Err ValueError.

(* merged_ss with its float values: the value is substituted as a number.  Modelled by removing the fixed variables
   from the symbolic dictionary and keeping their numbers apart. *)
Definition merged_keys (m : ssmodel) (fixed : vals) : list sym := map fst (m_known m) ++ map fst fixed.

Variable optimizer : list sx -> vals -> list sym -> list R * bool.
Variable grad_small : list sx -> vals -> bool.

(* The remaining system: the equations with the known values substituted, kept when they still contain an unknown.
   [given] are the numbers of the fixed variables (empty without fixed values): an equation is evaluated with them. *)
Definition remaining_equations (m : ssmodel) (fixed : vals) : list sx :=
  let sym_known := filter (fun kv => negb (smem (fst kv) (map fst fixed))) (m_known m) in
  let known := known_in sym_known (ss_variables m) in
  match known, fixed with
  | [], [] => m_equations m
  | _, _ => filter (fun e => existsb (fun s => smem s (ss_variables m) && negb (smem s (map fst known ++ map fst fixed)))%bool
                               (atoms e)) (map (replace_all known) (m_equations m))
  end.
Definition vars_to_solve (m : ssmodel) (fixed : vals) : list sym :=
  filter (fun s => negb (smem s (merged_keys m fixed))) (ss_variables m).

(* postprocess_optimizer_res, utilities.py l.185-235: np.max of an empty residual vector raises ValueError *)
Definition postprocess (eqs : list sx) (kw : vals) (opt_success : bool) (tol : R) : result bool :=
  rs <- call_all kw eqs ;;
  match rs with
  | [] => Err ValueError
  | _ => let numeric := (less (sse rs) tol && less (max_abs rs) tol && grad_small eqs kw)%bool in
         Ok (opt_success || numeric)%bool
  end.

Inductive how := Analytic | Root | Minimize | Other.
Definition steady_state (m : ssmodel) (params : vals) (h : how) (fixed : option (list (chars * R))) (tol : R)
  : result (vals * bool) :=
  if m_linear m then Ok (map (fun v => (SSs v, 0%R)) (m_variables m), true)
  else
    first <- (match fixed with None => try_analytic m params | Some _ => Ok None end) ;;
    match first with
    | Some res => Ok res
    | None =>
        fx <- (match fixed with
               | None => Ok []
               | Some f => _ <- validate_names m (map fst f) ;;
                           _ <- validate_fixed m params (fixed_vals f) ;;
                           Ok (fixed_vals f)
               end) ;;
        let eqs := remaining_equations m fx in
        let vs := vars_to_solve m fx in
        match vs with
        | [] => (* _evaluate_all_resolved *)
            p <- provided m params fixed ;;
            rs <- call_all (p ++ params) (m_equations m) ;;
            r <- pick p (ss_variables m) ;;
            Ok (r, forallb (small atol) rs)
        | _ =>
            let run :=
              let (x, ok) := optimizer eqs (fx ++ params) vs in
              p <- provided m params fixed ;;
              r <- pick (vupdate (combine vs x) p) (ss_variables m) ;;
              ok' <- postprocess eqs (r ++ params) ok tol ;;
              Ok (r, ok') in
            match h with
            | Root => if negb (Nat.eqb (length eqs) (length vs)) then Err ValueError else run
            | Analytic | Minimize => run
            | Other => Err NotImplementedError
            end
        end
    end.
End Run.

(* pt_error_from_resid, steady_state.py l.44-71 *)
Inductive error_func := Squared | MeanSquared | AbsErr | L2.
Definition error_from_resid (f : error_func) (resid : list R) : R :=
  match f with
  | Squared => sse resid
  | MeanSquared => (sse resid / INR (length resid))%R
  | AbsErr => fold_right (fun r acc => (Rabs r + acc)%R) 0%R resid
  | L2 => sqrt (sse resid)
  end.
