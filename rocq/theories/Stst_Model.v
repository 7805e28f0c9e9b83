(* The steady state that a computation starts from, and what is reported about it.
     gEconpy/model/statistics/validation.py: _maybe_solve_steady_state l.19-43, check_steady_state l.188-210;
     gEconpy/model/model.py: linearize_model l.1614-1665 (where the jacobians are evaluated), solve_model l.1987-1999 (up to the matrices),
       _linear_steady_state l.823-827, evaluate_residual l.1186-1190;
     gEconpy/model/compile.py: dictionary_return_wrapper l.46-49; gEconpy/model/steady_state.py: print_steady_state l.359-377.
   Simplifications: the compiled functions are functions of dictionaries (f_ss: the known steady state; steady_state: the solver, called
   with the parameters and the options); options and log lines are texts; the flags of the logarithmic linearization are left out (they
   choose the jacobians, not the point); the orders of equations and variables are undone elsewhere (linearize_model's permutations);
   a plain dict given as a steady state is Sim_Model.v's case. *)
From Verif Require Import Common SymDict_Model Lin_Model Get_Model.
From Coq Require Import QArith.
Local Open Scope list_scope.

Definition SteadyStateNotFoundError : exn := GEconError 64.
(* a float *)
Inductive fl := NaN | Inf | Fin (q : Q).
(* np.abs(x) > 1e-8 *)
Definition above_zero (x : fl) : bool :=
  match x with NaN => false | Inf => true | Fin q => negb (Qle_bool q (1 # 100000000)) || negb (Qle_bool (- (1 # 100000000)) q) end.

Definition dict (V : Type) := list (chars * V).
(* SteadyStateResults, and the SymbolDictionary that to_string makes of it, which has no attribute [success] *)
Record ss_result V := Ss { entries : dict V; success : option bool }.
Arguments Ss {V}. Arguments entries {V}. Arguments success {V}.
Record model V M := Model {
  variables : list chars; equations : list chars; is_linear : bool;
  parameters : dict V -> result (dict V);                                  (* Model.parameters *)
  f_ss : option (dict V -> dict V);                                        (* None: nothing is known of the steady state *)
  steady_state : dict V -> dict chars -> result (dict V * bool);           (* Model.steady_state *)
  residuals : dict V -> dict V -> list fl;                                 (* at a point, with parameters *)
  jacobians : list V -> dict V -> M }.                                     (* the compiled jacobians *)
Arguments variables {V M}. Arguments equations {V M}. Arguments is_linear {V M}. Arguments parameters {V M}.
Arguments f_ss {V M}. Arguments steady_state {V M}. Arguments residuals {V M}. Arguments jacobians {V M}.

(* model.f_ss(...): the attribute is None if no relation is known *)
Definition call_f_ss {V M} (m : model V M) (p : dict V) : result (ss_result V) :=
  match f_ss m with None => Err TypeError | Some f => Ok (Ss (f p) None) end.
(* _maybe_solve_steady_state *)
Definition maybe_solve {V M} (m : model V M) (given : option (ss_result V)) (kwargs : dict chars) (updates : dict V) : result (ss_result V) :=
  match given with
  | None =>
      if is_linear m then p <- parameters m updates ;; call_f_ss m p
      else p <- parameters m updates ;; r <- steady_state m p kwargs ;; Ok (Ss (fst r) (Some (snd r)))
  | Some s =>
      p <- parameters m updates ;;
      if existsb above_zero (residuals m (entries s) p) then Err SteadyStateNotFoundError else Ok (Ss (entries s) (Some true))
  end.

(* linearize_model: the matrices, and the options' dictionary as the caller finds it afterwards.
   [if verbose not in steady_state_kwargs]: the key looked for is the truth value, which is never there *)
Definition with_verbose (verbose : bool) (kwargs : dict chars) : dict chars :=
  dset chars_eqb (str "verbose") (if verbose then str "True" else str "False") kwargs.
Fixpoint all_ok {A B} (f : A -> result B) (l : list A) : result (list B) :=
  match l with [] => Ok [] | a :: r => b <- f a ;; bs <- all_ok f r ;; Ok (b :: bs) end.
Definition key {V} (d : dict V) (n : chars) : result V := match dget chars_eqb n d with Some v => Ok v | None => Err KeyError end.
Definition linearize {V M} (m : model V M) (given : option (dict V)) (kwargs : dict chars) (verbose : bool) (updates : dict V) : result M * dict chars :=
  let kw := with_verbose verbose kwargs in
  (p <- parameters m updates ;;
   s <- match given with
        | Some s => Ok s
        | None => p' <- parameters m p ;;
                  if is_linear m then r <- call_f_ss m p' ;; Ok (entries r) else r <- steady_state m p' kw ;; Ok (fst r)
        end ;;
   let ss_values := fold_left (fun d kv => dset chars_eqb (removesuffix (fst kv)) (snd kv) d) s [] in
   vals <- all_ok (key ss_values) (variables m) ;;
   Ok (jacobians m vals p), kw).
(* solve_model up to the call of the solver: the second linearization gets its own dictionary of options *)
Definition matrices_to_solve {V M} (m : model V M) (given : option (ss_result V)) (kwargs : dict chars) (verbose : bool) (updates : dict V) : result M :=
  s <- maybe_solve m given kwargs updates ;; fst (linearize m (Some (entries s)) [] verbose updates).
(* check_steady_state: the lines of the log.  [four]: the printed residual *)
Definition check_steady_state {V M} (four : fl -> chars) (m : model V M) (given : option (ss_result V)) (kwargs : dict chars) (updates : dict V) : result (list chars) :=
  s <- maybe_solve m given kwargs updates ;;
  match success s with
  | None => Err AttributeError
  | Some true => Ok [str "Steady state successfully found!"]
  | Some false =>
      p <- parameters m updates ;;
      Ok (str "Steady state NOT successful. The following equations have non-zero residuals:" ::
          flat_map (fun re => if above_zero (fst re) then [snd re; str "Residual: " ++ four (fst re)] else [])
                   (combine (residuals m (entries s) p) (equations m)))
  end.

(* print_steady_state.  An entry: its name, whether it is a variable, and its value printed with three decimals *)
Definition left_in (w : nat) (s : chars) : chars := s ++ repeat " "%char (w - length s).
Definition right_in (w : nat) (s : chars) : chars := repeat " "%char (w - length s) ++ s.
Definition print_steady_state (success : option bool) (d : list (chars * bool * chars)) : result (list chars) :=
  match success with
  | None => Err AttributeError
  | Some ok =>
      let head := if ok then [] else [str "Values come from the latest solver iteration but are NOT a valid steady state."] in
      match d with
      | [] => Err ValueError
      | _ =>
          let w := (fold_right Nat.max 0 (map (fun e => length (fst (fst e))) d) + 5)%nat in
          let line := fun e : chars * bool * chars => left_in w (fst (fst e)) ++ right_in 10 (snd e) in
          let vars := map line (filter (fun e => snd (fst e)) d) in
          let calibrated := map line (filter (fun e => negb (snd (fst e))) d) in
          Ok (head ++ vars ++ match calibrated with [] => [] | _ => [ascii_of_nat 10] :: calibrated end)
      end
  end.
