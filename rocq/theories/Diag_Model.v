(* Solvability diagnostics, prior sampling and matrix labelling.
     gEconpy/model/statistics/perturbation_diagnostics.py: _solve_perturbation l.69-101, _check_one_draw l.107-166,
       solvability_check l.362-451, _run_serial l.454-469, _run_parallel l.472-494, _collect_priors l.497-529,
       prior_solvability_check l.532-579;
     gEconpy/model/sampling.py l.8-235; gEconpy/model/statistics/formatting.py l.4-63.
   Simplifications: the numerical stages are parameters, described by what they may do (return or raise one of the exceptions
   the code distinguishes); numbers are rationals, with a separate value for NaN in the residual norms; a table of draws is a
   list of rows of (column name, value); progress bars, pickling and warnings are left out. *)
From Coq Require Import List Bool Arith ZArith QArith Qabs String Ascii Permutation.
Import ListNotations.
Local Open Scope nat_scope.
Open Scope string_scope.
Open Scope list_scope.

(* ---- exceptions: the four classes listed in _NUMERICAL_ERRORS l.104, their subclasses included, or anything else *)
Inductive raised := Numerical | Other_error.
Inductive attempt (A : Type) := Done (a : A) | Threw (e : raised).
Arguments Done {A} _.  Arguments Threw {A} _.
Definition number := option Q.                         (* None is NaN *)
Definition above (x : number) (tol : Q) : bool :=      (* x > tol: a comparison with NaN is False *)
  match x with Some v => negb (Qle_bool v tol) | None => false end.
Inductive step := Steady_state | Perturbation | Blanchard_kahn | Deterministic_norm | Stochastic_norm.
Definition verdict : Type := option step * number * number.

Section Draw.
(* what the model does for one draw *)
Variables (SS LS TR : Type).
Record world := World {
  steady_state : attempt (SS * bool);                  (* the result and its success flag *)
  linearize : SS -> attempt LS;
  solve : LS -> attempt (option TR);                   (* _solve_perturbation: None when it reports failure *)
  bk_satisfied : LS -> attempt bool;
  norms : LS -> TR -> attempt (number * number) }.
(* _check_one_draw l.107-166; [Threw Other_error] leaves the function as an exception *)
Definition check_one_draw (w : world) (norm_tol : Q) : attempt verdict :=
  match steady_state w with
  | Threw Other_error => Threw Other_error
  | Threw Numerical => Done (Some Steady_state, None, None)
  | Done (_, false) => Done (Some Steady_state, None, None)
  | Done (ss, true) =>
      match linearize w ss with
      | Threw Other_error => Threw Other_error
      | Threw Numerical => Done (Some Perturbation, None, None)
      | Done ls =>
          match solve w ls with
          | Threw Other_error => Threw Other_error
          | Threw Numerical => Done (Some Perturbation, None, None)
          | Done None => Done (Some Perturbation, None, None)
          | Done (Some tr) =>
              match bk_satisfied w ls with             (* outside every try block *)
              | Threw e => Threw e
              | Done false => Done (Some Blanchard_kahn, None, None)
              | Done true =>
                  match norms w ls tr with
                  | Threw Other_error => Threw Other_error
                  | Threw Numerical => Done (Some Deterministic_norm, None, None)
                  | Done (d, s) =>
                      if above d norm_tol then Done (Some Deterministic_norm, d, s)
                      else if above s norm_tol then Done (Some Stochastic_norm, d, s)
                      else Done (None, d, s)
                  end
              end
          end
      end
  end.
End Draw.
Arguments World {SS LS TR}.
Arguments steady_state {SS LS TR}. Arguments linearize {SS LS TR}. Arguments solve {SS LS TR}.
Arguments bk_satisfied {SS LS TR}. Arguments norms {SS LS TR}. Arguments check_one_draw {SS LS TR}.

(* ---- the table *)
Section Table.
Variables (V R : Type).
(* DataFrame.itertuples builds a namedtuple with rename=True: a column that is not a valid field name (not an identifier, a
   keyword, or starting with an underscore) or repeats an earlier one becomes _ and its position; position 0 is Index *)
Inductive field := Named (s : string) | Positional (i : nat).
Variable valid_field : string -> bool.
Fixpoint field_names (seen : list string) (i : nat) (columns : list string) : list field :=
  match columns with
  | [] => []
  | c :: cs => (if valid_field c && negb (existsb (String.eqb c) seen) then Named c else Positional i)
               :: field_names (c :: seen) (S i) cs
  end.
(* l.438: row._asdict() without the entry Index *)
Definition param_dict (columns : list string) (row : list V) : list (field * V) :=
  combine (field_names ["Index"] 1 columns) row.
(* Pool.imap_unordered with c workers and chunks of one task: tasks start in order, the first c unfinished tasks are running,
   any one of them may be the next to finish; results are yielded as they arrive *)
Inductive finishes (c : nat) : list (attempt R) -> list (attempt R) -> Prop :=
| all_done : finishes c [] []
| one_done before x after done : List.length before < c ->
    finishes c (before ++ after) done -> finishes c (before ++ x :: after) (x :: done).
(* iterating over the results: the first exception leaves the loop *)
Fixpoint collect (l : list (attempt R)) : attempt (list R) :=
  match l with
  | [] => Done []
  | Done r :: l' => match collect l' with Done rs => Done (r :: rs) | Threw e => Threw e end
  | Threw e :: _ => Threw e
  end.
Variable check : list (field * V) -> attempt R.
(* solvability_check l.362-451: the rows with their results; zip of no results is unpacked into three names (ValueError) *)
Definition table (columns : list string) (rows : list (list V)) (results : attempt (list R)) : attempt (list (list V * R)) :=
  match results with
  | Threw e => Threw e
  | Done [] => Threw Numerical
  | Done rs => Done (combine rows rs)
  end.
Definition run_serial (columns : list string) (rows : list (list V)) : attempt (list R) :=
  collect (map (fun row => check (param_dict columns row)) rows).
(* the outcomes the call may have: cores = 1 runs the serial loop, otherwise any completion order of the pool *)
Inductive solvability_check (columns : list string) (rows : list (list V)) (cores : nat) : attempt (list (list V * R)) -> Prop :=
| serial : cores = 1 -> solvability_check columns rows cores (table columns rows (run_serial columns rows))
| parallel results : cores <> 1 ->
    finishes cores (map (fun row => check (param_dict columns row)) rows) results ->
    solvability_check columns rows cores (table columns rows (collect results)).
End Table.
Arguments field_names _ _ _ _ : clear implicits.
Arguments param_dict {V}. Arguments collect {R}. Arguments finishes {R}. Arguments run_serial {V R}.
Arguments solvability_check {V R}. Arguments table {V R}.

(* _solve_perturbation l.69-101, for the three solvers as parameters *)
Inductive solver_name := Cycle_reduction | Gensys | Backward_direct | Unknown_solver.
Definition solve_perturbation {TR} (cycle_reduction gensys backward : attempt (option TR)) (solver : solver_name)
  (backward_looking : bool) : attempt (option TR) :=
  match (if backward_looking then Backward_direct else solver) with
  | Cycle_reduction => cycle_reduction
  | Gensys => gensys
  | Backward_direct => backward
  | Unknown_solver => Threw Numerical                  (* ValueError *)
  end.

(* ---- priors: _collect_priors l.497-529; None is ValueError *)
Definition collect_priors {D} (priors : list (string * D)) (subset : option (list string)) : option (list (string * D)) :=
  match priors with
  | [] => None
  | _ =>
      match subset with
      | None => Some priors
      | Some names =>
          if existsb (fun n => negb (existsb (fun p => String.eqb (fst p) n) priors)) names then None
          else Some (filter (fun p => existsb (String.eqb (fst p)) names) priors)
      end
  end.
(* ---- sampling.py: the power-of-two test l.121 and l.210 (Python's & on integers of any sign) *)
Definition sobol_size_ok (n : Z) : bool := (Z.land n (n - 1) =? 0)%Z.
(* qmc.scale l.146: lower + (upper - lower) * u; scipy refuses lower >= upper (ValueError) *)
Definition scale_row (bounds : list (Q * Q)) (u : list Q) : list Q :=
  map (fun p => fst (fst p) + (snd (fst p) - fst (fst p)) * snd p)%Q (combine bounds u).
Definition sample_uniform (bounds : list (string * (Q * Q))) (unit_samples : list (list Q)) : option (list (list (string * Q))) :=
  if existsb (fun b => Qle_bool (snd (snd b)) (fst (snd b))) bounds then None
  else Some (map (fun u => combine (map fst bounds) (scale_row (map snd bounds) u)) unit_samples).
(* sample_from_priors_qmc l.225-233: clip to [eps, 1 - eps], then the inverse distribution function of each column's prior *)
Definition clip (eps x : Q) : Q := if Qle_bool x eps then eps else if Qle_bool (1 - eps) x then (1 - eps)%Q else x.
Definition sample_qmc (priors : list (string * (Q -> Q))) (eps : Q) (unit_samples : list (list Q)) : list (list (string * Q)) :=
  map (fun u => map (fun p => (fst (fst p), snd (fst p) (clip eps (snd p)))) (combine priors u)) unit_samples.

(* ---- matrix_to_dataframe, formatting.py l.4-63: the labels of one axis; None is ValueError *)
Inductive dim := D_variable | D_shock | D_equation.
Definition coords (variables shocks : list string) (n_equations : nat) (d : dim) : list (string + nat) :=
  match d with
  | D_variable => map inl variables
  | D_shock => map inl shocks
  | D_equation => map inr (seq 0 n_equations)          (* "Equation i" *)
  end.
Definition axis_labels (variables shocks : list string) (n_equations : nat) (size : nat) (d : option dim) : option (list (string + nat)) :=
  if Nat.eqb size (List.length variables) || Nat.eqb size (List.length shocks) then
    let d' := match d with Some d0 => d0 | None => if Nat.eqb size (List.length variables) then D_variable else D_shock end in
    let labels := coords variables shocks n_equations d' in
    if Nat.eqb (List.length labels) size then Some labels else None   (* pandas checks the lengths *)
  else None.
