(* Impulse responses, simulation, the shock covariance matrix and second moments.
     gEconpy/model/simulate.py l.20-330, gEconpy/model/statistics/covariance.py l.18-260,
     gEconpy/model/statistics/validation.py l.20-215.
   Simplifications: numbers are elements of a real closed field (no rounding; NaN only where a comment says so); the
   xarray/pandas wrapping is a list of (label, values) pairs; logging is omitted; the random draws, the Cholesky factor, the
   closeness test np.allclose and the Lyapunov solver are parameters; shock names are pairwise different (the parser rejects
   duplicates). *)
From mathcomp Require Import all_ssreflect all_algebra.
Import GRing.Theory Num.Theory.
Set Implicit Arguments.
Unset Strict Implicit.
Unset Printing Implicit Defensive.
Local Open Scope ring_scope.

Inductive failure := ValueError | TypeError | IndexError | AttributeError | LinAlgError | SteadyStateNotFound.
Inductive outcome (A : Type) := Returned of A | Raised of failure.
Arguments Returned {A} _.
Arguments Raised {A} _.
Definition andThen A B (r : outcome A) (f : A -> outcome B) : outcome B :=
  match r with Returned a => f a | Raised e => Raised e end.
Notation "'let!' x := r 'in' k" := (andThen r (fun x => k)) (at level 200, x name, k at level 200).
(* a comprehension or loop whose body may raise: the first exception wins *)
Fixpoint in_turn A (l : seq (outcome A)) : outcome (seq A) :=
  match l with
  | [::] => Returned [::]
  | r :: l' => let! a := r in let! rest := in_turn l' in Returned (a :: rest)
  end.

Section Arrays.
Variable F : rcfType.
(* an array the user passes: its shape and its entries (for one axis: entry i 0) *)
Record ndarray := Nd { shape : seq nat; entry : nat -> nat -> F }.
Definition as_matrix m p (a : ndarray) : 'M[F]_(m, p) := \matrix_(i, j) entry a i j.

Variables (Name : eqType) (names : seq Name).   (* base names of model.shocks, in model order *)
Notation k := (size names).
Definition dict := seq (Name * F).              (* a Python dict in insertion order, keys pairwise different *)
Definition keys (d : dict) : seq Name := [seq x.1 | x <- d].
Fixpoint dict_get (d : dict) (x : Name) : option F :=
  match d with [::] => None | (y, v) :: d' => if y == x then Some v else dict_get d' x end.

Section System.
Variable n : nat.                               (* number of variables *)
Variables (T : 'M[F]_n) (R : 'M[F]_(n, k)).

(* _simulate_linear_system, simulate.py l.172-184: out[0] = R e[0]; out[t] = T out[t-1] + R e[t] *)
Fixpoint later_rows (prev : 'cV[F]_n) (es : seq 'cV[F]_k) : seq 'cV[F]_n :=
  match es with
  | [::] => [::]
  | e :: es' => let x := T *m prev + R *m e in x :: later_rows x es'
  end.
Definition simulate_linear_system (traj : seq 'cV[F]_k) : outcome (seq 'cV[F]_n) :=
  match traj with
  | [::] => Raised IndexError
  | e0 :: es => Returned (R *m e0 :: later_rows (R *m e0) es)
  end.

Inductive size_arg := Scalar of F | Array of ndarray | Dict of dict.
(* _shock_vector_from_spec, l.107-122; [None] is the size argument left at its default *)
Definition shock_vector (size_ : option size_arg) (ns : seq Name) : outcome (seq F) :=
  match size_ with
  | None => Returned (nseq (size ns) 1)
  | Some (Scalar x) => Returned (nseq (size ns) x)
  | Some (Dict d) => Returned [seq odflt 0 (dict_get d x) | x <- ns]
  | Some (Array a) =>
      if shape a == [:: size ns] then Returned (mkseq (fun i => entry a i 0%N) (size ns)) else Raised ValueError
  end.
(* numpy's assignment of a one-axis array to a row of length k: equal lengths, or one element that is broadcast *)
Definition assign_row (v : seq F) : outcome 'cV[F]_k :=
  if size v == k then Returned (\col_i v`_i)
  else if size v == 1%N then Returned (\col_i v`_0)
  else Raised ValueError.

(* the three shock arguments, in the order of _make_shock_spec *)
Record shock_args := Args { shock_size : option size_arg; shock_cov : option ndarray; shock_trajectory : option ndarray }.
(* _validate_irf_shock_arguments, l.32-37: unpacking zip of an empty list raises; so does the f-string of the message,
   which unpacks the names *)
Definition validate_irf_shock_arguments (a : shock_args) : outcome unit :=
  match (isSome (shock_size a) + isSome (shock_cov a) + isSome (shock_trajectory a))%N with
  | 0%N => Raised ValueError
  | 1%N => Returned tt
  | _ => Raised ValueError
  end.
Inductive mode := M_trajectory of ndarray | M_cov of ndarray | M_size of option size_arg.
(* _make_shock_spec, l.85-102 *)
Definition make_shock_spec (a : shock_args) : outcome mode :=
  let! _ := validate_irf_shock_arguments a in
  Returned (match shock_trajectory a, shock_cov a with
            | Some t, _ => M_trajectory t
            | None, Some c => M_cov c
            | None, None => M_size (shock_size a)
            end).
(* _get_selected_shock_names, l.44-60 *)
Definition selected_shock_names (m : mode) : outcome (seq Name) :=
  match m with
  | M_size (Some (Dict d)) =>
      if size d == 0%N then Raised ValueError
      else if has (fun x => x \notin names) (keys d) then Raised ValueError
      else Returned [seq x <- names | x \in keys d]
  | _ => Returned names
  end.
(* _is_diagonal l.40-41 with numpy.allclose as a parameter; _infer_shocks_are_individual, l.63-82 *)
Variable allclose : ndarray -> ndarray -> bool.
Definition diag_of (a : ndarray) : ndarray := Nd (shape a) (fun i j => if i == j then entry a i i else 0).
Definition infer_individual (requested : option bool) (m : mode) (n_selected : nat) : bool :=
  match requested with
  | Some b => b
  | None =>
      match m with
      | M_size None => true        (* np.asarray(None).ndim == 0 *)
      | M_size (Some (Array a)) => (shape a == [::]) || (shape a == [:: n_selected])
      | M_size (Some _) => true
      | M_cov c => allclose c (diag_of c)
      | M_trajectory _ => false
      end
  end.
Variables (cholesky : 'M[F]_k -> outcome 'M[F]_k) (draw : 'cV[F]_k).   (* numpy.linalg.cholesky; rng.standard_normal *)
(* traj = zeros; traj[0] = row: needs at least one row *)
Definition impulse (len : nat) (row : 'cV[F]_k) : outcome (seq 'cV[F]_k) :=
  match len with 0 => Raised IndexError | l.+1 => Returned (row :: nseq l 0) end.
(* _build_trajectory, l.139-169; both branches on orthogonalize call cholesky *)
Definition build_trajectory (m : mode) (len : nat) (ns : seq Name) : outcome (seq 'cV[F]_k) :=
  match m with
  | M_trajectory a =>
      match shape a with
      | [:: l; c] => if c == k then Returned (mkseq (fun t => \col_i entry a t i) l) else Raised ValueError
      | _ => Raised ValueError
      end
  | M_cov c =>
      if shape c == [:: k; k] then
        let! L := cholesky (as_matrix k k c) in impulse len (L *m draw)
      else Raised ValueError
  | M_size s => let! v := shock_vector s ns in
      match len with 0 => Raised IndexError | _ => let! row := assign_row v in impulse len row end
  end.
(* traj = zeros_like(base); traj[:, idx] = base[:, idx] *)
Definition only_shock (idx : 'I_k) (base : seq 'cV[F]_k) : seq 'cV[F]_k :=
  map (fun e : 'cV[F]_k => \col_i (if i == idx then e i 0 else 0)) base.
Inductive response := Individual of seq (Name * seq 'cV[F]_n) | Joint of seq 'cV[F]_n.
(* shock_idxs, l.293: positions of the selected names *)
Definition shock_idxs (sel : seq Name) : seq 'I_k := [seq i <- enum 'I_k | tnth (in_tuple names) i \in sel].
Definition one_by_one (sel : seq Name) (base : seq 'cV[F]_k) : outcome response :=
  let! rows := in_turn [seq simulate_linear_system (only_shock i base) | i <- shock_idxs sel] in
  Returned (Individual (zip sel rows)).
(* impulse_response_function, l.207-319, from the line after _maybe_solve_model *)
Definition impulse_response (a : shock_args) (requested : option bool) (simulation_length : nat) : outcome response :=
  let! m := make_shock_spec a in
  let! sel := selected_shock_names m in
  let! len := match m with
              | M_trajectory t => if shape t is l :: _ then Returned l else Raised IndexError
              | _ => Returned simulation_length
              end in
  if infer_individual requested m (size sel) then
    match m with
    | M_trajectory t =>
        match shape t with
        | [:: l; c] => if c == k then one_by_one sel (mkseq (fun t' => \col_i entry t t' i) l) else Raised ValueError
        | [:: _] => Raised IndexError
        | _ => Raised ValueError
        end
    | _ => let! base := build_trajectory m len names in one_by_one sel base
    end
  else
    let! traj := build_trajectory m len sel in
    let! x := simulate_linear_system traj in
    Returned (Joint x).
End System.

(* _validate_shock_options, validation.py l.150-191. A list of standard deviations is compared with 0, which raises *)
Inductive std_arg := Std_scalar of F | Std_array of seq F | Std_list of seq F.
Record q_args := Q_args { std_dict : option dict; cov_matrix : option ndarray; std : option std_arg }.
Definition validate_shock_options (a : q_args) : outcome unit :=
  if (isSome (std_dict a) + isSome (cov_matrix a) + isSome (std a))%N == 1%N then
    let! _ := match cov_matrix a with
              | Some c => if has (fun s => s != k) (shape c) then Raised ValueError else Returned tt
              | None => Returned tt
              end in
    let! _ := match std_dict a with
              | Some d =>
                  if has (fun x => x \notin names) (keys d) then Raised ValueError
                  else if has (fun x => x \notin keys d) names then Raised ValueError else Returned tt
              | None => Returned tt
              end in
    match std a with
    | None => Returned tt
    | Some (Std_array v) => if size v != k then Raised ValueError
                            else if all (fun x => 0 < x) v then Returned tt else Raised ValueError
    | Some (Std_list v) => if size v != k then Raised ValueError else Raised TypeError
    | Some (Std_scalar x) => if x < 0 then Raised ValueError else Returned tt
    end
  else Raised ValueError.
(* Q[index, index] = value ** 2, one assignment per item of the dict *)
Definition set_diag (Q : 'M[F]_k) (i : nat) (v : F) : 'M[F]_k :=
  \matrix_(a, b) (if (nat_of_ord a == i) && (nat_of_ord b == i) then v else Q a b).
(* build_Q_matrix, covariance.py l.18-68; a covariance array is returned as it is (here: seen as a k by k matrix, see
   well_shaped) *)
Definition build_Q (a : q_args) : outcome 'M[F]_k :=
  let! _ := validate_shock_options a in
  match cov_matrix a, std_dict a, std a with
  | Some c, _, _ => Returned (as_matrix k k c)
  | None, Some d, _ => Returned (foldl (fun Q x => set_diag Q (index x.1 names) (x.2 ^+ 2)) 0 d)
  | None, None, Some (Std_scalar x) => Returned (\matrix_(i, j) ((i == j)%:R * x ^+ 2))
  | None, None, Some (Std_array v) => Returned (\matrix_(i, j) ((i == j)%:R * v`_j ^+ 2))
  | None, None, _ => Raised TypeError
  end.

Section Moments.
Variable n : nat.
Variable lyapunov : 'M[F]_n -> 'M[F]_n -> 'M[F]_n.      (* scipy.linalg.solve_discrete_lyapunov *)
(* stationary_covariance_matrix, covariance.py l.71-133, with T and R resolved *)
Definition stationary_covariance (T : 'M[F]_n) (R : 'M[F]_(n, k)) (a : q_args) : outcome 'M[F]_n :=
  let! _ := validate_shock_options a in
  let! Q := build_Q a in
  Returned (lyapunov T (R *m Q *m R^T)).
(* numpy.linalg.matrix_power *)
Fixpoint matrix_power (T : 'M[F]_n) (i : nat) : 'M[F]_n := match i with 0 => 1%:M | i'.+1 => matrix_power T i' *m T end.
(* _compute_autocovariance_matrix, l.136-169: [None] is the NaN or infinity that dividing by zero gives *)
Definition compute_autocovariance (T Sigma : 'M[F]_n) (n_lags : nat) (correlation : bool) : seq ('I_n -> 'I_n -> option F) :=
  mkseq (fun i a b => let c := (if correlation then Num.sqrt (Sigma a a) * Num.sqrt (Sigma b b) else 1) in
                      if c == 0 then None else Some ((matrix_power T i *m Sigma) a b / c)) n_lags.
(* autocovariance_matrix, l.172-238: the dictionary is forwarded under the keyword shock_dict, which is one of the ignored
   solve_model_kwargs of stationary_covariance_matrix, so its shock_std_dict stays None *)
Definition autocovariance (T : 'M[F]_n) (R : 'M[F]_(n, k)) (a : q_args) (n_lags : nat) (correlation : bool) :=
  let! Sigma := stationary_covariance T R (Q_args None (cov_matrix a) (std a)) in
  Returned (compute_autocovariance T Sigma n_lags correlation).
End Moments.

(* simulate, simulate.py l.322-430: [epsilons] are the draws, one list of shock vectors per simulation; the two einsum calls
   are sums over the shocks and over the variables *)
Section Simulate.
Variables (n : nat) (T : 'M[F]_n) (R : 'M[F]_(n, k)).
Definition einsum m (M : 'M[F]_(n, m)) (x : 'cV[F]_m) : 'cV[F]_n := \col_i \sum_j M i j * x j 0.
Fixpoint sim_rows (prev : 'cV[F]_n) (es : seq 'cV[F]_k) : seq 'cV[F]_n :=
  match es with
  | [::] => [::]
  | e :: es' => let x := einsum T prev + einsum R e in x :: sim_rows x es'
  end.
Definition simulate_one (es : seq 'cV[F]_k) : outcome (seq 'cV[F]_n) :=
  match es with [::] => Raised IndexError | e :: es' => Returned (einsum R e :: sim_rows (einsum R e) es') end.
Definition simulate (a : q_args) (epsilons : 'M[F]_k -> seq (seq 'cV[F]_k)) : outcome (seq (seq 'cV[F]_n)) :=
  let! _ := validate_shock_options a in
  let! Q := build_Q a in
  in_turn [seq simulate_one es | es <- epsilons Q].
End Simulate.
End Arrays.

(* _maybe_solve_model, validation.py l.112-147 *)
Definition maybe_solve_model X Y (solve : outcome (X * Y)) (T : option X) (R : option Y) : outcome (X * Y) :=
  match T, R with Some t, Some r => Returned (t, r) | _, _ => solve end.
(* _maybe_linearize_model, validation.py l.54-109: the incomplete set is dropped inside the branch on verbose *)
Definition maybe_linearize_model X (linearize : outcome (X * X * X * X)) (verbose : bool) (A B C D : option X)
  : outcome (option X * option X * option X * option X) :=
  let n := (isSome A + isSome B + isSome C + isSome D)%N in
  let dropped := (n < 4)%N && (0 < n)%N && verbose in
  if dropped || (n == 0)%N then
    let! r := linearize in let: (a, b, c, d) := r in Returned (Some a, Some b, Some c, Some d)
  else Returned (A, B, C, D).
(* _maybe_solve_steady_state, validation.py l.20-51, for a steady state that the user provides: its residuals ([None] is
   NaN) and whether the object accepts the attribute success (SteadyStateResults does, a plain dict does not) *)
Definition accept_steady_state (F : rcfType) (float_zero : F) (residuals : seq (option F)) (plain_dict : bool) : outcome unit :=
  if has (fun r => if r is Some x then float_zero < `|x| else false) residuals then Raised SteadyStateNotFound
  else if plain_dict then Raised AttributeError
  else Returned tt.
