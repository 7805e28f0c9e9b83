(* Artificial data from the prior.
     gEconpy/model/statespace.py: data_from_prior l.1324-1429; the keywords of DSGEStateSpace.build_statespace_graph l.1139-1150.
   PyMC, PyMC-extras and numpy are parameters: building the graph (which leaves the statespace model with the data it was
   given, at some point before it succeeds or fails), drawing from the prior, simulating the trajectories, and the choices of
   a generator, which obey numpy's contract (section hypotheses are given with the theorems, not here).  A table of data is
   a list of columns with one entry per date, None being missing.  Whether a copied PyMC model shares its data containers
   with the original is a parameter.  Fractions are exact: int(n * pct) is the floor. *)
From Verif Require Import Common.
From Coq Require Import QArith Qround.
Local Open Scope list_scope.
Local Open Scope nat_scope.

Section D.
Variables Gen Model Params Value Date Kw : Type.
(* the name "data" in the model; the content of that container; the model with another content *)
Variable has_data : Model -> bool.
Variable set_data : Model -> list Date -> Model.
Variable containers_shared : bool.
(* build_statespace_graph(dummy, **kw) in the context of a model; [true]: it raised after it had kept the data *)
Variable build : list (chars * Kw) -> list Date -> Model -> result Model * bool.
Variable sample_prior : Model -> nat -> Gen -> result (list Params * Gen).
(* per draw the table of the observed states *)
Variable sample_trajectories : Model -> list Params -> list Date -> Gen -> result (list (list (list Value)) * Gen).
Variable choice : nat -> Gen -> nat * Gen.                             (* rng.choice(range(n)) for n > 0 *)
Variable choose : nat -> nat -> Gen -> list nat * Gen.                 (* k positions of n, without replacement *)
Variable date_eqb : Date -> Date -> bool.
Variable default_index : list Date.

(* the keywords build_statespace_graph has, l.1139-1150; data itself is given by position *)
Definition accepted : list chars := map str
  ["register_data"; "missing_fill_value"; "cov_jitter"; "save_kalman_filter_outputs_in_idata"; "add_norm_check"; "add_bk_check"; "add_solver_success_check"; "solver_tol"]%string.
Definition build_graph (kw : list (chars * Kw)) (index : list Date) (m : Model) : result Model * bool :=
  if forallb (fun k => existsb (chars_eqb (fst k)) accepted) kw then build kw index m else (Err TypeError, false).

(* the user's objects: the PyMC model, and the data kept in the statespace model *)
Record world := World { model : Model; fit : option (list Date) }.
Definition table := list (list (option Value)).
(* data.loc[labels, col] = nan *)
Definition blank (index : list Date) (labels : list Date) (col : list (option Value)) : list (option Value) :=
  map (fun dv => if existsb (date_eqb (fst dv)) labels then None else snd dv) (combine index col).
Fixpoint blank_all (index : list Date) (k : nat) (cols : table) (g : Gen) : result (table * Gen) :=
  match cols with
  | [] => Ok ([], g)
  | c :: t =>
      if Nat.ltb (length index) k then Err ValueError
      else let '(pos, g) := choose (length index) k g in
           r <- blank_all index k t g ;;
           Ok (blank index (flat_map (fun p => match nth_error index p with Some d => [d] | None => [] end) pos) c :: fst r, snd r)
  end.
(* int(data.shape[0] * pct_missing) *)
Definition n_missing (n : nat) (pct : Q) : nat := Z.to_nat (Qfloor (inject_Z (Z.of_nat n) * pct)).

Record outcome := Outcome { true_params : Params; param_idx : nat; data : table; prior : list Params; trajectories : list (list (list Value)) }.
(* data_from_prior, l.1324-1429 *)
Definition data_from_prior (w : world) (index : option (list Date)) (n_samples : nat) (pct : Q) (g : Gen) (kwargs : option (list (chars * Kw))) : result outcome * world :=
  (* default_statespace_kwargs.copy().update(...) changes a copy nobody keeps *)
  let kw := match kwargs with None => [] | Some k => k end in
  let idx := match index with None => default_index | Some i => i end in
  let new_model := model w in
  let '(m, w) :=
    if has_data new_model
    then (Ok (set_data new_model idx), if containers_shared then World (set_data (model w) idx) (fit w) else w)
    else let '(r, kept) := build_graph kw idx new_model in
         (r, World (model w) (match r with Ok _ => Some idx | Err _ => if kept then Some idx else fit w end)) in
  match m with
  | Err e => (Err e, w)
  | Ok m =>
      match sample_prior m n_samples g with
      | Err e => (Err e, w)
      | Ok (ps, g) =>
          match sample_trajectories m ps idx g with
          | Err e => (Err e, w)
          | Ok (trs, g) =>
              match ps with
              | [] => (Err ValueError, w)
              | p0 :: _ =>
                  let '(i, g) := choice (length ps) g in
                  match nth_error ps i, nth_error trs i with
                  | Some p, Some t =>
                      let full := map (map Some) t in
                      match (if Qle_bool pct 0 then Ok (full, g) else blank_all idx (n_missing (length idx) pct) full g) with
                      | Err e => (Err e, w)
                      | Ok (d, _) => (Ok (Outcome p i d ps trs), World (model w) None)
                      end
                  | _, _ => (Err IndexError, w)
                  end
              end
          end
      end
  end.
End D.
