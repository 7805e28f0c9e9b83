(* Sensitivity of the eigenvalues to the parameters.
     gEconpy/model/statistics/perturbation_diagnostics.py: eigenvalue_sensitivity l.244-358;
     gEconpy/model/model.py: Model.parameters l.745-769, symbolic_linearization l.1363-1486 (its inputs);
     gEconpy/pytensorf/real_eig.py: RealEig.perform l.32-38.
   Simplifications:
   - floating-point numbers are real numbers; a complex number is a pair of reals;
   - the eigenvalues of the augmented system (compute_bk_eigenvalues_pt, modelled in LA_EModel.v) are a function
     [spectrum] of the values of the graph's inputs: steady-state nodes and parameter nodes; which variables are
     log-linearised is decided once, so that [spectrum] is one function;
   - pytensor's reverse-mode derivative of the k-th eigenvalue (pt.jacobian; RealEig.pullback is modelled in LA_EModel.v)
     is a pair of functions [jac_re], [jac_im]; the statements say what is assumed about them;
   - the steady-state solver is a function [ss_solve]; a deterministic parameter is a function of the free ones;
   - tol, verbose, progress output and the xarray container are omitted: a dataset is a record of lists. *)
From Verif Require Import Common Sort_Lib SymDict_Model Lin_Model.
From Coq Require Import Reals.
Local Open Scope list_scope.

(* inputs of the Jacobian graphs: ss_input_nodes and param_input_nodes, model.py l.1406-1410 *)
Inductive node := NSS (v : chars) | NPar (n : chars).
Definition node_eqb (a b : node) : bool :=
  match a, b with NSS x, NSS y => chars_eqb x y | NPar x, NPar y => chars_eqb x y | _, _ => false end.
Definition env := node -> R.

Record sens_model := SM {
  s_vars : list chars;                                     (* model.variables, base names *)
  s_defaults : list (chars * R);                           (* model._default_params *)
  s_det : list (chars * ((chars -> R) -> R));              (* deterministic parameters, as functions of the free ones *)
  s_solve : list (chars * R) -> result (list (chars * R)); (* model.steady_state: keys are name_ss *)
  s_nodes : list chars;                                    (* names of the parameter nodes of the Jacobian graphs *)
  s_spectrum : env -> list (R * R);
  s_jac_re : env -> nat -> chars -> R;
  s_jac_im : env -> nat -> chars -> R }.

(* Model.parameters, l.745-769; f_params evaluates the deterministic parameters at the free ones *)
Definition rval (d : list (chars * R)) (n : chars) : R := match rget n d with Some x => x | None => 0%R end.
Definition parameters (m : sens_model) (updates : list (chars * R)) : result (list (chars * R)) :=
  let updates := filter (fun kv => negb (existsb (chars_eqb (fst kv)) (map fst (s_det m)))) updates in
  if existsb (fun kv => negb (existsb (chars_eqb (fst kv)) (map fst (s_defaults m)))) updates then Err (GEconError 43)
  else
    let free := dupd chars_eqb (s_defaults m) updates in
    Ok (free ++ map (fun kv => (fst kv, snd kv (rval free))) (s_det m)).

(* RealEig.perform l.32-38: sort by modulus, ascending *)
Definition modulus (z : R * R) : R := sqrt (fst z * fst z + snd z * snd z).
Definition mod_leb (a b : R * R) : bool := if Rle_dec (modulus a) (modulus b) then true else false.
Definition eigenvalues_at (m : sens_model) (e : env) : list (R * R) := isort mod_leb (s_spectrum m e).

(* input_vals, l.330-332: the steady state by base name, then the parameters; a missing name is a KeyError *)
Definition input_vals (m : sens_model) (ss params : list (chars * R)) : result (list (node * R)) :=
  vs <- need (strip_keys ss) (s_vars m) ;;
  ps <- need params (s_nodes m) ;;
  Ok (combine (map NSS (s_vars m) ++ map NPar (s_nodes m)) (vs ++ ps)).
Definition env_of (inputs : list (node * R)) : env :=
  fun n => match find (fun kv => node_eqb n (fst kv)) inputs with Some kv => snd kv | None => 0%R end.

Record dataset := DS {
  d_params : list chars;                        (* the coordinate 'parameter' *)
  d_eigenvalues : list (R * R * R);             (* real, imaginary, modulus *)
  d_gradients : list (list R * list R) }.       (* per eigenvalue: real part and imaginary part, by parameter *)

Definition eigenvalue_sensitivity (m : sens_model) (steady_state : option (list (chars * R))) (updates : list (chars * R))
  : result dataset :=
  params <- parameters m updates ;;
  ss <- match steady_state with None => s_solve m params | Some s => Ok s end ;;
  (* pt.stack of no tensors raises (l.324) *)
  match s_nodes m with
  | [] => Err ValueError
  | _ =>
      inputs <- input_vals m ss params ;;
      let e := env_of inputs in
      let zs := eigenvalues_at m e in
      Ok (DS (s_nodes m)
             (map (fun z => (fst z, snd z, sqrt (fst z * fst z + snd z * snd z))) zs)
             (map (fun k => (map (s_jac_re m e k) (s_nodes m), map (s_jac_im m e k) (s_nodes m))) (seq 0 (length zs))))
  end.
