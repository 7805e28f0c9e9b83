(* Steady-state propagation, filtering and simplification, gEconpy/model/steady_state.py:
     simplify_provided_ss_equations l.380-414, _try_solve_for_unknown l.429-456,
     propagate_steady_state_through_identities l.459-517, _substitute_and_filter l.142-196, compile_known_ss l.315-356;
   gEconpy/pytensorf/compile.py: pack_and_compile l.402-475.
   Simplifications:
   - sympy.solve and the simplicity test _solution_is_simple l.416-426 are parameters: solve e u = None is the caught
     exception, Some l the list of solutions.  The conversion of a numeric solution to float is not modelled.
   - pytensor graphs are represented by the symbolic expressions they are built from; graph inputs = atoms. *)
From Verif Require Import Common Sym_Model Sym_Spec.
From Coq Require Import Permutation.
Local Open Scope list_scope.

Section Propagate.
Variable ord : set_order.                       (* iteration order of Python sets of symbols *)
Variable dord : sdict -> sdict.                 (* order in which subs applies the entries of a dict *)
Variable solve : sx -> sym -> option (list sx). (* sp.solve(e, u) *)
Variable simple : sx -> bool.                   (* _solution_is_simple *)

(* _try_solve_for_unknown, l.429-456 *)
Definition try_solve (eq : sx) (u : sym) (known : sdict) (vars : list sym) : option sx :=
  let eq' := subs_seq (dord known) eq in
  let remaining := ord (filter (fun s => smem s vars) (atoms eq')) in
  if list_eq_dec sym_eq_dec remaining [u] then
    match solve eq' u with
    | Some [s] => if simple s then Some s else None
    | _ => None
    end
  else None.

(* l.500-501: (eq.free_symbols & ss_variables) - set(result.keys()) *)
Definition unknowns (vars : list sym) (res : sdict) (eq : sx) : list sym :=
  ord (filter (fun s => smem s vars && negb (smem s (map fst res)))%bool (atoms eq)).

(* the body of the inner loop, l.496-510; the new key is not in the dictionary, so assignment appends *)
Definition prop_eq (vars : list sym) (st : sdict * bool) (eq : sx) : sdict * bool :=
  match unknowns vars (fst st) eq with
  | [u] => match try_solve eq u (fst st) vars with
           | Some s => (fst st ++ [(u, s)], true)
           | None => st
           end
  | _ => st
  end.
Definition prop_pass (vars : list sym) (eqs : list sx) (res : sdict) : sdict * bool :=
  fold_left (prop_eq vars) eqs (res, false).
(* the outer loop, l.493-515 *)
Fixpoint prop_loop (n : nat) (vars : list sym) (eqs : list sx) (res : sdict) : sdict :=
  match n with
  | O => res
  | S n' => let (res', progress) := prop_pass vars eqs res in
            if progress then prop_loop n' vars eqs res' else res'
  end.
(* propagate_steady_state_through_identities, l.459-517 *)
Definition propagate (max_iterations : nat) (input : sdict) (eqs : list sx) (variables : list chars) : sdict :=
  prop_loop max_iterations (map SSs variables) eqs input.
End Propagate.

(* _substitute_and_filter, l.142-196: graph_replace is simultaneous. *)
Definition replace_all (known : sdict) (e : sx) : sx :=
  smap (fun s => match slookup s known with Some v => v | None => Sy s end) e.
Definition known_in (ss_solution : sdict) (ss_vars : list sym) : sdict :=
  filter (fun kv => smem (fst kv) ss_vars) ss_solution.
Definition has_unknown (known : sdict) (ss_vars : list sym) (e : sx) : bool :=
  existsb (fun s => smem s ss_vars && negb (smem s (map fst known)))%bool (atoms e).
Definition substitute_and_filter (eqs : list sx) (ss_solution : sdict) (ss_vars : list sym) : list sx :=
  let known := known_in ss_solution ss_vars in
  match known with
  | [] => eqs
  | _ => filter (has_unknown known ss_vars) (map (replace_all known) eqs)
  end.

(* simplify_provided_ss_equations, l.380-414.  (An empty dictionary is falsy: l.398 and l.405.) *)
Section Simplify.
Variables ord sord : set_order.
Variable dord : sdict -> sdict.
Definition simplify_provided (ss_solution : sdict) (variables : list chars) : result sdict :=
  match ss_solution with
  | [] => Ok []
  | _ =>
      let ss_vars := map SSs variables in
      let extra := filter (fun kv => negb (smem (fst kv) ss_vars)) ss_solution in
      match extra with
      | [] => Ok ss_solution
      | _ =>
          flat <- flatten ord sord extra ;;
          Ok (map (fun kv => (fst kv, subs_seq (dord flat) (snd kv)))
                  (filter (fun kv => smem (fst kv) ss_vars) ss_solution))
      end
  end.
End Simplify.

(* compile_known_ss, l.315-356: the entries for the model's variables, in model order; ... *)
Definition sorted_solution (ss_solution : sdict) (variables : list chars) : sdict :=
  flat_map (fun v => match slookup (SSs v) ss_solution with Some e => [(SSs v, e)] | None => [] end) variables.
(* ... non-symbolic return (dictionary_return_wrapper(f_ss, output_vars)): names and outputs of the known ones; *)
Definition known_ss_dict (ss_solution : sdict) (variables : list chars) : sdict := sorted_solution ss_solution variables.
(* ... symbolic return (make_return_dict_and_update_cache(ss_variables, f_ss, ...)): ALL names zipped with the known
   outputs (zip with strict=False). *)
Definition known_ss_symbolic (ss_solution : sdict) (variables : list chars) : sdict :=
  combine (map SSs variables) (map snd (sorted_solution ss_solution variables)).

(* pack_and_compile, l.402-475, with param_dict given: outputs are expressions, x_flat a list of numbers.
   None: an IndexError / missing input. *)
Section Pack.
Variable V : Type.
Variable A : alg V.
Definition inner_env (active : list sym) (x : list V) (params : sym -> option V) (s : sym) : option V :=
  match find (fun p => sym_eqb s (fst p)) (combine active x) with
  | Some p => Some (snd p)
  | None => if smem s active then None else params s
  end.
(* evaluating the compiled graph: every input must have a value *)
Definition eval_graph (env : sym -> option V) (default : V) (e : sx) : option V :=
  if forallb (fun s => match env s with Some _ => true | None => false end) (atoms e)
  then Some (ev A (fun s => match env s with Some v => v | None => default end) e)
  else None.
Fixpoint take_indices (x : list V) (idx : list nat) : option (list V) :=
  match idx with
  | [] => Some []
  | i :: idx' => match nth_error x i, take_indices x idx' with
                 | Some v, Some l => Some (v :: l)
                 | _, _ => None
                 end
  end.
(* [i for i, n in enumerate(ss_nodes) if n in graph_inputs] *)
Fixpoint indices_where (p : sym -> bool) (i : nat) (l : list sym) : list nat :=
  match l with
  | [] => []
  | n :: l' => if p n then i :: indices_where p (S i) l' else indices_where p (S i) l'
  end.
Fixpoint all_some {B} (l : list (option B)) : option (list B) :=
  match l with
  | [] => Some []
  | Some b :: l' => match all_some l' with Some r => Some (b :: r) | None => None end
  | None :: _ => None
  end.
Definition pack_and_compile (outputs : list sx) (ss_nodes : list sym) (params : sym -> option V) (default : V)
    (x_flat : list V) : option (list V) :=
  let graph_inputs := flat_map atoms outputs in
  let active := filter (fun n => smem n graph_inputs) ss_nodes in
  match active with
  | [] => all_some (map (eval_graph params default) outputs)
  | _ =>
      let x := if negb (Nat.eqb (length active) (length ss_nodes))
               then take_indices x_flat (indices_where (fun n => smem n graph_inputs) 0 ss_nodes)
               else Some x_flat in
      match x with
      | None => None
      | Some x => all_some (map (eval_graph (inner_env active x params) default) outputs)
      end
  end.
End Pack.
