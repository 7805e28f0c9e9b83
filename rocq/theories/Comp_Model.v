(* Compiled functions: how names and positions reach the inputs of a graph.
     gEconpy/model/compile.py: dictionary_return_wrapper l.27-50, compile_function / compile_to_pytensor_function l.53-95, 260-308,
       compile_for_scipy l.381-400, pack_and_compile l.402-476;
     gEconpy/model/parameters.py: compile_param_dict_func l.11-69 (compiled);
     gEconpy/model/steady_state.py: compile_known_ss l.316-356 (compiled).
   Simplifications: pytensor.function is the evaluation of the graph at the values of its inputs, it refuses graphs with an input
   that is not listed (MissingInputError, number 50); a call by keywords refuses unknown or ambiguous names and missing inputs
   (TypeError); rewrites keep values; numbers are abstract; modes and the cache of compiled functions are not modelled. *)
From Verif Require Import Common Conv_Model Conv_Spec.

Definition MissingInput : exn := GEconError 50.
Definition input := (nat * chars)%type.
Definition input_dec (a b : input) : {a = b} + {a <> b}.
Proof. decide equality; [apply (list_eq_dec ascii_dec)|apply Nat.eq_dec]. Defined.
Fixpoint get {X} (k : chars) (d : list (chars * X)) : option X :=
  match d with [] => None | (k', v) :: t => if chars_eqb k k' then Some v else get k t end.
(* d[k] = v *)
Fixpoint set_item {X} (k : chars) (v : X) (d : list (chars * X)) : list (chars * X) :=
  match d with [] => [(k, v)] | (k', w) :: t => if chars_eqb k k' then (k', v) :: t else (k', w) :: set_item k v t end.
Definition dict_of {X} (l : list (chars * X)) : list (chars * X) := fold_left (fun d p => set_item (fst p) (snd p) d) l [].
Definition count_name (k : chars) (l : list input) : nat := length (filter (fun p => chars_eqb k (snd p)) l).

Section Comp.
Context {V Op : Type}.
Variable sem : Op -> list V -> V.
Notation node := (node V Op).
Fixpoint leaves (n : node) : list input :=
  match n with Const _ => [] | Inp i nm => [(i, nm)] | Ap _ l => flat_map leaves l end.
(* explicit_graph_inputs: each input once *)
Definition inputs_of (outs : list node) : list input := nodup input_dec (flat_map leaves outs).

(* pytensor.function and its calls *)
Record func := Func { f_ins : list input; f_outs : list node }.
Definition function (ins : list input) (outs : list node) : result func :=
  if forallb (fun p => if in_dec input_dec p ins then true else false) (flat_map leaves outs) then Ok (Func ins outs) else Err MissingInput.
Fixpoint env (default : V) (ins : list input) (vals : list V) (i : nat) : V :=
  match ins, vals with (j, _) :: ins', v :: vals' => if i =? j then v else env default ins' vals' i | _, _ => default end.
Variable default : V.
Definition call (f : func) (vals : list V) : result (list V) :=
  if length vals =? length (f_ins f) then Ok (map (evaln sem (env default (f_ins f) vals)) (f_outs f)) else Err TypeError.
Fixpoint all_some {X} (l : list (option X)) : option (list X) :=
  match l with [] => Some [] | Some x :: t => match all_some t with Some r => Some (x :: r) | None => None end | None :: _ => None end.
Definition call_kw (f : func) (kw : list (chars * V)) : result (list V) :=
  if forallb (fun p => count_name (fst p) (f_ins f) =? 1) kw
  then match all_some (map (fun p => get (snd p) kw) (f_ins f)) with Some vals => call f vals | None => Err TypeError end
  else Err TypeError.
Definition accepted (f : func) (kw : list (chars * V)) : list (chars * V) :=
  filter (fun p => negb (count_name (fst p) (f_ins f) =? 0)) kw.
(* compile_for_scipy, called with keywords *)
Definition for_scipy (outs : list node) (kw : list (chars * V)) : result (list V) :=
  f <- function (inputs_of outs) outs ;; call_kw f (accepted f kw).

(* pack_and_compile with parameters frozen, called at x_flat *)
Fixpoint position (p : input) (l : list input) : option nat :=
  match l with [] => None | q :: t => if input_dec p q then Some 0 else option_map S (position p t) end.
(* graph_replace(outputs, {node: x_flat[i]}) *)
Fixpoint packed (active : list input) (n : node) : Conv_Model.node V (Op + nat) :=
  match n with
  | Const v => Const v
  | Inp i nm => match position (i, nm) active with Some k => Ap (inr k) [] | None => Inp i nm end
  | Ap f l => Ap (inl f) (map (packed active) l)
  end.
Definition pick_sem (x : list V) (f : Op + nat) (l : list V) : V :=
  match f with inl g => sem g l | inr k => nth k x default end.
Definition pack_and_compile (outs : list node) (ss_nodes : list input) (params : list (chars * V)) (x : list V) : result (list V) :=
  let graph := inputs_of outs in
  let isin := fun p => if in_dec input_dec p graph then true else false in
  let active := filter isin ss_nodes in
  match active with
  | [] => f <- function graph outs ;; call_kw f (accepted f params)
  | _ =>
      let param_inputs := filter (fun p => if in_dec input_dec p active then false else true) graph in
      let need_slice := negb (length active =? length ss_nodes) in
      let active_indices := map fst (filter (fun p => isin (snd p)) (combine (seq 0 (length ss_nodes)) ss_nodes)) in
      match all_some (map (fun p => get (snd p) params) param_inputs) with
      | None => Err KeyError
      | Some frozen =>
          match (if need_slice then all_some (map (nth_error x) active_indices) else Some x) with
          | None => Err IndexError
          | Some x' => if length x' <? length active then Err IndexError
                       else Ok (map (fun o => evaln (pick_sem x') (env default param_inputs frozen) (packed active o)) outs)
          end
      end
  end.

(* compile_function(stack_return=True) + dictionary_return_wrapper, called with keywords *)
Variable cse : list (expr V Op) -> list (sym * expr V Op) * list (expr V Op).
Definition inp_of (n : node) : input := match n with Inp i nm => (i, nm) | _ => (0, []) end.
Definition dict_compile (ins : list sym) (outs : list (output V Op)) (st : state V Op) : result func :=
  let c := convert cse ins outs false st in
  match outs with [] => Err ValueError | _ => function (map inp_of (fst (fst c))) (snd (fst c)) end.
Definition dict_function (ins : list sym) (names : list sym) (outs : list (output V Op)) (st : state V Op) (kw : list (chars * V)) : result (list (chars * V)) :=
  f <- dict_compile ins outs st ;;
  vals <- call_kw f kw ;;
  Ok (dict_of (combine (map sname names) vals)).
Definition param_outs (free : list sym) (det : list (sym * output V Op)) : list (output V Op) := map (fun s => inr (Sy s)) free ++ map snd det.
(* Model.f_params *)
Definition f_params (free : list sym) (det : list (sym * output V Op)) (kw : list (chars * V)) : result (list (chars * V)) :=
  dict_function free (free ++ map fst det) (param_outs free det) empty kw.
(* Model.f_ss: the parameter function is compiled first, for its cache; sorted_solution_dict keeps the variables that have a solution *)
Definition f_ss (free : list sym) (det : list (sym * output V Op)) (sol : sym -> option (output V Op)) (vars : list sym) (kw : list (chars * V)) : result (list (chars * V)) :=
  _ <- dict_compile free (param_outs free det) empty ;;
  let st := snd (convert cse free (param_outs free det) false empty) in
  let known := filter (fun v => match sol v with Some _ => true | None => false end) vars in
  dict_function (free ++ map fst det) known (known_exprs sol vars) st kw.
End Comp.
