(* The priors of a state space model put into a PyMC model, and the parameters the state space needs there.
     gEconpy/model/statespace.py: DSGEStateSpace.to_pymc l.1305-1321, set_parameters l.1100-1128, the constant parameters of
       configure l.976-989, input_parameters l.120.
     gEconpy/classes/distributions.py: CompositeDistribution.to_pymc l.28-30.
   A PyMC model is the list of its variables (name, prior); a second variable of the same name is a ValueError and what was
   registered before stays.  A composite is Build_Model.composite: for each keyword referring to a parameter, the parameter's
   name and its prior if it was known when the shock was read.  PreliZ's own conversion does not fail here. *)
From Verif Require Import Common Build_Model.
Local Open Scope list_scope.

Section P.
Context {D : Type}.
Record statespace := StateSpace { input_parameters : list chars; param_priors : list (chars * D); shocks : list chars;
                                  shock_priors : list (chars * @composite D); full_covariance : bool; error_states : list chars }.
Definition mem (x : chars) (l : list chars) : bool := existsb (chars_eqb x) l.
(* constant_params: None, auto or a list *)
Inductive constants := NoConstants | Auto | These (l : list chars).
Definition constant_parameters (s : statespace) (c : constants) : result (list chars) :=
  match c with
  | NoConstants => Ok []
  | Auto => Ok (filter (fun x => negb (mem x (map fst (param_priors s)))) (input_parameters s))
  | These l => match filter (fun x => negb (mem x (input_parameters s))) l with [] => Ok l | _ => Err ValueError end
  end.
Definition pymc := list (chars * D).
Fixpoint register_all (vs : list (chars * D)) (m : pymc) : result unit * pymc :=
  match vs with
  | [] => (Ok tt, m)
  | v :: t => if mem (fst v) (map fst m) then (Err ValueError, m) else register_all t (m ++ [v])
  end.
(* CompositeDistribution.to_pymc: the priors known, under the names of the parameters *)
Definition composite_vars (c : @composite D) : list (chars * D) :=
  flat_map (fun khd => match snd khd with Some d => [(snd (fst khd), d)] | None => [] end) c.
Definition to_pymc (s : statespace) (constant exclude : list chars) (m : pymc) : result unit * pymc :=
  let skip := exclude ++ constant in
  match register_all (filter (fun p => negb (mem (fst p) skip)) (param_priors s)) m with
  | (Err e, m) => (Err e, m)
  | (Ok _, m) => register_all (flat_map (fun sc => if mem (fst sc) skip then [] else composite_vars (snd sc)) (shock_priors s)) m
  end.
(* set_parameters: the names build_statespace_graph looks for *)
Definition needed (s : statespace) (constant : list chars) : list chars :=
  filter (fun x => negb (mem x constant)) (input_parameters s)
  ++ (if full_covariance s then [str "state_cov"] else map (fun x => str "sigma_" ++ x) (shocks s))
  ++ map (fun x => str "error_sigma_" ++ x) (error_states s).
End P.
Arguments statespace : clear implicits. Arguments pymc : clear implicits.
