(* The PyTensor view of a model: inputs and steady-state equations, asked for in any order.
     gEconpy/model/model.py: Model._ensure_cache l.349-360, _ensure_equation_tensors l.362-393, ss_tensors l.395-428,
       param_tensors l.430-468, equation_tensors l.498-521, sympy_to_pytensor_cache l.523-530,
       _build_resid_with_fixed_values l.1096-1133 (without the residual check, see C57);
     gEconpy/model/steady_state.py: _ss_residual_to_pytensor l.74-140, _substitute_and_filter l.143-209.
   Conversion, cache, inputs and graph_replace are those of Conv_Model.v.  Simplifications: the variables and the keys of
   the known steady state are given at the steady state already (to_ss, safe_to_ss); dictionaries are lists of items;
   clone_replace keeps inputs and structure, so a clone is the same tree. *)
From Verif Require Import Common Conv_Model.

Definition sym_dec (a b : sym) : {a = b} + {a <> b}.
Proof. decide equality; [apply Nat.eq_dec|apply cls_dec|apply (list_eq_dec ascii_dec)]. Defined.
Definition smem (s : sym) (l : list sym) : bool := if in_dec sym_dec s l then true else false.
Definition nmem (n : chars) (l : list chars) : bool := if in_dec (list_eq_dec ascii_dec) n l then true else false.
Definition imem (i : nat) (l : list nat) : bool := existsb (Nat.eqb i) l.

Section T.
Variables V Op : Type.
Notation expr := (expr V Op).
Notation node := (node V Op).
Notation state := (state V Op).
Notation output := (output V Op).
Variable cse : list expr -> list (sym * expr) * list expr.
Variable deriv : expr -> sym -> expr.
Variable is_number : expr -> bool.
Variable zero : V.

Record model := Model { m_free : list sym; m_det : list (sym * output); m_calib : list (sym * output);
                        m_vars : list sym; m_eqs : list output; m_sol : list (sym * output) }.
Definition all_vars (m : model) : list sym := m_vars m ++ map fst (m_calib m).
Definition param_dict_func (m : model) (st : state) : state := snd (param_mapping cse (m_free m) (m_det m) st).
Definition parameters (m : model) : list sym :=
  filter (fun x => negb (smem x (map fst (m_calib m)))) (m_free m ++ map fst (m_det m)).
Fixpoint dependsb (i : nat) (n : node) : bool :=
  match n with Const _ => false | Inp j _ => Nat.eqb i j | Ap _ l => existsb (dependsb i) l end.
(* the identity of the input cached for a symbol *)
Definition cached_input (st : state) (s : sym) : option nat := match cache st (key_of s) with Some (Inp i _) => Some i | _ => None end.
(* replacements: a dictionary filled in order *)
Fixpoint replacements (st : state) (l : list (sym * node)) (m : mapping V Op) : mapping V Op :=
  match l with
  | [] => m
  | (s, n) :: t => replacements st t (match cache st (key_of s) with Some old => mset old n m | None => m end)
  end.
Definition substitute_and_filter (equations : list node) (sol : list (sym * output)) (ss_variables params : list sym) (st : state) : list node * state :=
  let known := filter (fun p => smem (fst p) ss_variables) sol in
  match known with
  | [] => (equations, st)
  | _ =>
      let k := convert cse params (map snd known) false st in
      let st := snd k in
      let m := replacements st (combine (map fst known) (snd (fst k))) [] in
      let known_ids := flat_map (fun p => match cached_input st (fst p) with Some i => [i] | None => [] end) known in
      let unknown_ids := flat_map (fun v => match cached_input st v with Some i => if imem i known_ids then [] else [i] | None => [] end) ss_variables in
      (filter (fun n => existsb (fun i => dependsb i n) unknown_ids) (map (replace m) equations), st)
  end.
Definition ss_residual (m : model) (sol : list (sym * output)) (st : state) : list node * state :=
  let st := param_dict_func m st in
  let r := convert cse (all_vars m ++ parameters m) (m_eqs m ++ map snd (m_calib m)) false st in
  substitute_and_filter (snd (fst r)) sol (all_vars m) (parameters m) (snd r).

(* the lazily filled attributes *)
Record lazy := Lazy { l_cache : option state; l_filtered : option (list node); l_full : option (list node) }.
Definition fresh_model : lazy := Lazy None None None.
Definition ensure_cache (m : model) (s : lazy) : state :=
  match l_cache s with Some st => st | None => param_dict_func m empty end.
Definition equation_tensors (m : model) (filter_known : bool) (s : lazy) : list node * lazy :=
  if filter_known then
    match l_filtered s with
    | Some e => (e, s)
    | None => let r := ss_residual m (m_sol m) (ensure_cache m s) in (fst r, Lazy (Some (snd r)) (Some (fst r)) (l_full s))
    end
  else
    match l_full s with
    | Some e => (e, s)
    | None => let r := ss_residual m [] (ensure_cache m s) in (fst r, Lazy (Some (snd r)) (l_filtered s) (Some (fst r)))
    end.
Definition ss_tensors (m : model) (filter_known : bool) (s : lazy) : list node * lazy :=
  let known_names := if filter_known then map (fun p => sname (fst p)) (m_sol m) else [] in
  let r := as_tensors (map Sy (filter (fun v => negb (nmem (sname v) known_names)) (all_vars m))) (ensure_cache m s) in
  (fst r, Lazy (Some (snd r)) (l_filtered s) (l_full s)).
Definition param_tensors (m : model) (free det calib : bool) (s : lazy) : list node * lazy :=
  let symbols := (if free then m_free m else []) ++ (if det then map fst (m_det m) else []) ++ (if calib then map fst (m_calib m) else []) in
  let r := as_tensors (map Sy symbols) (ensure_cache m s) in
  (fst r, Lazy (Some (snd r)) (l_filtered s) (l_full s)).
(* merged_ss[k] = value *)
Fixpoint assign (k : sym) (v : output) (d : list (sym * output)) : list (sym * output) :=
  match d with [] => [(k, v)] | (k', v') :: t => if sym_dec k k' then (k, v) :: t else (k', v') :: assign k v t end.
Definition merged (m : model) (fixed : list (sym * V)) : list (sym * output) :=
  fold_left (fun d p => assign (fst p) (inl (snd p)) d) fixed (m_sol m).
Definition resid_with_fixed_values (m : model) (fixed : list (sym * V)) (s : lazy) : list node * list node * lazy :=
  let sol := merged m fixed in
  let r := ss_residual m sol (ensure_cache m s) in
  let s := snd (equation_tensors m false (Lazy (Some (snd r)) (l_filtered s) (l_full s))) in
  let merged_names := map (fun p => sname (fst p)) sol in
  let vars_to_solve := filter (fun v => negb (nmem (sname v) merged_names)) (all_vars m) in
  let nodes := flat_map (fun v => match cache (ensure_cache m s) (key_of v) with Some n => [n] | None => [] end) vars_to_solve in
  (fst r, nodes, s).

Inductive query := SsTensors (filter_known : bool) | ParamTensors (free det calib : bool) | EquationTensors (filter_known : bool)
                 | WithFixed (fixed : list (sym * V)) | OtherGraph (c : call V Op).
Inductive reply := Nodes (l : list node) | Problem (equations inputs : list node) | Graphs (a : answer V Op).
Definition ask (m : model) (q : query) (s : lazy) : reply * lazy :=
  match q with
  | SsTensors f => let r := ss_tensors m f s in (Nodes (fst r), snd r)
  | ParamTensors a b c => let r := param_tensors m a b c s in (Nodes (fst r), snd r)
  | EquationTensors f => let r := equation_tensors m f s in (Nodes (fst r), snd r)
  | WithFixed fv => let r := resid_with_fixed_values m fv s in (Problem (fst (fst r)) (snd (fst r)), snd r)
  (* linearize_model and users of sympy_to_pytensor_cache convert more expressions with the same cache *)
  | OtherGraph c => let r := perform cse deriv is_number zero c (ensure_cache m s) in (Graphs (fst r), Lazy (Some (snd r)) (l_filtered s) (l_full s))
  end.
Fixpoint session (m : model) (h : list query) (s : lazy) : list reply * lazy :=
  match h with [] => ([], s) | q :: t => let a := ask m q s in let b := session m t (snd a) in (fst a :: fst b, snd b) end.
End T.
Arguments Model {V Op}. Arguments m_free {V Op}. Arguments m_det {V Op}. Arguments m_calib {V Op}. Arguments m_vars {V Op}.
Arguments m_eqs {V Op}. Arguments m_sol {V Op}. Arguments all_vars {V Op}. Arguments parameters {V Op}. Arguments dependsb {V Op}.
Arguments cached_input {V Op}. Arguments replacements {V Op}. Arguments substitute_and_filter {V Op}. Arguments ss_residual {V Op}.
Arguments Lazy {V Op}. Arguments l_cache {V Op}. Arguments l_filtered {V Op}. Arguments l_full {V Op}. Arguments fresh_model {V Op}.
Arguments param_dict_func {V Op}. Arguments ensure_cache {V Op}. Arguments equation_tensors {V Op}. Arguments ss_tensors {V Op}.
Arguments param_tensors {V Op}. Arguments assign {V Op}. Arguments merged {V Op}. Arguments resid_with_fixed_values {V Op}.
Arguments SsTensors {V Op}. Arguments ParamTensors {V Op}. Arguments EquationTensors {V Op}. Arguments WithFixed {V Op}. Arguments OtherGraph {V Op}.
Arguments Nodes {V Op}. Arguments Problem {V Op}. Arguments Graphs {V Op}. Arguments ask {V Op}. Arguments session {V Op}.
