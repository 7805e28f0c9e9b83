(* From sympy expressions to computation graphs with a shared cache, and the wiring of an estimation model.
     gEconpy/model/compile.py: output_to_tensor l.20-24, _sympytensor_cache_key l.98-99, sympy_to_pytensor l.102-162,
       build_symbolic_jacobians l.165-229, make_cache_key l.311-329, make_return_dict_and_update_cache l.332-376;
     gEconpy/model/parameters.py: compile_param_dict_func l.11-69 (return_symbolic=True);
     gEconpy/model/steady_state.py: compile_known_ss l.316-356 (return_symbolic=True);
     gEconpy/model/perturbation.py: linearize_model l.160-206 (the four Jacobians and the log-linear scaling);
     gEconpy/model/build.py: statespace_from_gcn l.630-700.
   Simplifications: entries are abstract values [V] with abstract operations [Op]; graphs are trees, inputs have an
   identity (a number) and a name; the cache is a function from keys to nodes; sympytensor's as_tensor caches symbols only,
   under (name, class); graph_replace is a simultaneous substitution of inputs; PyTensor's rewrites keep values; the
   permutations of equations and variables are applied by the caller. *)
From Verif Require Import Common.

Inductive cls := CSymbol | CTime.
Record sym := Sym { sname : chars; scls : cls; sassumptions : nat }.
Definition key := (chars * cls)%type.
(* _sympytensor_cache_key, make_cache_key: no assumptions *)
Definition key_of (s : sym) : key := (sname s, scls s).
Definition cls_dec (a b : cls) : {a = b} + {a <> b}.
Proof. decide equality. Defined.
Definition key_dec (a b : key) : {a = b} + {a <> b}.
Proof. decide equality; [apply cls_dec|apply (list_eq_dec ascii_dec)]. Defined.
(* the names that sp.numbered_symbols("__cse_tmp_") makes *)
Definition temp_name (n : nat) : chars := str "__cse_tmp_" ++ dec (N.of_nat n).

Section Conv.
Variables V Op : Type.
Inductive expr := Num (v : V) | Sy (s : sym) | App (f : Op) (l : list expr).
Inductive node := Const (v : V) | Inp (i : nat) (nm : chars) | Ap (f : Op) (l : list node).
Record state := State { cache : key -> option node; next : nat }.
Definition empty : state := State (fun _ => None) 0.
Definition put (k : key) (n : node) (st : state) : state :=
  State (fun k' => if key_dec k k' then Some n else cache st k') (next st).
(* a scalar input for a key: the cached one, or a new one *)
Definition input_for (k : key) (st : state) : node * state :=
  match cache st k with
  | Some n => (n, st)
  | None => let n := Inp (next st) (fst k) in (n, State (cache (put k n st)) (S (next st)))
  end.
(* sympytensor.as_tensor *)
Fixpoint as_tensor (e : expr) (st : state) : node * state :=
  match e with
  | Num v => (Const v, st)
  | Sy s => input_for (key_of s) st
  | App f l =>
      let r := (fix go (l : list expr) (st : state) : list node * state :=
                  match l with
                  | [] => ([], st)
                  | x :: t => let a := as_tensor x st in let b := go t (snd a) in (fst a :: fst b, snd b)
                  end) l st in
      (Ap f (fst r), snd r)
  end.
Fixpoint as_tensors (l : list expr) (st : state) : list node * state :=
  match l with
  | [] => ([], st)
  | x :: t => let a := as_tensor x st in let b := as_tensors t (snd a) in (fst a :: fst b, snd b)
  end.
(* the pairs of sp.cse, planted in order *)
Fixpoint plant (subs : list (sym * expr)) (st : state) : state :=
  match subs with
  | [] => st
  | (t, rhs) :: rest => let a := as_tensor rhs st in plant rest (put (key_of t) (fst a) (snd a))
  end.
Variable cse : list expr -> list (sym * expr) * list expr.
(* an output is a Python number or a sympy expression *)
Definition output := (V + expr)%type.
Definition exprs_of (outs : list output) : list expr := flat_map (fun o => match o with inl _ => [] | inr e => [e] end) outs.
(* reduced_by_idx.get(i, x) *)
Fixpoint merge (outs : list output) (reduced : list expr) : list output :=
  match outs, reduced with
  | inl v :: outs', _ => inl v :: merge outs' reduced
  | inr e :: outs', r :: reduced' => inr r :: merge outs' reduced'
  | _, _ => outs
  end.
Definition to_expr (o : output) : expr := match o with inl v => Num v | inr e => e end.
(* sympy_to_pytensor *)
Definition convert (inputs : list sym) (outs : list output) (use_cse : bool) (st : state) : list node * list node * state :=
  let a := as_tensors (map Sy inputs) st in
  if use_cse && (1 <? length (exprs_of outs)) then
    let c := cse (exprs_of outs) in
    let b := as_tensors (map to_expr (merge outs (snd c))) (plant (fst c) (snd a)) in
    (fst a, fst b, snd b)
  else let b := as_tensors (map to_expr outs) (snd a) in (fst a, fst b, snd b).

(* build_symbolic_jacobians; [deriv eq v] is eq.diff(v), taken to the steady state if asked; [is_number e] is e.is_number *)
Variable deriv : expr -> sym -> expr.
Variable is_number : expr -> bool.
Variable zero : V.
Definition spec := (list expr * list sym)%type.
Definition grid (s : spec) : list (list expr) :=
  match fst s, snd s with [], _ | _, [] => [] | eqs, wrt => map (fun eq => map (deriv eq) wrt) eqs end.
Fixpoint slice_rows (n_eq n_wrt : nat) (flat : list expr) : list (list expr) :=
  match n_eq with 0 => [] | S n' => firstn n_wrt flat :: slice_rows n' n_wrt (skipn n_wrt flat) end.
Fixpoint matrix (rows : list (list expr)) (st : state) : list (list node) * state :=
  match rows with
  | [] => ([], st)
  | r :: rest => let a := as_tensors r st in let b := matrix rest (snd a) in (fst a :: fst b, snd b)
  end.
Fixpoint materialize (shapes : list (nat * nat)) (flat : list expr) (st : state) : list (list (list node)) * state :=
  match shapes with
  | [] => ([], st)
  | (n_eq, n_wrt) :: rest =>
      if (n_eq =? 0) || (n_wrt =? 0) then
        let b := materialize rest flat st in (repeat (repeat (Const zero) n_wrt) n_eq :: fst b, snd b)
      else
        let a := matrix (slice_rows n_eq n_wrt flat) st in
        let b := materialize rest (skipn (n_eq * n_wrt) flat) (snd a) in (fst a :: fst b, snd b)
  end.
Definition jacobians (specs : list spec) (st : state) : list (list (list node)) * state :=
  let shapes := map (fun s => (length (fst s), length (snd s))) specs in
  let flat := flat_map (fun s => concat (grid s)) specs in
  if 1 <? length (filter (fun e => negb (is_number e)) flat) then
    let c := cse flat in materialize shapes (snd c) (plant (fst c) st)
  else materialize shapes flat st.

(* any sequence of conversions sharing one cache *)
Inductive call := Convert (inputs : list sym) (outs : list output) (use_cse : bool) | Jac (specs : list spec).
Inductive answer := AConvert (ins outs : list node) | AJac (ms : list (list (list node))).
Definition perform (c : call) (st : state) : answer * state :=
  match c with
  | Convert i o u => let r := convert i o u st in (AConvert (fst (fst r)) (snd (fst r)), snd r)
  | Jac s => let r := jacobians s st in (AJac (fst r), snd r)
  end.
Fixpoint run (h : list call) (st : state) : list answer * state :=
  match h with
  | [] => ([], st)
  | c :: t => let a := perform c st in let b := run t (snd a) in (fst a :: fst b, snd b)
  end.

(* ---------- wiring ---------- *)
(* mappings from input nodes to graphs, by the identity of the input *)
Definition mapping := list (nat * node).
Fixpoint lookup (i : nat) (m : mapping) : option node :=
  match m with [] => None | (j, n) :: t => if i =? j then Some n else lookup i t end.
Definition mset (n v : node) (m : mapping) : mapping := match n with Inp i _ => (i, v) :: filter (fun p => negb (fst p =? i)) m | _ => m end.
(* graph_replace(n, m, strict=False) *)
Fixpoint replace (m : mapping) (n : node) : node :=
  match n with
  | Const v => Const v
  | Inp i nm => match lookup i m with Some v => v | None => Inp i nm end
  | Ap f l => Ap f (map (replace m) l)
  end.
(* make_return_dict_and_update_cache: zip without strict *)
Fixpoint return_dict (syms : list sym) (vals : list node) (c : cls) (m : mapping) (st : state) : mapping * state :=
  match syms, vals with
  | s :: syms', v :: vals' => let a := input_for (sname s, c) st in return_dict syms' vals' c (mset (fst a) v m) (snd a)
  | _, _ => (m, st)
  end.
(* compile_param_dict_func *)
Definition param_mapping (free : list sym) (det : list (sym * output)) (st : state) : mapping * state :=
  let r := convert free (map (fun s => inr (Sy s)) free ++ map snd det) false st in
  return_dict (free ++ map fst det) (snd (fst r)) CSymbol [] (snd r).
(* compile_known_ss: [sol v] is the solution for the steady state of the variable v, if there is one *)
Definition known_exprs (sol : sym -> option output) (ss_vars : list sym) : list output :=
  flat_map (fun v => match sol v with Some o => [o] | None => [] end) ss_vars.
Definition ss_mapping (sol : sym -> option output) (ss_vars params : list sym) (st : state) : mapping * state :=
  let r := convert params (known_exprs sol ss_vars) false st in
  return_dict ss_vars (snd (fst r)) CTime [] (snd r).
(* the log-linear factor of a column *)
Inductive scaling := Level | Positive | Guarded.
Variables (op_mul op_switch : Op) (one : V).
Definition scale_node (k : scaling) (ss : node) : node :=
  match k with Level => Const one | Positive => ss | Guarded => Ap op_switch [ss] end.
Fixpoint zip_with {X Y Z} (f : X -> Y -> Z) (l : list X) (l' : list Y) : list Z :=
  match l, l' with a :: t, b :: t' => f a b :: zip_with f t t' | _, _ => [] end.
Definition scale_columns (scales : list node) (m : list (list node)) : list (list node) :=
  map (fun row => zip_with (fun n s => Ap op_mul [n; s]) row scales) m.
(* linearize_model, columns in the order given *)
Record linear := Linear { eqs : list expr; lags : list sym; now : list sym; leads : list sym; shocks : list sym;
                          ss_vars : list sym; kinds : list scaling }.
Definition linearize (l : linear) (st : state) : list (list (list node)) * state :=
  let j := jacobians [(eqs l, lags l); (eqs l, now l); (eqs l, leads l); (eqs l, shocks l)] st in
  let s := as_tensors (map Sy (ss_vars l)) (snd j) in
  let scales := zip_with scale_node (kinds l) (fst s) in
  (match fst j with
   | [A; B; C; D] => [scale_columns scales A; scale_columns scales B; scale_columns scales C; D]
   | _ => []
   end, snd s).
(* statespace_from_gcn: A, B, C, D as graphs of the free parameters *)
Definition wire (free : list sym) (det : list (sym * output)) (sol : sym -> option output) (l : linear) : result (list (list (list node))) :=
  let p := param_mapping free det empty in
  let s := ss_mapping sol (ss_vars l) (free ++ map fst det) (snd p) in
  if (length (known_exprs sol (ss_vars l)) =? 0) || negb (length (fst s) =? length (ss_vars l)) then Err NotImplementedError
  else let j := linearize l (snd s) in
       let sm := map (fun q => (fst q, replace (fst p) (snd q))) (fst s) in
       Ok (map (map (map (replace (sm ++ fst p)))) (fst j)).
End Conv.
Arguments Num {V Op}. Arguments Sy {V Op}. Arguments App {V Op}. Arguments Const {V Op}. Arguments Inp {V Op}. Arguments Ap {V Op}.
Arguments State {V Op}. Arguments cache {V Op}. Arguments next {V Op}. Arguments empty {V Op}. Arguments put {V Op}.
Arguments input_for {V Op}. Arguments as_tensor {V Op}. Arguments as_tensors {V Op}. Arguments plant {V Op}.
Arguments exprs_of {V Op}. Arguments merge {V Op}. Arguments to_expr {V Op}. Arguments convert {V Op}. Arguments grid {V Op}.
Arguments slice_rows {V Op}. Arguments matrix {V Op}. Arguments materialize {V Op}. Arguments jacobians {V Op}.
Arguments Convert {V Op}. Arguments Jac {V Op}. Arguments AConvert {V Op}. Arguments AJac {V Op}. Arguments perform {V Op}.
Arguments run {V Op}. Arguments lookup {V Op}. Arguments mset {V Op}. Arguments replace {V Op}. Arguments return_dict {V Op}.
Arguments param_mapping {V Op}. Arguments known_exprs {V Op}. Arguments ss_mapping {V Op}. Arguments scale_node {V Op}.
Arguments scale_columns {V Op}. Arguments linearize {V Op}. Arguments wire {V Op}. Arguments Linear {V Op}.
Arguments eqs {V Op}. Arguments lags {V Op}. Arguments now {V Op}. Arguments leads {V Op}. Arguments shocks {V Op}.
Arguments ss_vars {V Op}. Arguments kinds {V Op}.
