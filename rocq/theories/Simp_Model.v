(* Model of gEconpy/model/simplification.py and its callers: _check_system_is_square l.15-24, reduce_variable_list l.27-35,
   simplify_tryreduce l.38-112, simplify_constants l.115-167; gEconpy/parser/loader.py _extract_tryreduce l.341-366;
   gEconpy/model/build.py _block_dict_to_sub_dict l.84-93 (the resulting dictionary is an argument here) and
   _apply_simplifications l.237-262.
   Simplifications:
   - equations are the expression trees of Sym_Model; a model variable is its base name [b], standing for the symbol
     SDate b 0 at date t.  Two variables with the same name and different assumptions are not distinguished.
   - SymPy's work is left open as parameters: [simp] is eq.simplify(), [auto] the evaluation .subs performs while it
     rebuilds an expression, [natoms] is len(eq.atoms()) (numbers included), [solve e x] the list of expressions
     sp.solve(e, x, dict=True) offers for x, and [sord] the order in which .subs applies a dictionary's entries.
   - the warning is dropped (only its effect, nothing is simplified, is kept). *)
From Verif Require Import Common Sym_Model SymDict_Model Sort_Lib.
Local Open Scope list_scope.

(* the symbol the code lists for a variable *)
Definition now (b : chars) : sym := SDate b 0.
(* utilities.py make_all_var_time_combos l.177-182, for one variable *)
Definition combos (b : chars) : list sym := [SDate b (-1); SDate b 0; SDate b 1; SSs b].
Definition uses (e : sx) (b : chars) : bool := existsb (fun s => smem s (atoms e)) (combos b).
Definition is_zero (e : sx) : bool := match e with Cst 0 => true | _ => false end.
Definition cmem (x : chars) (l : list chars) : bool := existsb (chars_eqb x) l.
Definition base_of (s : sym) : option chars := match s with SPar _ => None | SDate b _ | SSs b => Some b end.
(* x.name of a variable listed at date t: base_name + "_t" *)
Definition name_leb (a b : chars) : bool := chars_leb (a ++ str "_t") (b ++ str "_t").

(* reduce_variable_list l.27-35.  The set comprehension collects the variables occurring, at any date, in some equation;
   both results are sorted by name. *)
Definition occurring (equations : list sx) (variables : list chars) : list chars :=
  filter (fun b => cmem b variables)
    (flat_map (fun e => flat_map (fun s => match base_of s with Some b => [b] | None => [] end) (atoms e)) equations).
Definition chars_dec := list_eq_dec ascii_dec.
Definition reduce_variable_list (equations : list sx) (variables : list chars) : list chars * list chars :=
  let kept := nodup chars_dec (occurring equations variables) in
  (isort name_leb kept, isort name_leb (nodup chars_dec (filter (fun b => negb (cmem b kept)) variables))).

(* the shape of what both simplifications return: equations, variables, eliminated variables *)
Definition outcome := (list sx * list chars * list chars)%type.

Section Sympy.
Variables (simp auto : sx -> sx) (natoms : sx -> nat) (solve : sx -> sym -> list sx) (sord : sdict -> sdict).

(* simplify_tryreduce l.71-98: the column sums of the occurrence matrix and the equations dropped because a requested
   variable occurs in them and nowhere else *)
Definition column_sum (equations : list sx) (b : chars) : nat := length (filter (fun e => uses e b) equations).
Definition to_remove (try_reduce variables : list chars) (equations : list sx) : list chars :=
  filter (fun b => Nat.eqb (column_sum equations b) 1 && cmem b try_reduce)%bool variables.
Definition drop_isolated (try_reduce variables : list chars) (equations : list sx) : list sx :=
  filter (fun e => negb (existsb (fun b => smem (now b) (atoms e)) (to_remove try_reduce variables equations))) equations.
(* l.102-116: one round of the substitution loop.  [d] is tryreduce_sub_dict; only keys that are a variable at date t can
   match, so it is a dictionary from base names. *)
Definition candidate (b : chars) (rhs : sx) (equations : list sx) : list sx :=
  map (fun e => simp (auto (subs1 (now b) rhs e))) equations.
Definition accepted (b : chars) (cand : list sx) : bool :=
  (Nat.eqb (length (filter is_zero cand)) 1 && negb (existsb (fun e => uses e b) cand))%bool.
Definition reduce_one (d : list (chars * sx)) (equations : list sx) (b : chars) : list sx :=
  match lookup b d with
  | None => equations
  | Some rhs =>
      let cand := candidate b rhs equations in
      if accepted b cand then filter (fun e => negb (is_zero e)) cand else equations
  end.
(* l.38-119 *)
Definition simplify_tryreduce (try_reduce : list chars) (equations : list sx) (variables : list chars)
    (d : list (chars * sx)) : outcome :=
  if negb (Nat.eqb (length equations) (length variables)) then (equations, variables, [])
  else let reduced := fold_left (reduce_one d) try_reduce (drop_isolated try_reduce variables equations) in
       (reduced, fst (reduce_variable_list reduced variables), snd (reduce_variable_list reduced variables)).

(* simplify_constants l.122-167.  dict.update keeps the position of existing keys and overwrites their values. *)
Definition dset (d : sdict) (k : sym) (v : sx) : sdict :=
  if smem k (map fst d) then map (fun kv => if sym_eqb (fst kv) k then (k, v) else kv) d else d ++ [(k, v)].
Definition dupdate (d e : sdict) : sdict := fold_left (fun d kv => dset d (fst kv) (snd kv)) e d.
(* the variables among eq.atoms(): distinct time-aware symbols *)
Definition var_atoms (e : sx) : list sym := filter time_aware (nodup sym_eq_dec (atoms e)).
(* l.153-160.  solve(...)[0] on an empty list raises IndexError *)
Definition constant_step (d : sdict) (e : sx) : result sdict :=
  if Nat.leb (natoms e) 3
  then match var_atoms e with
       | [x] => match solve e x with
                | s :: _ => Ok (dupdate d (expand_subs1 x s))
                | [] => Err IndexError
                end
       | _ => Ok d
       end
  else Ok d.
Fixpoint constants (d : sdict) (equations : list sx) : result sdict :=
  match equations with
  | [] => Ok d
  | e :: l => d' <- constant_step d e ;; constants d' l
  end.
Definition simplify_constants (equations : list sx) (variables : list chars) : result outcome :=
  if negb (Nat.eqb (length equations) (length variables)) then Ok (equations, variables, [])
  else d <- constants [] equations ;;
       let reduced := filter (fun e => negb (is_zero e)) (map (fun e => auto (subs_seq (sord d) e)) equations) in
       Ok (reduced, fst (reduce_variable_list reduced variables), snd (reduce_variable_list reduced variables)).

(* build.py _apply_simplifications l.237-262; None stands for a list that was not computed *)
Definition apply_simplifications (try_reduce : list chars) (equations : list sx) (variables : list chars)
    (d : list (chars * sx)) (tryreduce_flag constants_flag : bool)
    : result (list sx * list chars * option (list chars) * option (list chars)) :=
  let '(eqs, vars, elim) :=
    if tryreduce_flag
    then let '(a, b, c) := simplify_tryreduce try_reduce equations variables d in (a, b, Some c)
    else (equations, variables, None) in
  if constants_flag
  then r <- simplify_constants eqs vars ;; let '(a, b, c) := r in Ok (a, b, elim, Some c)
  else Ok (eqs, vars, elim, None).
End Sympy.

(* loader.py _extract_tryreduce l.341-366: every "[]" is deleted from the entry, blanks at both ends are stripped, and the
   first variable with that base name is appended; an entry naming no variable is skipped. *)
Fixpoint drop_brackets (s : chars) : chars :=
  match s with
  | "["%char :: ("]"%char :: s') => drop_brackets s'
  | c :: s' => c :: drop_brackets s'
  | [] => []
  end.
Definition blank (c : ascii) : bool :=
  let n := N_of_ascii c in (N.eqb n 32 || (N.leb 9 n && N.leb n 13) || (N.leb 28 n && N.leb n 31))%bool.
Fixpoint lstrip (s : chars) : chars := match s with c :: s' => if blank c then lstrip s' else s | [] => [] end.
Definition strip (s : chars) : chars := rev (lstrip (rev (lstrip s))).
Definition extract_tryreduce (entries : list chars) (variables : list chars) : list chars :=
  flat_map (fun s => let b := strip (drop_brackets s) in if cmem b variables then [b] else []) entries.
