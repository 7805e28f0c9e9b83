(* Model of gEconpy/classes/containers.py: SymbolDictionary, as objects on a heap with their two metadata dictionaries
   (_assumptions, _is_variable) as separate heap cells, because Python shares them by reference.
   Simplifications:
   - dict values are an abstract type [V]; sympy_number_values_to_floats / float_values_to_sympy_float (l.68-85) are an
     arbitrary function on values, applied to each entry in order;
   - assumptions0 of a symbol is an abstract type [A] (with [noasm] for the empty dictionary);
   - the subclass SteadyStateResults, pickling and keys that are neither strings nor symbols are not modelled. *)
From Verif Require Import Common TimeIndex_Model.
Local Open Scope list_scope.

(* Python's dict as a list in insertion order *)
Section PyDict.
Context {K V : Type} (eqb : K -> K -> bool).
(* d[k] = v : replaces in place, or appends *)
Fixpoint dset (k : K) (v : V) (d : list (K * V)) : list (K * V) :=
  match d with
  | [] => [(k, v)]
  | (k', v') :: d' => if eqb k k' then (k', v) :: d' else (k', v') :: dset k v d'
  end.
(* d.update(d2) *)
Definition dupd (d d2 : list (K * V)) : list (K * V) := fold_left (fun d kv => dset (fst kv) (snd kv) d) d2 d.
(* d.get(k) *)
Fixpoint dget (k : K) (d : list (K * V)) : option V :=
  match d with
  | [] => None
  | (k', v) :: d' => if eqb k k' then Some v else dget k d'
  end.
End PyDict.

Section SymDict.
Variable A : Type.
Variable A_dec : forall a b : A, {a = b} + {a <> b}.
Variable noasm : A.
Variable V : Type.

(* A key: a str, a plain sp.Symbol, or a TimeAwareSymbol *)
Inductive key := KStr (s : chars) | KPar (n : chars) (a : A) | KVar (b : chars) (t : tidx) (a : A).
Definition tidx_dec (a b : tidx) : {a = b} + {a <> b}.
Proof. decide equality. apply Z.eq_dec. Defined.
Definition key_dec (a b : key) : {a = b} + {a <> b}.
Proof. decide equality; try apply (list_eq_dec ascii_dec); try apply A_dec; apply tidx_dec. Defined.
Definition key_eqb (a b : key) : bool := if key_dec a b then true else false.
Definition is_str (k : key) : bool := match k with KStr _ => true | _ => false end.

Definition entries := list (key * V).
Definition asmd := list (chars * A).
Definition isvd := list (chars * bool).

(* symbol_to_string, l.33-36 *)
Definition symbol_to_string (k : key) : chars :=
  match k with KStr s => s | KPar n _ => n | KVar b t a => safe_name (TSym b t a) end.

(* str.split("_") *)
Fixpoint split_us (s : chars) : list chars :=
  match s with
  | [] => [[]]
  | c :: s' => if Ascii.eqb c "_" then [] :: split_us s'
               else match split_us s' with w :: r => (c :: w) :: r | [] => [[c]] end
  end.
(* "_".join *)
Fixpoint join_us (l : list chars) : chars :=
  match l with [] => [] | [w] => w | w :: r => w ++ "_"%char :: join_us r end.
(* SAFE_STRING_TO_INDEX_DICT, l.10 *)
Definition suffix_index (s : chars) : option tidx :=
  if chars_eqb s (str "ss") then Some TSs
  else if chars_eqb s (str "tp1") then Some (TInt 1)
  else if chars_eqb s (str "tm1") then Some (TInt (-1))
  else if chars_eqb s (str "t") then Some (TInt 0) else None.

Definition asm_get (n : chars) (m : asmd) : A := match dget chars_eqb n m with Some a => a | None => noasm end.

(* safe_string_to_sympy, l.13-30 (on strings) *)
Definition safe_string_to_sympy (s : chars) (m : asmd) : key :=
  let ws := split_us s in
  match suffix_index (last ws []) with
  | None => KPar (join_us ws) (asm_get (join_us ws) m)
  | Some t => let n := join_us (removelast ws) in KVar n t (asm_get n m)
  end.

(* s.endswith(suffix) *)
Definition endswith (suf s : chars) : bool := chars_eqb suf (skipn (length s - length suf) s).
(* has_time_suffix, l.40-42 *)
Definition has_time_suffix (s : chars) : bool :=
  existsb (fun suf => endswith suf s) [str "_t"; str "_tp1"; str "_tm1"; str "_ss"].

(* one key in string_keys_to_sympy, l.48-58 *)
Definition key_to_sympy (m : asmd) (iv : isvd) (k : key) : key :=
  match k with
  | KStr s =>
      if negb (match dget chars_eqb s iv with Some b => b | None => true end) || negb (has_time_suffix s)
      then KPar s (asm_get s m)
      else safe_string_to_sympy s m
  | _ => k
  end.
Definition rekey (f : key -> key) (d : entries) : entries :=
  fold_left (fun r kv => dset key_eqb (f (fst kv)) (snd kv) r) d [].
(* string_keys_to_sympy, l.39-60 *)
Definition string_keys_to_sympy (d : entries) (m : asmd) (iv : isvd) : entries := rekey (key_to_sympy m iv) d.
(* sympy_keys_to_strings, l.63-68 *)
Definition sympy_keys_to_strings (d : entries) : entries := rekey (fun k => KStr (symbol_to_string k)) d.

(* The heap *)
Record dobj := DObj { items : entries; is_sympy : bool; ra : nat; rv : nat }.
Record heap := Heap { obj : nat -> dobj; ca : nat -> asmd; cv : nat -> isvd; nxt : nat }.
Definition upd {X} (f : nat -> X) (i : nat) (x : X) : nat -> X := fun j => if Nat.eqb j i then x else f j.
Definition set_obj h r o := Heap (upd (obj h) r o) (ca h) (cv h) (nxt h).
Definition set_ca h r m := Heap (obj h) (upd (ca h) r m) (cv h) (nxt h).
Definition set_cv h r m := Heap (obj h) (ca h) (upd (cv h) r m) (nxt h).
Definition asm_of (h : heap) (r : nat) : asmd := ca h (ra (obj h r)).
Definition isv_of (h : heap) (r : nat) : isvd := cv h (rv (obj h r)).

(* _save_assumptions / _save_is_variable for one key, l.181-204 (only in sympy mode) *)
Definition save_asm (sy : bool) (m : asmd) (k : key) : asmd :=
  if negb sy then m else
  match k with KVar b _ a => dset chars_eqb b a m | KPar n a => dset chars_eqb n a m | KStr _ => m end.
Definition save_isv (sy : bool) (m : isvd) (k : key) : isvd :=
  if negb sy then m else
  match k with KVar b _ _ => dset chars_eqb b true m | KPar n _ => dset chars_eqb n false m | KStr _ => m end.

(* A new object together with its own metadata cells; the address is [nxt h] *)
Definition alloc (h : heap) (d : entries) (sy : bool) (m : asmd) (iv : isvd) : heap :=
  Heap (upd (obj h) (nxt h) (DObj d sy (nxt h) (nxt h))) (upd (ca h) (nxt h) m) (upd (cv h) (nxt h) iv) (S (nxt h)).

(* Operations return the new heap and either the address of the returned object or an exception.  On an exception the
   heap keeps the changes made before it was raised. *)
Definition step_result := (heap * result nat)%type.

(* SymbolDictionary(d), l.106-126 *)
Definition new (d : entries) (h : heap) : step_result :=
  let ks := map fst d in
  let sy := match ks with k :: _ => negb (is_str k) | [] => false end in
  if existsb (fun k => if sy then is_str k else negb (is_str k)) ks then (h, Err KeyError)
  else (alloc h d sy (fold_left (save_asm sy) ks []) (fold_left (save_isv sy) ks []), Ok (nxt h)).

Definition andthen (x : step_result) (f : nat -> heap -> step_result) : step_result :=
  match x with (h, Ok r) => f r h | (h, Err e) => (h, Err e) end.

(* copy, l.173-179: the metadata is shared *)
Definition copy (r : nat) (h : heap) : step_result :=
  let o := obj h r in
  andthen (new (items o) h) (fun c h1 =>
    (set_obj h1 c (DObj (items (obj h1 c)) (is_sympy o) (ra o) (rv o)), Ok c)).

(* self._assumptions.update(m); self._is_variable.update(iv) on the cells of object r *)
Definition meta_update (r : nat) (m : asmd) (iv : isvd) (h : heap) : heap :=
  let h1 := set_ca h (ra (obj h r)) (dupd chars_eqb (asm_of h r) m) in
  set_cv h1 (rv (obj h1 r)) (dupd chars_eqb (isv_of h1 r) iv).

(* update(other : SymbolDictionary), l.226-244 *)
Definition update (r s : nat) (h : heap) : heap :=
  let o := obj h r in
  let h1 := set_obj h r (DObj (dupd key_eqb (items o) (items (obj h s))) (is_sympy o) (ra o) (rv o)) in
  let h2 := meta_update r (asm_of h1 s) (isv_of h1 s) h1 in
  let o2 := obj h2 r in
  if (Nat.eqb (length (items o2)) (length (items (obj h2 s))) || negb (is_sympy o2))%bool
  then set_obj h2 r (DObj (items o2) (is_sympy (obj h2 s)) (ra o2) (rv o2)) else h2.
(* update(other : dict), l.245-249: the plain dict.update *)
Definition update_plain (r : nat) (d : entries) (h : heap) : heap :=
  let o := obj h r in
  set_obj h r (DObj (dupd key_eqb (items o) d) (is_sympy o) (ra o) (rv o)).

(* _clean_update, l.219-224 *)
Definition clean_update (r s : nat) (h : heap) : heap :=
  let o := obj h r in
  let h1 := set_obj h r (DObj [] (is_sympy o) (ra o) (rv o)) in
  let h2 := set_ca h1 (ra (obj h1 r)) [] in
  let h3 := set_cv h2 (rv (obj h2 r)) [] in
  update r s h3.

(* "if inplace: self._clean_update(d); return None  else: return d" *)
Definition finish (inplace : bool) (self : nat) (x : step_result) : step_result :=
  andthen x (fun d h => if inplace then (clean_update self d h, Ok self) else (h, Ok d)).

(* __or__, l.141-171 (with other a SymbolDictionary) *)
Definition or_ (r s : nat) (h : heap) : step_result :=
  andthen (copy r h) (fun c h1 =>
    if Nat.eqb (length (items (obj h1 c))) 0 then
      andthen (copy s h1) (fun c2 h2 => (meta_update c2 (asm_of h2 r) (isv_of h2 r) h2, Ok c2))
    else if Nat.eqb (length (items (obj h1 s))) 0 then
      (meta_update c (asm_of h1 s) (isv_of h1 r) h1, Ok c)
    else if negb (Bool.eqb (is_sympy (obj h1 s)) (is_sympy (obj h1 r))) then (h1, Err ValueError)
    else let h2 := update c s h1 in
         (meta_update c (asm_of h2 s) (isv_of h2 s) h2, Ok c)).

(* __setitem__, l.206-217 *)
Definition setitem (r : nat) (k : key) (v : V) (h : heap) : step_result :=
  let o := obj h r in
  let sy := match items o with [] => negb (is_str k) | _ => is_sympy o end in
  if (sy && is_str k)%bool then (h, Err KeyError)
  else if (negb sy && negb (is_str k))%bool then (h, Err KeyError)
  else
    let h1 := set_obj h r (DObj (dset key_eqb k v (items o)) sy (ra o) (rv o)) in
    let h2 := set_ca h1 (ra o) (save_asm sy (ca h1 (ra o)) k) in
    (set_cv h2 (rv o) (save_isv sy (cv h2 (rv o)) k), Ok r).

(* to_sympy, l.251-268 (without new_assumptions / new_is_variable) *)
Definition to_sympy (inplace : bool) (r : nat) (h : heap) : step_result :=
  finish inplace r (new (string_keys_to_sympy (items (obj h r)) (asm_of h r) (isv_of h r)) h).

(* d._assumptions = m; d._is_variable = iv with fresh copies (the cells of a freshly allocated d) *)
Definition replace_meta (d : nat) (m : asmd) (iv : isvd) (h : heap) : heap :=
  set_cv (set_ca h (ra (obj h d)) m) (rv (obj h d)) iv.

(* to_string, l.316-326 *)
Definition to_string (inplace : bool) (r : nat) (h : heap) : step_result :=
  finish inplace r
    (andthen (copy r h) (fun c h1 =>
     andthen (new (sympy_keys_to_strings (items (obj h1 c))) h1) (fun d h2 =>
       (replace_meta d (asm_of h2 c) (isv_of h2 c) h2, Ok d)))).

Inductive stepper := Fwd | Bwd | ToSS.
(* getattr(k, func_name)() if the key has that method (only TimeAwareSymbol does), l.276-281 *)
Definition step_key (f : stepper) (k : key) : result key :=
  match k with
  | KVar b t a =>
      match (match f with Fwd => step_forward (TSym b t a) | Bwd => step_backward (TSym b t a) | ToSS => Ok (to_ss (TSym b t a)) end) with
      | Ok s => Ok (KVar (base s) (tix s) (asm s))
      | Err e => Err e
      end
  | _ => Ok k
  end.
Fixpoint step_keys (f : stepper) (d acc : entries) : result entries :=
  match d with
  | [] => Ok acc
  | (k, v) :: d' => k' <- step_key f k ;; step_keys f d' (dset key_eqb k' v acc)
  end.

(* _step_dict_keys, l.270-288, then step_backward / step_forward / to_ss, l.290-314 *)
Definition step_dict (f : stepper) (inplace : bool) (r : nat) (h : heap) : step_result :=
  let sy := is_sympy (obj h r) in
  finish inplace r
    (andthen (copy r h) (fun c h1 =>
     andthen (if sy then (h1, Ok c) else to_sympy true c h1) (fun c h2 =>
     match step_keys f (items (obj h2 c)) [] with
     | Err e => (h2, Err e)
     | Ok d => andthen (new d h2) (fun n h3 => if sy then (h3, Ok n) else to_string true n h3)
     end))).

(* sorted() on strings: code-point order *)
Fixpoint chars_leb (a b : chars) : bool :=
  match a, b with
  | [], _ => true
  | _ :: _, [] => false
  | x :: a', y :: b' => if Ascii.eqb x y then chars_leb a' b' else N.ltb (N_of_ascii x) (N_of_ascii y)
  end.
Definition key_leb (a b : key) : bool := chars_leb (symbol_to_string a) (symbol_to_string b).
Fixpoint kinsert (kv : key * V) (d : entries) : entries :=
  match d with
  | [] => [kv]
  | kv' :: d' => if key_leb (fst kv) (fst kv') then kv :: d else kv' :: kinsert kv d'
  end.
(* sort_dictionary, l.88-94 (its keys are strings here) *)
Definition sort_dictionary (d : entries) : entries := fold_right kinsert [] d.
(* sort_keys, l.328-341 *)
Definition sort_keys (inplace : bool) (r : nat) (h : heap) : step_result :=
  let sy := is_sympy (obj h r) in
  finish inplace r
    (andthen (copy r h) (fun c h1 =>
     andthen (to_string false c h1) (fun s h2 =>
     andthen (new (sort_dictionary (items (obj h2 s))) h2) (fun d h3 =>
       let h4 := replace_meta d (asm_of h3 r) (isv_of h3 r) h3 in
       if sy then to_sympy false d h4 else (h4, Ok d))))).

(* values_to_float, l.343-353 / float_to_values, l.355-365: [conv v = Some v'] when the value is converted *)
Fixpoint map_values (conv : V -> option V) (c : nat) (d : entries) (h : heap) : step_result :=
  match d with
  | [] => (h, Ok c)
  | (k, v) :: d' =>
      match conv v with
      | Some v' => andthen (setitem c k v' h) (fun _ h1 => map_values conv c d' h1)
      | None => map_values conv c d' h
      end
  end.
Definition convert_values (conv : V -> option V) (inplace : bool) (r : nat) (h : heap) : step_result :=
  finish inplace r
    (andthen (copy r h) (fun c h1 =>
     andthen (map_values conv c (items (obj h1 c)) h1) (fun c h2 =>
       let m := asm_of h2 r in let iv := isv_of h2 r in
       (* d._assumptions = self._assumptions.copy() : new cells *)
       let o := obj h2 c in
       let h3 := Heap (upd (obj h2) c (DObj (items o) (is_sympy o) (nxt h2) (nxt h2)))
                      (upd (ca h2) (nxt h2) m) (upd (cv h2) (nxt h2) iv) (S (nxt h2)) in
       (h3, Ok c)))).

(* A user's call and a history of calls.  Calls that raise are caught and the history goes on. *)
Inductive instr :=
| INew (d : entries)
| ICopy (r : nat)
| IOr (r s : nat)
| ISet (r : nat) (k : key) (v : V)
| IUpdate (r s : nat)
| IUpdatePlain (r : nat) (d : entries)
| IToSympy (inplace : bool) (r : nat)
| IToString (inplace : bool) (r : nat)
| IStep (f : stepper) (inplace : bool) (r : nat)
| ISort (inplace : bool) (r : nat)
| IConvert (conv : V -> option V) (inplace : bool) (r : nat).

Definition exec (i : instr) (h : heap) : step_result :=
  match i with
  | INew d => new (dupd key_eqb [] d) h
  | ICopy r => copy r h
  | IOr r s => or_ r s h
  | ISet r k v => setitem r k v h
  | IUpdate r s => (update r s h, Ok r)
  | IUpdatePlain r d => (update_plain r d h, Ok r)
  | IToSympy b r => to_sympy b r h
  | IToString b r => to_string b r h
  | IStep f b r => step_dict f b r h
  | ISort b r => sort_keys b r h
  | IConvert c b r => convert_values c b r h
  end.
Fixpoint exec_all (p : list instr) (h : heap) : heap :=
  match p with [] => h | i :: p' => exec_all p' (fst (exec i h)) end.

Definition empty_heap : heap := Heap (fun _ => DObj [] false 0 0) (fun _ => []) (fun _ => []) 1.
End SymDict.
Arguments KStr {A}. Arguments KPar {A}. Arguments KVar {A}.
