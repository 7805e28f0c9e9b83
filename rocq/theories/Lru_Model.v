(* The cache of compiled functions.
     gEconpy/pytensorf/compile.py: _compile_cached l.16-48 (functools.lru_cache(maxsize=128)), compile_pytensor_function
       l.51-126, clear_compile_cache l.129-131, compile_cache_info l.134-136.
   Graph nodes are compared by identity, so a node is a number.  The remaining arguments (mode, name, flags) are a value of
   a type X that the cache compares by equality.  pytensor.function (with the rewrites before it) is a parameter [build]
   that may raise; what it returns is described by the arguments it was given, and every successful call makes a new
   object.  functools.lru_cache is modelled by the list of its entries, most recently used first; a raising call is counted
   as a miss and stores nothing.  Thread safety is not modelled. *)
From Verif Require Import Common.
Local Open Scope list_scope.

Section C.
Variable X : Type.
Variable X_dec : forall a b : X, {a = b} + {a <> b}.
Inductive outputs := One (o : nat) | Many (l : list nat) | Tuple (l : list nat).
(* updates and givens: a dict (a list of items) or a list of pairs *)
Inductive pairs := Dict (l : list (nat * nat)) | Pairs (l : list (nat * nat)).
Record request := Req { r_inputs : list nat; r_outputs : outputs; r_updates : option pairs; r_givens : option pairs; r_rest : X }.
(* the arguments of _compile_cached: lists have become tuples *)
Inductive outkey := KOne (o : nat) | KMany (l : list nat).
Record key := Key { k_inputs : list nat; k_outputs : outkey; k_updates : option (list (nat * nat)); k_givens : option (list (nat * nat)); k_rest : X }.
Definition freeze_pairs (p : option pairs) : option (list (nat * nat)) := option_map (fun p => match p with Dict l | Pairs l => l end) p.
Definition freeze (r : request) : key :=
  Key (r_inputs r) (match r_outputs r with One o => KOne o | Many l | Tuple l => KMany l end)
      (freeze_pairs (r_updates r)) (freeze_pairs (r_givens r)) (r_rest r).
Definition key_dec (a b : key) : {a = b} + {a <> b}.
Proof. repeat decide equality. Defined.

Variable build : key -> result unit.                 (* whether pytensor.function accepts these arguments *)
Record function := Fn { f_object : nat; f_args : key }.
Record cache := Cache { entries : list (key * function); hits : nat; misses : nat; created : nat }.
Definition maxsize := 128.
Definition empty : cache := Cache [] 0 0 0.
Definition same (k : key) (e : key * function) : bool := if key_dec k (fst e) then true else false.
Definition compile_cached (k : key) (c : cache) : result function * cache :=
  match find (same k) (entries c) with
  | Some e => (Ok (snd e), Cache (e :: filter (fun x => negb (same k x)) (entries c)) (S (hits c)) (misses c) (created c))
  | None =>
      match build k with
      | Err e => (Err e, Cache (entries c) (hits c) (S (misses c)) (created c))
      | Ok _ => let f := Fn (created c) k in
                (Ok f, Cache (firstn maxsize ((k, f) :: entries c)) (hits c) (S (misses c)) (S (created c)))
      end
  end.
Definition compile_pytensor_function (r : request) (c : cache) : result function * cache := compile_cached (freeze r) c.
Definition clear_compile_cache (c : cache) : cache := Cache [] 0 0 (created c).
(* hits, misses, maxsize, currsize *)
Definition compile_cache_info (c : cache) : nat * nat * nat * nat := (hits c, misses c, maxsize, length (entries c)).

Inductive call := Compile (r : request) | Clear.
(* a history of calls; what each Compile returned, in order *)
Fixpoint run (h : list call) (c : cache) : list (request * result function) * cache :=
  match h with
  | [] => ([], c)
  | Compile r :: t => let '(x, c) := compile_pytensor_function r c in let '(o, c) := run t c in ((r, x) :: o, c)
  | Clear :: t => run t (clear_compile_cache c)
  end.
End C.
Arguments Req {X}. Arguments Key {X}. Arguments Fn {X}. Arguments Cache {X}. Arguments freeze {X}. Arguments Compile {X}. Arguments Clear {X}.
Arguments entries {X}. Arguments hits {X}. Arguments misses {X}. Arguments created {X}. Arguments f_object {X}. Arguments f_args {X}.
Arguments r_inputs {X}. Arguments r_outputs {X}. Arguments r_updates {X}. Arguments r_givens {X}. Arguments r_rest {X}.
Arguments empty {X}. Arguments compile_cache_info {X}. Arguments clear_compile_cache {X}.
