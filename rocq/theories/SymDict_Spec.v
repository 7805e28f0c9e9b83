(* Specification vocabulary for SymDict. *)
From Verif Require Import Common TimeIndex_Model SymDict_Model.
Local Open Scope list_scope.
Section Spec.
Context {A : Type} (A_dec : forall a b : A, {a = b} + {a <> b}) (noasm : A) {V : Type}.
Notation exec := (exec A A_dec noasm V).
Notation heap := (heap A V).

(* Which existing dictionary a call is meant to change. *)
Definition target (i : instr A V) : option nat :=
  match i with
  | ISet _ _ r _ _ | IUpdate _ _ r _ | IUpdatePlain _ _ r _ => Some r
  | IToSympy _ _ b r | IToString _ _ b r | IStep _ _ _ b r | ISort _ _ b r | IConvert _ _ _ b r => if b then Some r else None
  | INew _ _ _ | ICopy _ _ _ | IOr _ _ _ _ => None
  end.
Definition operands (i : instr A V) : list nat :=
  match i with
  | INew _ _ _ => []
  | ICopy _ _ r | ISet _ _ r _ _ | IUpdatePlain _ _ r _ => [r]
  | IOr _ _ r s | IUpdate _ _ r s => [r; s]
  | IToSympy _ _ _ r | IToString _ _ _ r | IStep _ _ _ _ r | ISort _ _ _ r | IConvert _ _ _ _ r => [r]
  end.
(* Everything a later operation on dictionary r can see: entries, mode, and both metadata tables. *)
Definition view (h : heap) (r : nat) := (items _ _ (obj _ _ h r), is_sympy _ _ (obj _ _ h r), asm_of _ _ h r, isv_of _ _ h r).

(* copy, | and the value conversions share metadata; so does stepping a dictionary with string keys. *)
Definition shares (i : instr A V) (h : heap) : Prop :=
  match i with
  | ICopy _ _ _ | IOr _ _ _ _ | IConvert _ _ _ _ _ => True
  | IStep _ _ _ _ r => is_sympy _ _ (obj _ _ h r) = false
  | _ => False
  end.
Definition returned (x : heap * result nat) : list nat := match snd x with Ok r => [r] | Err _ => [] end.
(* Addresses of dictionaries the program has received so far. *)
Fixpoint live_after (p : list (instr A V)) (live : list nat) (h : heap) : list nat :=
  match p with
  | [] => live
  | i :: p' => live_after p' (returned (exec i h) ++ live) (fst (exec i h))
  end.
(* The program only uses dictionaries it has received and never makes a metadata-sharing call. *)
Fixpoint unshared (p : list (instr A V)) (live : list nat) (h : heap) : Prop :=
  match p with
  | [] => True
  | i :: p' => (forall r, In r (operands i) -> In r live) /\ ~ shares i h /\
               unshared p' (returned (exec i h) ++ live) (fst (exec i h))
  end.

(* One dictionary has keys of one kind only, and is_sympy tells which. *)
Definition one_mode (h : heap) (r : nat) : Prop :=
  forall k, In k (map fst (items _ _ (obj _ _ h r))) -> is_str _ k = negb (is_sympy _ _ (obj _ _ h r)).
Definition is_update (i : instr A V) : bool :=
  match i with IUpdate _ _ _ _ | IUpdatePlain _ _ _ _ => true | _ => false end.

(* The name under which the metadata of a symbol is filed. *)
Definition meta_name (k : key A) : chars := match k with KStr s => s | KPar n _ => n | KVar b _ _ => b end.
Definition key_asm (k : key A) : A := match k with KStr _ => noasm | KPar _ a => a | KVar _ _ a => a end.
Definition near_key (k : key A) : Prop :=
  match k with
  | KStr _ => False
  | KPar n _ => True
  | KVar b t _ => ~ In "+"%char b /\ ~ In "-"%char b /\ (t = TSs \/ t = TInt (-1) \/ t = TInt 0 \/ t = TInt 1)
  end.
(* Names are used consistently: distinct keys print differently, and a name stands for one kind of symbol with one set
   of assumptions. *)
Definition consistent (ks : list (key A)) : Prop :=
  (forall k k', In k ks -> In k' ks -> symbol_to_string A k = symbol_to_string A k' -> k = k') /\
  (forall k k', In k ks -> In k' ks -> meta_name k = meta_name k' -> key_asm k = key_asm k') /\
  (forall n a b t a', In (KPar n a) ks -> In (KVar b t a') ks -> n <> b).
End Spec.
