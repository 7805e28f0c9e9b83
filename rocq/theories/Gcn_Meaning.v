(* Specification: which model a parsed GCN text denotes.  Independent of the functions that build the AST. *)
From Verif Require Import Common Expr_Model SymDict_Model Gcn_Lex Gcn_Model.
Local Open Scope list_scope.

(* [a] is what the last element of [l] with an answer says, [d] if there is none *)
Definition is_last {A B} (f : A -> option B) (l : list A) (d a : B) : Prop :=
  (exists l1 x l2, l = l1 ++ x :: l2 /\ f x = Some a /\ (forall y, In y l2 -> f y = None)) \/ ((forall y, In y l -> f y = None) /\ a = d).
(* keys in order of first appearance *)
Fixpoint firsts (l : list chars) : list chars :=
  match l with [] => [] | k :: l' => k :: filter (fun x => negb (chars_eqb k x)) (firsts l') end.
(* a dict written as a list of items: the last value of a key counts, keys stay where they first appeared *)
Definition dict_of {V} (l d : list (chars * V)) : Prop :=
  map fst d = firsts (map fst l) /\
  forall k v, In (k, v) d <-> exists l1 l2, l = l1 ++ (k, v) :: l2 /\ ~ In k (map fst l2).

Section Meaning.
Context {F : Type} (fread : chars -> F) (farith : dop -> F -> F -> result F).
(* a number, or numbers joined by one and the same operator, computed from left to right *)
Inductive chain (o : dop) : F -> list chars -> F -> Prop :=
| chain_end v : chain o v [] v
| chain_next v t ts v' v'' : farith o v (fread t) = Ok v' -> chain o v' ts v'' -> chain o v (t :: ts) v''.
Inductive value_of : dnum -> F -> Prop :=
| value_of_number t : value_of (DN t) (fread t)
| value_of_chain o t ts v : chain o (fread t) ts v -> value_of (DOp o (DN t) (map DN ts)) v.
Inductive arg_of : chars * darg -> chars * dval F -> Prop :=
| arg_of_number k e v : value_of e v -> arg_of (k, ANum e) (k, VNum v)
| arg_of_none k : arg_of (k, ANone) (k, VNone)
| arg_of_name k n : arg_of (k, AName n) (k, VName n).
Definition args_meaning (l : list (chars * darg)) (d : list (chars * dval F)) : Prop := exists vs, Forall2 arg_of l vs /\ dict_of vs d.
Definition dist_of (r : rawdist) (d : dist F) : Prop :=
  d_par d = rd_par r /\ d_name d = rd_name r /\ args_meaning (rd_args r) (d_args d) /\
  (match rd_wrapper r with
   | Some (w, l) => d_wrapper d = Some w /\ args_meaning l (d_wargs d)
   | None => d_wrapper d = None /\ d_wargs d = []
   end) /\
  (match rd_init r with Some e => exists v, d_init d = Some v /\ value_of e v | None => d_init d = None end).
Inductive item_of : rawdist + equation F -> item F -> Prop :=
| item_of_dist r d : dist_of r d -> item_of (inl r) (IDist d)
| item_of_eqn e : item_of (inr e) (IEqn e).

(* a block: of several components of one kind only the last counts *)
Definition block_of (nc : chars * list (component F)) (b : block F) : Prop :=
  b_name b = fst nc /\
  is_last (fun c => match c with CDefinitions l => Some l | _ => None end) (snd nc) [] (definitions b) /\
  is_last (fun c => match c with CControls l => Some l | _ => None end) (snd nc) [] (controls b) /\
  is_last (fun c => match c with CObjective l => Some l | _ => None end) (snd nc) [] (objective b) /\
  is_last (fun c => match c with CConstraints l => Some l | _ => None end) (snd nc) [] (constraints b) /\
  is_last (fun c => match c with CIdentities l => Some l | _ => None end) (snd nc) [] (identities b) /\
  is_last (fun c => match c with CShocks v d => Some (v, d) | _ => None end) (snd nc) ([], []) (shocks b, shock_dists b) /\
  (* every calibration component must make sense, also one that is replaced *)
  (forall l, In (CCalibration l) (snd nc) -> exists r, Forall2 item_of l r) /\
  (exists l, is_last (fun c => match c with CCalibration l => Some l | _ => None end) (snd nc) [] l /\ Forall2 item_of l (calibration b)).

(* assumptions: a listed variable is real, has every kind it is listed under (in lower case), and is positive if it is listed
   under unit_interval; kinds in order of first appearance *)
Definition listing (kind : chars) : list chars :=
  if chars_eqb (map lower kind) (str "unit_interval") then [str "unit_interval"; str "positive"] else [map lower kind].
Definition kinds (l : list (chars * list chars)) (v : chars) : list chars :=
  flat_map (fun s => flat_map (fun x => if chars_eqb x v then listing (fst s) else []) (snd s)) l.
Definition assumptions_of (l : list (chars * list chars)) (d : list (chars * list (chars * bool))) : Prop :=
  map fst d = firsts (concat (map snd l)) /\
  forall v a, In (v, a) d -> a = map (fun k => (k, true)) (firsts (str "real" :: kinds l v)).

Definition model_of (raw : list special * list (chars * list (component F))) (m : gmodel F) : Prop :=
  Forall2 block_of (snd raw) (blocks m) /\
  (exists l, is_last (fun s => match s with SOptions l => Some l | _ => None end) (fst raw) [] l /\ dict_of l (options m)) /\
  is_last (fun s => match s with STryreduce l => Some l | _ => None end) (fst raw) [] (tryreduce m) /\
  (exists l, is_last (fun s => match s with SAssumptions l => Some l | _ => None end) (fst raw) [] l /\ assumptions_of l (assumptions m)).
End Meaning.
