(* Model of gEconpy/parser/transform/expand_time_indices.py (whole file) and of the parts of
   gEconpy/parser/ast/visitor.py (generic_visit of NodeVisitor l.57-85 and NodeTransformer l.116-172) and
   gEconpy/parser/ast/nodes.py (GCNEquation, GCNBlock, GCNModel) it uses.
   Simplifications: source locations are dropped; the "return the same object when nothing changed" optimisation
   of NodeTransformer is invisible in values; the components that the pass copies untouched (shocks, shock
   distributions, calibration, options, assumptions) are carried as opaque data of type X. *)
From Verif Require Import Common Expr_Model.
Local Open Scope list_scope.

Definition AUX_LAG : chars := str "__lag".
Definition AUX_LEAD : chars := str "__lead".

(* expand_time_indices.py l.18-20 *)
Definition make_lag_name (x : chars) (level : nat) : chars := x ++ AUX_LAG ++ dec (N.of_nat level).
(* l.23-25 *)
Definition make_lead_name (x : chars) (level : nat) : chars := x ++ AUX_LEAD ++ dec (N.of_nat level).

Section M.
Context {F X : Type}.

(* nodes.py: GCNEquation *)
Record equation := Eqn {
  lhs : expr F; rhs : expr F;
  lagrange : option chars; calibrating : option chars; tags : list chars }.
(* nodes.py: GCNBlock; [other] = shocks, shock_distributions, calibration *)
Record gblock := GBlock {
  bname : chars;
  definitions : list equation; controls : list (expr F); objective : list equation;
  constraints : list equation; identities : list equation; other : X }.

(* A Python dict str -> int: insertion ordered, one entry per key.  d[k] = v *)
Fixpoint dset (k : chars) (v : Z) (d : list (chars * Z)) : list (chars * Z) :=
  match d with
  | [] => [(k, v)]
  | (k', v') :: d' => if chars_eqb k k' then (k', v) :: d' else (k', v') :: dset k v d'
  end.
(* d.get(k, dflt) *)
Definition dget (k : chars) (d : list (chars * Z)) (dflt : Z) : Z :=
  match lookup k d with Some v => v | None => dflt end.
(* k in d *)
Definition din (k : chars) (d : list (chars * Z)) : bool :=
  match lookup k d with Some _ => true | None => false end.

(* l.28-43: the collector's state (deep_lags, deep_leads) *)
Definition cstate := (list (chars * Z) * list (chars * Z))%type.
Definition visit_var (n : chars) (t : tix) (s : cstate) : cstate :=
  match t with
  | TIss => s
  | TI z => if Z.ltb z (-1) then (dset n (Z.min (dget n (fst s) 0) z) (fst s), snd s)
            else if Z.ltb 1 z then (fst s, dset n (Z.max (dget n (snd s) 0) z) (snd s))
            else s
  end.
(* NodeVisitor.generic_visit, visitor.py l.69-85 *)
Fixpoint collect (e : expr F) (s : cstate) : cstate :=
  match e with
  | Num _ | Par _ => s
  | Var n t => visit_var n t s
  | Neg a => collect a s
  | Bin _ a b => collect b (collect a s)
  | Fun _ args => fold_left (fun s a => collect a s) args s
  | Expec a => collect a s
  end.
Definition collect_eq (s : cstate) (q : equation) : cstate := collect (rhs q) (collect (lhs q) s).
(* l.78-85 _collect_from_equations *)
Definition collect_eqs (l : list equation) : cstate := fold_left collect_eq l ([], []).

(* l.46-75 DeepTimeIndexReplacer with NodeTransformer.generic_visit *)
Definition replace_var (s : cstate) (n : chars) (t : tix) : expr F :=
  match t with
  | TIss => Var n t
  | TI z =>
      if (din n (fst s) && Z.ltb z (-1))%bool then Var (make_lag_name n (Z.to_nat (Z.abs z - 1))) (TI (-1))
      else if (din n (snd s) && Z.ltb 1 z)%bool then Var (make_lead_name n (Z.to_nat (z - 1))) (TI 1)
      else Var n t
  end.
Fixpoint replace (s : cstate) (e : expr F) : expr F :=
  match e with
  | Num v => Num v
  | Par n => Par n
  | Var n t => replace_var s n t
  | Neg a => Neg (replace s a)
  | Bin o a b => Bin o (replace s a) (replace s b)
  | Fun f args => Fun f (map (replace s) args)
  | Expec a => Expec (replace s a)
  end.
Definition replace_eq (s : cstate) (q : equation) : equation :=
  Eqn (replace s (lhs q)) (replace s (rhs q)) (lagrange q) (calibrating q) (tags q).

(* l.88-108 _create_lag_chain: levels range(1, depth + 1) *)
Definition create_lag_chain (x : chars) (depth : nat) : list equation :=
  map (fun level =>
         let prev := if Nat.eqb level 1 then x else make_lag_name x (level - 1) in
         Eqn (Var (make_lag_name x level) (TI 0)) (Var prev (TI (-1))) None None [])
      (seq 1 depth).
(* l.111-132 _create_lead_chain *)
Definition create_lead_chain (x : chars) (depth : nat) : list equation :=
  map (fun level =>
         let prev := if Nat.eqb level 1 then x else make_lead_name x (level - 1) in
         Eqn (Var (make_lead_name x level) (TI 0)) (Expec (Var prev (TI 1))) None None [])
      (seq 1 depth).

(* l.152-163: the two dictionaries after the controls have been merged in *)
Definition deep_dicts (b : gblock) : cstate :=
  let s := collect_eqs (definitions b ++ objective b ++ constraints b ++ identities b) in
  let c := fold_left (fun s e => collect e s) (controls b) ([], []) in
  (fold_left (fun d kv => dset (fst kv) (Z.min (dget (fst kv) d 0) (snd kv)) d) (fst c) (fst s),
   fold_left (fun d kv => dset (fst kv) (Z.max (dget (fst kv) d 0) (snd kv)) d) (snd c) (snd s)).

(* l.168-173 *)
Definition new_identities (b : gblock) (s : cstate) : list equation :=
  identities b
  ++ flat_map (fun kv => create_lag_chain (fst kv) (Z.to_nat (Z.abs (snd kv) - 1))) (fst s)
  ++ flat_map (fun kv => create_lead_chain (fst kv) (Z.to_nat (snd kv - 1))) (snd s).

(* l.135-192 expand_block_time_indices *)
Definition expand_block (b : gblock) : gblock :=
  let s := deep_dicts b in
  match s with
  | ([], []) => b
  | _ =>
      GBlock (bname b)
        (map (replace_eq s) (definitions b))
        (map (replace s) (controls b))
        (map (replace_eq s) (objective b))
        (map (replace_eq s) (constraints b))
        (map (replace_eq s) (new_identities b s))
        (other b)
  end.

(* l.195-215 expand_model_time_indices (and the per-block call at to_block.py l.290): block by block *)
Definition expand_model (m : list gblock) : list gblock := map expand_block m.
End M.
Arguments equation F : clear implicits.
Arguments gblock F X : clear implicits.
