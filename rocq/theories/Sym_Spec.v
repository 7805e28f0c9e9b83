(* Meaning of symbolic expressions and the statements' vocabulary, independent of how the code manipulates them. *)
From Verif Require Import Common Sym_Model.
From Coq Require Import Reals.
Local Open Scope list_scope.

(* Simultaneous replacement of symbols. *)
Fixpoint smap (f : sym -> sx) (e : sx) : sx :=
  match e with
  | Cst z => Cst z
  | Sy s => f s
  | Ad a b => Ad (smap f a) (smap f b)
  | Mu a b => Mu (smap f a) (smap f b)
  | Ng a => Ng (smap f a)
  | Fn g k a => Fn g k (smap f a)
  end.
(* Every dated variable moved by k periods at once; parameters and steady-state values untouched. *)
Definition shift (k : Z) (e : sx) : sx :=
  smap (fun s => match s with SDate b t => Sy (SDate b (t + k)) | _ => Sy s end) e.
Definition no_ss (e : sx) : Prop := forall b, ~ In (SSs b) (atoms e).

(* Any algebra. *)
Record alg (V : Type) := Alg {
  a_cst : Z -> V; a_add : V -> V -> V; a_mul : V -> V -> V; a_neg : V -> V; a_fn : chars -> nat -> V -> V }.
Fixpoint ev {V} (A : alg V) (env : sym -> V) (e : sx) : V :=
  match e with
  | Cst z => a_cst V A z
  | Sy s => env s
  | Ad a b => a_add V A (ev A env a) (ev A env b)
  | Mu a b => a_mul V A (ev A env a) (ev A env b)
  | Ng a => a_neg V A (ev A env a)
  | Fn f k a => a_fn V A f k (ev A env a)
  end.
(* The environment seen k periods later. *)
Definition later {V} (k : Z) (env : sym -> V) : sym -> V :=
  fun s => match s with SDate b t => env (SDate b (t + k)) | _ => env s end.

(* Real-valued meaning with smooth functions. *)
Local Open Scope R_scope.
Record smooth := Smooth {
  s_fn : chars -> nat -> R -> R;
  s_dom : chars -> R -> Prop;
  s_der : forall f k x, s_dom f x -> derivable_pt_lim (s_fn f k) x (s_fn f (S k) x) }.
Definition Ralg (G : smooth) : alg R := Alg R IZR Rplus Rmult Ropp (s_fn G).
Fixpoint defined (G : smooth) (env : sym -> R) (e : sx) : Prop :=
  match e with
  | Cst _ | Sy _ => True
  | Ad a b | Mu a b => defined G env a /\ defined G env b
  | Ng a => defined G env a
  | Fn f k a => defined G env a /\ s_dom G f (ev (Ralg G) env a)
  end.
Definition with_value (env : sym -> R) (x : sym) (y : R) : sym -> R :=
  fun s => if sym_eqb s x then y else env s.
(* L seen from k periods later, k = 0..H, discounted. *)
Definition discounted_sum (G : smooth) (L : sx) (beta : R) (H : nat) (env : sym -> R) : R :=
  sum_f_R0 (fun k => beta ^ k * ev (Ralg G) (later (Z.of_nat k) env) L) H.
Definition param_only (e : sx) : Prop := forall s, In s (atoms e) -> exists n, s = SPar n.
Local Close Scope R_scope.

(* Substitution dictionaries. *)
Definition NoSelf (d : sdict) : Prop := forall k v, In (k, v) d -> ~ In k (atoms v).
(* The definitions can be ordered so that each one uses only earlier ones (a definition mentioning itself apart). *)
Definition acyclic (d : sdict) : Prop :=
  exists rank : sym -> nat, forall k v s, In (k, v) d -> In s (atoms v) -> In s (map fst d) -> s <> k -> (rank s < rank k)%nat.
(* A valuation that satisfies all definitions. *)
Definition model_of {V} (A : alg V) (env : sym -> V) (d : sdict) : Prop :=
  forall k v, In (k, v) d -> env k = ev A env v.
