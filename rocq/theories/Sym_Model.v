(* A small symbolic-expression language standing in for the SymPy expressions gEconpy manipulates, and the models of
     gEconpy/utilities.py: set_equality_equals_zero l.35-39, eq_to_ss l.42-48, expand_subs_for_all_times l.58-64,
       step_equation_forward l.67-73, step_equation_backward l.76-82, diff_through_time l.85-118,
       flatten_substitution_dict l.265-323
     gEconpy/model/block/basic.py: _expand_definition_for_all_times l.27-68.
   Simplifications:
   - SymPy's automatic simplification is not modelled; expressions are trees.  Division and powers are represented with
     function application (inv, exp, log); [Fn f k a] is the k-th derivative of the unary function f applied to a.
   - Assumptions attached to symbols are dropped: a symbol is a parameter, a dated variable or a steady-state variable.
   - eq.subs({a: x, b: y, ...}) is SymPy's default sequential substitution; the order in which SymPy applies the
     entries and the iteration order of Python sets are left open: they are the parameters [sord] and [ord] below. *)
From Verif Require Import Common.
From Coq Require Import Permutation.
Local Open Scope list_scope.

Inductive sym := SPar (n : chars) | SDate (b : chars) (t : Z) | SSs (b : chars).
Definition sym_eq_dec (a b : sym) : {a = b} + {a <> b}.
Proof. decide equality; try apply Z.eq_dec; apply (list_eq_dec ascii_dec). Defined.
Definition sym_eqb (a b : sym) : bool := if sym_eq_dec a b then true else false.

Inductive sx :=
| Cst (z : Z)
| Sy (s : sym)
| Ad (a b : sx)
| Mu (a b : sx)
| Ng (a : sx)
| Fn (f : chars) (k : nat) (a : sx).

(* expr.atoms() restricted to symbols, with repetitions *)
Fixpoint atoms (e : sx) : list sym :=
  match e with
  | Cst _ => []
  | Sy s => [s]
  | Ad a b | Mu a b => atoms a ++ atoms b
  | Ng a | Fn _ _ a => atoms a
  end.

(* eq.subs({x: r}) *)
Fixpoint subs1 (x : sym) (r : sx) (e : sx) : sx :=
  match e with
  | Cst z => Cst z
  | Sy s => if sym_eqb s x then r else Sy s
  | Ad a b => Ad (subs1 x r a) (subs1 x r b)
  | Mu a b => Mu (subs1 x r a) (subs1 x r b)
  | Ng a => Ng (subs1 x r a)
  | Fn f k a => Fn f k (subs1 x r a)
  end.
(* eq.subs(dict): one entry after the other *)
Definition subs_seq (d : list (sym * sx)) (e : sx) : sx := fold_left (fun e kr => subs1 (fst kr) (snd kr) e) d e.

(* Iteration order of a Python set of symbols built from a list. *)
Definition set_order := list sym -> list sym.
Definition set_order_ok (ord : set_order) : Prop := forall l, Permutation (ord l) (nodup sym_eq_dec l).

Definition time_aware (s : sym) : bool := match s with SPar _ => false | _ => true end.
Definition is_ss (s : sym) : bool := match s with SSs _ => true | _ => false end.

(* TimeAwareSymbol.step_forward / step_backward on dated symbols (see TimeIndex_Model) *)
Definition step_sym (dt : Z) (s : sym) : sym :=
  match s with SDate b t => SDate b (t + dt) | _ => s end.
Definition date (s : sym) : Z := match s with SDate _ t => t | _ => 0%Z end.

(* sorted(l, key=time_index) / with reverse=True: stable insertion sort *)
Fixpoint insert (le : Z -> Z -> bool) (s : sym) (l : list sym) : list sym :=
  match l with
  | [] => [s]
  | x :: l' => if le (date s) (date x) then s :: l else x :: insert le s l'
  end.
Definition sort_by (le : Z -> Z -> bool) (l : list sym) : list sym := fold_right (insert le) [] l.

Section Ord.
Variables ord sord : set_order.

(* step_equation_forward, l.67-73.  If some atom is a steady-state symbol, either sorted() compares 'ss' with an int or
   step_forward computes 'ss' + 1: both raise TypeError. *)
Definition step_equation_forward (eq : sx) : result sx :=
  let to_step := filter time_aware (ord (atoms eq)) in
  if existsb is_ss to_step then Err TypeError
  else Ok (fold_left (fun e v => subs1 v (Sy (step_sym 1 v)) e) (sort_by (fun a b => Z.leb b a) to_step) eq).
(* step_equation_backward, l.76-82 *)
Definition step_equation_backward (eq : sx) : result sx :=
  let to_step := filter time_aware (ord (atoms eq)) in
  if existsb is_ss to_step then Err TypeError
  else Ok (fold_left (fun e v => subs1 v (Sy (step_sym (-1) v)) e) (sort_by Z.leb to_step) eq).

(* expr.diff(x) *)
Fixpoint diff (x : sym) (e : sx) : sx :=
  match e with
  | Cst _ => Cst 0
  | Sy s => if sym_eqb s x then Cst 1 else Cst 0
  | Ad a b => Ad (diff x a) (diff x b)
  | Mu a b => Ad (Mu (diff x a) b) (Mu a (diff x b))
  | Ng a => Ng (diff x a)
  | Fn f k a => Mu (Fn f (S k) a) (diff x a)
  end.

(* The loop of diff_through_time, l.113-117.  The last two steppings of Python's final iteration are computed there too
   (and may raise), as here. *)
Fixpoint dtt_loop (n : nat) (x : sym) (eq df total : sx) : result sx :=
  match n with
  | O => Ok total
  | S n' =>
      let total' := Ad total (diff x eq) in
      e1 <- step_equation_forward eq ;;
      df' <- step_equation_forward df ;;
      dtt_loop n' x (Mu e1 df) df' total'
  end.
Definition zmin_list (z : Z) (l : list Z) : Z := fold_left Z.min l z.
(* diff_through_time, l.85-118, for dx = SDate b t.  times_in_eq mixing 'ss' and ints makes min() raise TypeError;
   if it is {'ss'} alone, dx.time_index - 'ss' raises TypeError. *)
Definition same_base (b : chars) (s : sym) : bool :=
  match s with SPar _ => false | SDate b' _ | SSs b' => chars_eqb b' b end.
Definition diff_through_time (eq : sx) (b : chars) (t : Z) (df : sx) : result sx :=
  let mine := filter (same_base b) (atoms eq) in
  match mine with
  | [] => Ok (Cst 0)
  | s :: _ =>
      if existsb is_ss mine then Err TypeError
      else let n := Z.max 0 (t - zmin_list (date s) (map date mine)) in
           dtt_loop (S (Z.to_nat n)) (SDate b t) eq df (Cst 0)
  end.

(* flatten_substitution_dict, l.265-323.  A Python dict is a list with distinct keys.  [fuel] bounds the recursion depth
   of resolve; running out is reported as RecursionError and shown impossible (CPython's own recursion limit is not
   modelled). *)
Definition sdict := list (sym * sx).
Definition slookup (k : sym) (d : sdict) : option sx :=
  match find (fun kv => sym_eqb k (fst kv)) d with Some kv => Some (snd kv) | None => None end.
Definition smem (k : sym) (l : list sym) : bool := if in_dec sym_eq_dec k l then true else false.
(* l.290-296: deps[k] = (v.free_symbols & keys) - {k} *)
Definition deps (d : sdict) (k : sym) (v : sx) : list sym :=
  ord (filter (fun s => smem s (map fst d) && negb (sym_eqb s k))%bool (atoms v)).

Definition get_all (flat : sdict) (l : list sym) : sdict :=
  flat_map (fun s => match slookup s flat with Some v => [(s, v)] | None => [] end) l.

(* Running [step] on every element in turn, threading the dictionary, stopping at the first exception. *)
Fixpoint each (step : sym -> sdict -> result sdict) (l : list sym) (flat : sdict) : result sdict :=
  match l with
  | [] => Ok flat
  | s :: l' => f <- step s flat ;; each step l' f
  end.
(* l.301-317 resolve *)
Fixpoint resolve (fuel : nat) (d : sdict) (visiting : list sym) (key : sym) (flat : sdict) : result sdict :=
  match fuel with
  | O => Err RecursionError
  | S fuel' =>
      match slookup key flat with
      | Some _ => Ok flat
      | None =>
          if smem key visiting then Err ValueError
          else match slookup key d with
               | None => Err KeyError
               | Some value =>
                   f <- each (resolve fuel' d (key :: visiting)) (deps d key value) flat ;;
                   Ok (f ++ [(key, subs_seq (get_all f (sord (deps d key value))) value)])
               end
      end
  end.
(* l.319-322 *)
Definition flatten (d : sdict) : result sdict :=
  each (resolve (S (S (length d))) d []) (map fst d) [].
End Ord.

(* set_equality_equals_zero, l.35-39, on sp.Eq(lhs, rhs) *)
Definition eq_zero (lhs rhs : sx) : sx := Ad rhs (Ng lhs).

(* eq_to_ss, l.42-48.  The two .subs calls: every time-aware atom to its steady state, then shocks' steady state to 0. *)
Definition to_ss_sym (s : sym) : sym := match s with SDate b _ => SSs b | _ => s end.
Definition eq_to_ss (ord : set_order) (eq : sx) (shocks : list sym) : sx :=
  let var_list := filter time_aware (ord (atoms eq)) in
  subs_seq (map (fun s => (to_ss_sym s, Cst 0)) shocks)
    (subs_seq (map (fun s => (s, Sy (to_ss_sym s))) var_list) eq).

(* expand_subs_for_all_times, l.58-64, on one entry lhs = SDate b _ / SSs b; a right-hand side that is a bare time-aware
   symbol is re-dated, any other right-hand side is used as it is for all four dates. *)
Definition set_date (t : option Z) (s : sym) : sym :=
  match s with
  | SPar n => SPar n
  | SDate b _ | SSs b => match t with Some z => SDate b z | None => SSs b end
  end.
Definition expand_subs1 (lhs : sym) (rhs : sx) : sdict :=
  map (fun t => (set_date t lhs, match rhs with Sy s => Sy (set_date t s) | _ => rhs end))
      [Some (-1)%Z; Some 0%Z; Some 1%Z; None].

(* basic.py _expand_definition_for_all_times, l.27-68, for lhs = SDate b t0 (an 'ss' lhs raises TypeError). *)
Fixpoint iter_step (step : sx -> result sx) (n : nat) (e : sx) : result sx :=
  match n with O => Ok e | S n' => e' <- step e ;; iter_step step n' e' end.
Definition expand_definition (ord : set_order) (b : chars) (t0 : Z) (rhs : sx) : result (list (sx * sx)) :=
  let one target :=
    let off := (target - t0)%Z in
    let step := if Z.ltb 0 off then step_equation_forward ord else step_equation_backward ord in
    l <- iter_step step (Z.to_nat (Z.abs off)) (Sy (SDate b t0)) ;;
    r <- iter_step step (Z.to_nat (Z.abs off)) rhs ;;
    Ok (l, r) in
  a <- one (-1)%Z ;; b' <- one 0%Z ;; c <- one 1%Z ;; Ok [a; b'; c].
