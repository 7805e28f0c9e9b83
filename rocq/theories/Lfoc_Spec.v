(* The first-order conditions of a loaded block, stated on the written block. *)
From Verif Require Import Common Expr_Model Sym_Model Sym_Spec ExpandTime_Spec Load_Spec.
From Verif Require Gcn_Model.
From Coq Require Import Reals.
Local Open Scope list_scope.

(* The first letters of the words of a name; an underscore ends a word. *)
Fixpoint word_initials (starts : bool) (s : chars) : chars :=
  match s with
  | [] => []
  | c :: s' => if Ascii.eqb c "_"%char then word_initials true s'
               else if starts then c :: word_initials false s' else word_initials false s'
  end.

Section S.
Context {F : Type}.
Variables (whole : F -> result (option Z)) (lit : F -> chars).
Notation block := (Gcn_Model.block F).
Notation equation := (Gcn_Model.equation F).

(* The variables the block defines. *)
Definition defines (b : block) (n : chars) : Prop := exists q t, In q (Gcn_Model.definitions b) /\ Gcn_Model.lhs q = Var n (TI t).
(* The multiplier of each constraint: the one written there, or lambda__H_1, lambda__H_2, ... in a block HOUSEHOLD. *)
Fixpoint multipliers (short : chars) (i : nat) (cs : list equation) : list chars :=
  match cs with
  | [] => []
  | q :: cs' => match Gcn_Model.multiplier q with
                | Some n => n :: multipliers short i cs'
                | None => (str "lambda__" ++ short ++ str "_" ++ dec (N.of_nat i)) :: multipliers short (S i) cs'
                end
  end.
Definition multipliers_of (b : block) : list chars := multipliers (word_initials true (Gcn_Model.b_name b)) 1 (Gcn_Model.constraints b).
Definition minimised (q : equation) : bool := existsb (Gcn_Model.tag_eqb Gcn_Model.Minimize) (Gcn_Model.tags q).

Local Open Scope R_scope.
(* The period Lagrangian of the written block at date t of a path: (plus or minus) the right-hand side of the objective, less
   each constraint's left-hand side minus right-hand side times its multiplier. *)
Fixpoint price (I : interp F R) (p : path R) (t : Z) (cs : list equation) (ms : list chars) : R :=
  match cs, ms with
  | q :: cs', m :: ms' => p m t * (den I p t (Gcn_Model.lhs q) - den I p t (Gcn_Model.rhs q)) + price I p t cs' ms'
  | _, _ => 0
  end.
Definition period_lagrangian (I : interp F R) (p : path R) (t : Z) (b : block) (obj : equation) : R :=
  (if minimised obj then - den I p t (Gcn_Model.rhs obj) else den I p t (Gcn_Model.rhs obj))
  - price I p t (Gcn_Model.constraints b) (multipliers_of b).

(* Objectives: today's and yesterday's variables only (no discounting), or V = u + c * V[1] or V = u + c * E[V[1]], c a constant. *)
Inductive discounting (obj : equation) : option (expr F) -> Prop :=
| no_future : (forall n t, In (n, t) (occs (Gcn_Model.lhs obj) ++ occs (Gcn_Model.rhs obj)) -> t = TI 0 \/ t = TI (-1)) -> discounting obj None
| recursive_value V t u c w : Gcn_Model.lhs obj = Var V (TI t) -> Gcn_Model.rhs obj = Bin ADD u (Bin MUL c w) ->
    w = Var V (TI 1) \/ w = Expec (Var V (TI 1)) -> ~ In (V, TI 1) (occs u) -> occs c = [] -> discounting obj (Some c).
Definition discount_value (I : interp F R) (p : path R) (t : Z) (c : option (expr F)) : R :=
  match c with None => 1 | Some c => den I p t c end.

(* Where an expression can be differentiated: every function, division, power and literal in it is used inside its domain. *)
Fixpoint plain_whole (e : expr F) : option Z :=
  match e with
  | Num v => match whole v with Ok (Some z) => Some z | _ => None end
  | Expec a => plain_whole a
  | _ => None
  end.
Fixpoint whole_exponent (e : expr F) : option Z :=
  match e with
  | Neg a => option_map Z.opp (plain_whole a)
  | Expec a => whole_exponent a
  | _ => plain_whole e
  end.
Definition pow_symbol (z : Z) : chars := str "pow" ++ (if Z.ltb z 0 then str "-" else []) ++ dec (Z.abs_N z).
Fixpoint differentiable_at (G : smooth) (I : interp F R) (p : path R) (t : Z) (e : expr F) : Prop :=
  match e with
  | Par _ | Var _ _ => True
  | Num v => whole v = Ok None -> s_dom G (lit v) 0
  | Neg a | Expec a => differentiable_at G I p t a
  | Bin o a b => differentiable_at G I p t a /\ differentiable_at G I p t b /\
      match o with
      | DIV => s_dom G (str "inv") (den I p t b)
      | POW => match whole_exponent b with
               | Some z => s_dom G (pow_symbol z) (den I p t a)
               | None => s_dom G (str "log") (den I p t a) /\
                         s_dom G (str "exp") (den I p t b * s_fn G (str "log") 0 (den I p t a))
               end
      | _ => True
      end
  | Fun f args =>
      (fix all (l : list (expr F)) : Prop := match l with [] => True | x :: l' => differentiable_at G I p t x /\ all l' end) args /\
      match args with
      | [a] => s_dom G f (den I p t a)
      | [a; b] => s_dom G f (den I p t a) /\ s_dom G f (den I p t b) /\ s_dom G (str "inv") (s_fn G f 0 (den I p t b))
      | _ => True
      end
  end.
Local Close Scope R_scope.

(* The optimisation problems: one objective without a multiplier, at least one constraint, dated controls, and no steady-state
   value and no date beyond the neighbouring ones in the objective and the constraints. *)
Definition dated_near (e : expr F) : Prop := forall n t, In (n, t) (occs e) -> t <> TIss /\ near t.
Record problem (b : block) (obj : equation) (c : option (expr F)) : Prop := {
  pb_defs : definitions_regular b;
  pb_obj : Gcn_Model.objective b = [obj];
  pb_lm : Gcn_Model.multiplier obj = None;
  pb_disc : discounting obj c;
  pb_cons : Gcn_Model.constraints b <> [];
  pb_controls : forall v, In v (Gcn_Model.controls b) -> exists n t, v = (n, TI t) /\ near (TI t);
  pb_near_obj : dated_near (Gcn_Model.lhs obj) /\ dated_near (Gcn_Model.rhs obj);
  pb_near_cons : forall q, In q (Gcn_Model.constraints b) -> dated_near (Gcn_Model.lhs q) /\ dated_near (Gcn_Model.rhs q);
  pb_mult : forall n, In n (multipliers_of b) -> ~ defines b n }.

Local Open Scope R_scope.
(* The path [mv y]: as [mv y0], with y as the value of variable x at date d; the variables the block defines follow. *)
Definition moves (b : block) (mv : R -> path R) (x : chars) (d : Z) (y0 y : R) : Prop :=
  forall n t, ~ defines b n -> (n = x /\ t = d -> mv y n t = y) /\ (~ (n = x /\ t = d) -> mv y n t = mv y0 n t).
(* f is the first-order condition of the problem for the control x[tx]: on every path and at every date it equals the derivative,
   with respect to the control, of the discounted sum of the period Lagrangians, whatever the horizon from some point on. *)
Definition first_order_condition (b : block) (obj : equation) (c : option (expr F)) (f : sx) (v : chars * tix) : Prop :=
  forall x tx, v = (x, TI tx) -> forall G (I : interp F R), exists horizon, forall (mv : R -> path R) t0 y0 eps H,
    (horizon <= H)%nat -> 0 < eps -> mv y0 x (t0 + tx)%Z = y0 ->
    (forall y, Rabs (y - y0) < eps -> good_path whole lit G I (mv y) b /\ moves b mv x (t0 + tx) y0 y) ->
    (forall c', c = Some c' -> differentiable_at G I (mv y0) t0 c') ->
    (forall t q, In q (Gcn_Model.definitions b ++ [obj]) -> differentiable_at G I (mv y0) t (Gcn_Model.rhs q)) ->
    (forall t q, In q (Gcn_Model.constraints b) -> differentiable_at G I (mv y0) t (Gcn_Model.lhs q) /\ differentiable_at G I (mv y0) t (Gcn_Model.rhs q)) ->
    derivable_pt_lim
      (fun y => sum_f_R0 (fun k => discount_value I (mv y0) t0 c ^ k * period_lagrangian I (mv y) (t0 + Z.of_nat k) b obj) H)
      y0 (ev (Ralg G) (at_date I (mv y0) t0) f).
End S.
