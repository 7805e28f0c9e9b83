(* What a .mod file means, independently of the writer: a reader of Dynare expressions, their values, and declarations. *)
From Coq Require Import QArith Qreals Reals.
From Verif Require Import Common Expr_Model Dyn_Model.
Local Open Scope nat_scope.
Local Open Scope list_scope.

(* ---------- expressions ---------- *)
Inductive dy :=
| YNum (x : Q) | YName (n : chars) (lag : Z) | YNeg (a : dy) | YAdd (a b : dy) | YSub (a b : dy) | YMul (a b : dy) | YDiv (a b : dy)
| YPow (a b : dy) | YCall (f : chars) (args : list dy).
Section Reader.
Variable lit_value : chars -> Q.
Variable is_fun : chars -> bool.                 (* the names of functions; any other name followed by a bracket carries a lag *)
(* Sums and products associate to the left; a sign binds tighter than * and /, and more loosely than ^; both operands of ^ are
   names, numbers, calls or bracketed expressions (Dynare reads more than this, never differently). *)
Fixpoint r_sum (f : nat) (ts : list tok) : option (dy * list tok) :=
  match f with O => None | S f =>
    match r_prod f ts with Some (a, r) => r_sum_more f a r | None => None end
  end
with r_sum_more (f : nat) (a : dy) (ts : list tok) : option (dy * list tok) :=
  match f with O => None | S f =>
    match ts with
    | TkPlus :: r => match r_prod f r with Some (b, r') => r_sum_more f (YAdd a b) r' | None => None end
    | TkMinus :: r => match r_prod f r with Some (b, r') => r_sum_more f (YSub a b) r' | None => None end
    | _ => Some (a, ts)
    end
  end
with r_prod (f : nat) (ts : list tok) : option (dy * list tok) :=
  match f with O => None | S f =>
    match r_signed f ts with Some (a, r) => r_prod_more f a r | None => None end
  end
with r_prod_more (f : nat) (a : dy) (ts : list tok) : option (dy * list tok) :=
  match f with O => None | S f =>
    match ts with
    | TkTimes :: r => match r_signed f r with Some (b, r') => r_prod_more f (YMul a b) r' | None => None end
    | TkDiv :: r => match r_signed f r with Some (b, r') => r_prod_more f (YDiv a b) r' | None => None end
    | _ => Some (a, ts)
    end
  end
with r_signed (f : nat) (ts : list tok) : option (dy * list tok) :=
  match f with O => None | S f =>
    match ts with
    | TkMinus :: r => match r_signed f r with Some (a, r') => Some (YNeg a, r') | None => None end
    | _ => r_power f ts
    end
  end
with r_power (f : nat) (ts : list tok) : option (dy * list tok) :=
  match f with O => None | S f =>
    match r_atom f ts with
    | Some (a, TkPow :: r) => match r_atom f r with Some (b, r') => Some (YPow a b, r') | None => None end
    | other => other
    end
  end
with r_atom (f : nat) (ts : list tok) : option (dy * list tok) :=
  match f with O => None | S f =>
    match ts with
    | TkInt n :: r => Some (YNum (inject_Z (Z.of_N n)), r)
    | TkLit l :: r => Some (YNum (lit_value l), r)
    | TkLP :: r => match r_sum f r with Some (a, TkRP :: r') => Some (a, r') | _ => None end
    | TkId n :: TkLP :: r =>
        if is_fun n then match r_args f r with Some (l, TkRP :: r') => Some (YCall n l, r') | _ => None end
        else match r with
             | TkPlus :: TkInt k :: TkRP :: r' => Some (YName n (Z.of_N k), r')
             | TkMinus :: TkInt k :: TkRP :: r' => Some (YName n (- Z.of_N k), r')
             | _ => None
             end
    | TkId n :: r => Some (YName n 0, r)
    | _ => None
    end
  end
with r_args (f : nat) (ts : list tok) : option (list dy * list tok) :=
  match f with O => None | S f =>
    match r_sum f ts with
    | Some (a, TkComma :: r) => match r_args f r with Some (l, r') => Some (a :: l, r') | None => None end
    | Some (a, r) => Some ([a], r)
    | None => None
    end
  end.
(* a text that is an expression, and nothing else *)
Definition reads (ts : list tok) (y : dy) : Prop := exists f, r_sum f ts = Some (y, []).
End Reader.

(* powers: any function with the laws that the writer's rewritings use; calls *)
Record arithmetic := Arith { a_pow : R -> R -> R; a_fun : chars -> list R -> R }.
Definition arithmetic_ok (A : arithmetic) : Prop :=
  ((forall x, a_pow A x 1 = x) /\ (forall x y, a_pow A x (- y) = / a_pow A x y) /\ (forall x, a_pow A x (/ 2) = a_fun A (str "sqrt") [x]))%R.
Section Values.
Variable A : arithmetic.
Local Open Scope R_scope.
(* the value of what was read, given the values of names at each lag *)
Fixpoint y_value (env : chars -> Z -> R) (y : dy) : R :=
  match y with
  | YNum x => Q2R x | YName n lag => env n lag
  | YNeg a => - y_value env a | YAdd a b => y_value env a + y_value env b | YSub a b => y_value env a - y_value env b
  | YMul a b => y_value env a * y_value env b | YDiv a b => y_value env a / y_value env b
  | YPow a b => a_pow A (y_value env a) (y_value env b)
  | YCall f l => a_fun A f (map (y_value env) l)
  end.
(* the value of a model expression: parameters, dated variables, steady-state values *)
Record reading := Reading { g_par : chars -> R; g_var : chars -> Z -> R; g_ss : chars -> R }.
Variable lit_value : chars -> Q.
Definition num_real (n : num) : R := Q2R (num_value lit_value n).
Definition sum_of (l : list R) : R := fold_right Rplus 0 l.
Definition prod_of (l : list R) : R := fold_right Rmult 1 l.
Fixpoint x_value (G : reading) (e : dx) : R :=
  match e with
  | DNum n => num_real n | DSym n => g_par G n
  | DVar b (TI t) => g_var G b t | DVar b TIss => g_ss G b
  | DAdd l => sum_of (map (x_value G) l)
  | DMul c l => (match c with Some n => num_real n | None => 1 end) * prod_of (map (x_value G) l)
  | DPow b ex => a_pow A (x_value G b) (x_value G ex)
  | DFun f l => a_fun A f (map (x_value G) l)
  end.
End Values.

(* the symbols of an expression *)
Inductive symbol := Free (n : chars) | Dated (b : chars) (t : Z) | AtSteadyState (b : chars).
Fixpoint symbols (e : dx) : list symbol :=
  match e with
  | DNum _ => [] | DSym n => [Free n] | DVar b (TI t) => [Dated b t] | DVar b TIss => [AtSteadyState b]
  | DAdd l | DMul _ l | DFun _ l => flat_map symbols l
  | DPow b ex => symbols b ++ symbols ex
  end.
(* Expressions as SymPy builds them: sums and calls are not empty, an integer power of a power or of a number is combined; names are
   not names of functions, functions are. *)
Fixpoint canonical (is_fun : chars -> bool) (e : dx) : Prop :=
  match e with
  | DNum _ => True
  | DSym n => is_fun n = false
  | DVar b _ => is_fun b = false /\ is_fun (b ++ str "_ss") = false
  | DAdd l => l <> [] /\ (fix all l := match l with [] => True | x :: l' => canonical is_fun x /\ all l' end) l
  | DMul _ l => (fix all l := match l with [] => True | x :: l' => canonical is_fun x /\ all l' end) l
  | DFun f l => is_fun f = true /\ l <> [] /\ (fix all l := match l with [] => True | x :: l' => canonical is_fun x /\ all l' end) l
  | DPow b ex => canonical is_fun b /\ canonical is_fun ex /\
      match b, ex with DPow _ _, DNum (Rat _ 1%positive) | DNum _, DNum (Rat _ 1%positive) => False | _, _ => True end
  end.
(* the names of the file mean what the model's symbols mean *)
Definition agrees (G : reading) (env : chars -> Z -> R) (s : symbol) : Prop :=
  match s with Free n => env n 0%Z = g_par G n | Dated b t => env b t = g_var G b t | AtSteadyState b => env (b ++ str "_ss") 0%Z = g_ss G b end.

(* ---------- declarations ---------- *)
Fixpoint commas (l : list chars) : chars := match l with [] => [] | [x] => x | x :: l' => x ++ str ", " ++ commas l' end.
(* "var a, b, c;" *)
Definition declaration (keyword : chars) (names : list chars) : chars :=
  match names with [] => keyword ++ str ";" | _ => keyword ++ str " " ++ commas names ++ str ";" end.

(* ---------- numbers written with three decimals ---------- *)
(* [denotes3 text x]: an optional minus sign, digits, a point, three digits *)
Definition denotes3 (text : chars) (x : Q) : Prop := exists (neg : bool) whole d1 d2 d3 w,
  text = (if neg then str "-" else []) ++ whole ++ str "." ++ [d1; d2; d3] /\
  undec whole = Some w /\ exists f, undec [d1; d2; d3] = Some f /\
  x == (if neg then - (inject_Z (Z.of_N w) + inject_Z (Z.of_N f) / 1000) else inject_Z (Z.of_N w) + inject_Z (Z.of_N f) / 1000)%Q.

(* ---------- names ---------- *)
Fixpoint names_in (ts : list tok) : list chars := match ts with TkId n :: r => n :: names_in r | _ :: r => names_in r | [] => [] end.
(* the name under which a symbol is written *)
Definition file_name (s : symbol) : chars := match s with Free n => n | Dated b _ => b | AtSteadyState b => b ++ str "_ss" end.
(* what the file declares: endogenous variables, shocks, parameters and the local variables of the model block *)
Definition declared (m : dmodel) (F : modfile) : list chars := d_vars m ++ d_shocks m ++ d_params m ++ map fst (f_locals F).
Definition body_names (b : body) : list chars := match b with Formula ts => names_in ts | Value _ => [] end.
