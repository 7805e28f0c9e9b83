(* Declarative specification of GCN expression texts, independent of the parser:
   [Text l e s] : the character sequence s is a way of writing expression e at precedence level l.
   Levels, loosest first: sums (left-assoc), products (left-assoc), powers (right-assoc), negations, atoms. *)
From Verif Require Import Common Expr_Model.
Local Open Scope list_scope.

Definition ws (s : chars) : Prop := forallb is_ws s = true.
Definition ident (n : chars) : Prop :=
  match n with c :: r => is_id0 c = true /\ forallb is_idc r = true | [] => False end.
Definition digits (d : chars) : Prop := forallb is_digit d = true.
Definition digits1 (d : chars) : Prop := d <> [] /\ digits d.

(* Unsigned number literals: 12  12.  12.5  .5  with an optional exponent *)
Inductive mantissa : chars -> Prop :=
| mant_int d : digits1 d -> mantissa d
| mant_dot d1 d2 : digits1 d1 -> digits d2 -> mantissa (d1 ++ "."%char :: d2)
| mant_frac d : digits1 d -> mantissa ("."%char :: d).
Inductive exponent : chars -> Prop :=
| exp_none : exponent []
| exp_some e sg d : e = "e"%char \/ e = "E"%char ->
    sg = [] \/ sg = ["+"%char] \/ sg = ["-"%char] -> digits1 d -> exponent (e :: sg ++ d).
Definition numlit (t : chars) : Prop := exists m e, t = m ++ e /\ mantissa m /\ exponent e.

(* What may stand between the brackets of a variable *)
Inductive tix_text : tix -> chars -> Prop :=
| tix_now w : ws w -> tix_text (TI 0) w
| tix_ss w1 w2 : ws w1 -> ws w2 -> tix_text TIss (w1 ++ str "ss" ++ w2)
| tix_nonneg w1 d w2 n : ws w1 -> ws w2 -> digits1 d -> undec d = Some n ->
    tix_text (TI (Z.of_N n)) (w1 ++ d ++ w2)
| tix_neg w1 d w2 n : ws w1 -> ws w2 -> digits1 d -> undec d = Some n ->
    tix_text (TI (- Z.of_N n)) (w1 ++ "-"%char :: d ++ w2).

(* Operator spellings *)
Inductive op_text : bop -> chars -> Prop :=
| op_add : op_text ADD (str "+") | op_sub : op_text SUB (str "-")
| op_mul : op_text MUL (str "*") | op_div : op_text DIV (str "/")
| op_pow : op_text POW (str "^") | op_pow2 : op_text POW (str "**").

Definition op_lvl (o : bop) : lvl :=
  match o with ADD | SUB => LAdd | MUL | DIV => LMul | POW => LPow end.
(* level allowed to the left / right of an operator without parentheses *)
Definition left_lvl (o : bop) : lvl :=
  match o with ADD | SUB => LAdd | MUL | DIV => LMul | POW => LUn end.
Definition right_lvl (o : bop) : lvl :=
  match o with ADD | SUB => LMul | MUL | DIV => LPow | POW => LPow end.

Section Grammar.
Context {F : Type} (fread : chars -> F).

Inductive Text : lvl -> expr F -> chars -> Prop :=
| T_num w t : ws w -> numlit t -> Text LAtom (Num (fread t)) (w ++ t)
| T_par w n : ws w -> ident n -> Text LAtom (Par n) (w ++ n)
| T_var w n w1 t ti : ws w -> ident n -> ws w1 -> tix_text t ti ->
    Text LAtom (Var n t) (w ++ n ++ w1 ++ str "[" ++ ti ++ str "]")
| T_fun w f w1 args s w2 : ws w -> ident f -> ws w1 -> Texts args s -> ws w2 ->
    Text LAtom (Fun f args) (w ++ f ++ w1 ++ str "(" ++ s ++ w2 ++ str ")")
| T_expec w e s w2 : ws w -> Text LAdd e s -> ws w2 ->
    Text LAtom (Expec e) (w ++ str "E[][" ++ s ++ w2 ++ str "]")
| T_paren w e s w2 : ws w -> Text LAdd e s -> ws w2 ->
    Text LAtom e (w ++ str "(" ++ s ++ w2 ++ str ")")
| T_neg w e s : ws w -> Text LUn e s -> Text LUn (Neg e) (w ++ str "-" ++ s)
| T_bin o a b s1 w t s2 : Text (left_lvl o) a s1 -> ws w -> op_text o t -> Text (right_lvl o) b s2 ->
    Text (op_lvl o) (Bin o a b) (s1 ++ w ++ t ++ s2)
| T_up l e s : l <> LAtom -> Text (tighter l) e s -> Text l e s
with Texts : list (expr F) -> chars -> Prop :=
| Ts_one e s : Text LAdd e s -> Texts [e] s
| Ts_cons e s w es ss : Text LAdd e s -> ws w -> Texts es ss ->
    Texts (e :: es) (s ++ w ++ str "," ++ ss).

Scheme Text_ind2 := Minimality for Text Sort Prop
  with Texts_ind2 := Minimality for Texts Sort Prop.
Combined Scheme Text_Texts_ind from Text_ind2, Texts_ind2.
End Grammar.

(* Expression trees a user can write: names are identifiers, calls have arguments, and every number prints to
   a literal that reads back to the same number (Python: true for every finite non-negative float). *)
Section Wf.
Context {F : Type} (fprint : F -> chars) (fread : chars -> F).
Fixpoint wf (e : expr F) : Prop :=
  match e with
  | Num v => numlit (fprint v) /\ fread (fprint v) = v
  | Par n => ident n
  | Var n _ => ident n
  | Neg a => wf a
  | Bin _ a b => wf a /\ wf b
  | Fun f args => ident f /\ args <> [] /\
      (fix all (l : list (expr F)) : Prop := match l with [] => True | x :: l' => wf x /\ all l' end) args
  | Expec a => wf a
  end.

(* The shapes whose printed form loses grouping:  a+(b+c), a-(b+c), a*(b/c), (a^b)^c, a^(b*c) ... *)
Definition is_addsub (e : expr F) : bool := match e with Bin ADD _ _ | Bin SUB _ _ => true | _ => false end.
Definition is_muldiv (e : expr F) : bool := match e with Bin MUL _ _ | Bin DIV _ _ => true | _ => false end.
Definition is_pow (e : expr F) : bool := match e with Bin POW _ _ => true | _ => false end.
Fixpoint paren_safe (e : expr F) : bool :=
  match e with
  | Num _ | Par _ | Var _ _ => true
  | Neg a | Expec a => paren_safe a
  | Bin o a b =>
      (match o with
       | ADD | SUB => negb (is_addsub b)
       | MUL | DIV => negb (is_muldiv b)
       | POW => negb (is_pow a) && negb (is_muldiv b)
       end && paren_safe a && paren_safe b)%bool
  | Fun _ args =>
      (fix all (l : list (expr F)) : bool := match l with [] => true | x :: l' => (paren_safe x && all l')%bool end) args
  end.
End Wf.

(* Evaluation in an arbitrary algebra. *)
Record algebra (V : Type) := Alg {
  aadd : V -> V -> V; asub : V -> V -> V; amul : V -> V -> V; adiv : V -> V -> V; apow : V -> V -> V;
  aneg : V -> V; afun : chars -> list V -> V; aexp : V -> V }.
Arguments aadd {V} _. Arguments asub {V} _. Arguments amul {V} _. Arguments adiv {V} _. Arguments apow {V} _.
Arguments aneg {V} _. Arguments afun {V} _. Arguments aexp {V} _.
Section Eval.
Context {F V : Type} (al : algebra V) (vnum : F -> V) (vpar : chars -> V) (vvar : chars -> tix -> V).
Definition abin (o : bop) : V -> V -> V :=
  match o with ADD => aadd al | SUB => asub al | MUL => amul al | DIV => adiv al | POW => apow al end.
Fixpoint eval (e : expr F) : V :=
  match e with
  | Num v => vnum v | Par n => vpar n | Var n t => vvar n t
  | Neg a => aneg al (eval a)
  | Bin o a b => abin o (eval a) (eval b)
  | Fun f args => afun al f (map eval args)
  | Expec a => aexp al (eval a)
  end.
End Eval.
(* The two associativity families that any field (with any convention for x/0) satisfies. *)
Record assoc_laws {V} (al : algebra V) : Prop := {
  law_add : forall a b c, aadd al a (aadd al b c) = aadd al (aadd al a b) c;
  law_addsub : forall a b c, aadd al a (asub al b c) = asub al (aadd al a b) c;
  law_mul : forall a b c, amul al a (amul al b c) = amul al (amul al a b) c;
  law_muldiv : forall a b c, amul al a (adiv al b c) = adiv al (amul al a b) c }.

(* Shapes whose printed form may be re-associated but keeps its value. *)
Section ValueSafe.
Context {F : Type}.
Fixpoint value_safe (e : expr F) : bool :=
  match e with
  | Num _ | Par _ | Var _ _ => true
  | Neg a | Expec a => value_safe a
  | Bin o a b =>
      (match o with
       | ADD | MUL => true
       | SUB => negb (is_addsub b)
       | DIV => negb (is_muldiv b)
       | POW => negb (is_pow a) && negb (is_muldiv b)
       end && value_safe a && value_safe b)%bool
  | Fun _ args =>
      (fix all (l : list (expr F)) : bool := match l with [] => true | x :: l' => (value_safe x && all l')%bool end) args
  end.
End ValueSafe.
