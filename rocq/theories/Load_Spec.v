(* What loading a model means, stated on the parsed file. *)
From Verif Require Import Common Expr_Model Sym_Model Sym_Spec ExpandTime_Spec.
From Verif Require Gcn_Model ExpandTime_Model Load_Model.
From Coq Require Import Reals.
Local Open Scope list_scope.

Section S.
Context {F : Type}.
Variables (whole : F -> result (option Z)) (lit : F -> chars).
(* The symbols written in an expression. *)
Fixpoint written_symbols (e : expr F) : list sym :=
  match e with
  | Num _ => []
  | Par n => [SPar n]
  | Var n TIss => [SSs n]
  | Var n (TI z) => [SDate n z]
  | Neg a | Expec a => written_symbols a
  | Bin _ a b => written_symbols a ++ written_symbols b
  | Fun _ args => flat_map written_symbols args
  end.
(* The expressions that can be used: finite numbers, and calls of the known functions with one argument, or log with a base. *)
Definition arity (f : chars) (n : nat) : Prop := n = 1%nat \/ n = 2%nat /\ f = str "log".
(* what is accepted: also sqrt with a second argument *)
Definition lax_arity (f : chars) (n : nat) : Prop := arity f n \/ n = 2%nat /\ f = str "sqrt".
Fixpoint usable (ar : chars -> nat -> Prop) (e : expr F) : Prop :=
  match e with
  | Num v => exists w, whole v = Ok w
  | Par _ | Var _ _ => True
  | Neg a | Expec a => usable ar a
  | Bin _ a b => usable ar a /\ usable ar b
  | Fun f args => In f Load_Model.sympy_functions /\ ar f (length args) /\
      (fix all (l : list (expr F)) : Prop := match l with [] => True | x :: l' => usable ar x /\ all l' end) args
  end.

(* Real numbers with the usual operations, seen as the interpretation of the written equations (ExpandTime_Spec) and of the symbolic
   ones (Sym_Spec).  Expectations are transparent, as under perfect foresight. *)
Local Open Scope R_scope.
Record usual (G : smooth) (I : interp F R) : Prop := {
  u_whole : forall v z, whole v = Ok (Some z) -> i_num R I v = IZR z;
  u_float : forall v x, whole v = Ok None -> s_fn G (lit v) 0 x = i_num R I v;
  u_neg : forall x, i_neg R I x = - x;
  u_add : forall x y, i_op R I ADD x y = x + y;
  u_sub : forall x y, i_op R I SUB x y = x - y;
  u_mul : forall x y, i_op R I MUL x y = x * y;
  u_div : forall x y, i_op R I DIV x y = x / y;
  u_inv : forall x, s_fn G (str "inv") 0 x = / x;
  u_int_pow : forall x z, i_op R I POW x (IZR z) = s_fn G (Load_Model.pow_name z) 0 x;
  u_pow : forall x y, 0 < x -> i_op R I POW x y = s_fn G (str "exp") 0 (y * s_fn G (str "log") 0 x);
  u_fun : forall f x, In f Load_Model.sympy_functions -> i_fun R I f [x] = s_fn G f 0 x;
  u_log : forall x b, i_fun R I (str "log") [x; b] = s_fn G (str "log") 0 x / s_fn G (str "log") 0 b;
  u_E : foresight I }.
(* Powers whose exponent is not written as a whole number have a positive base; sqrt has one argument. *)
Definition whole_literal (e : expr F) : Prop :=
  match e with Num v | Neg (Num v) => exists z, whole v = Ok (Some z) | _ => False end.
Fixpoint bases_ok (I : interp F R) (p : path R) (t : Z) (e : expr F) : Prop :=
  match e with
  | Num _ | Par _ | Var _ _ => True
  | Neg a | Expec a => bases_ok I p t a
  | Bin o a b => bases_ok I p t a /\ bases_ok I p t b /\ (o = POW -> whole_literal b \/ 0 < den I p t a)
  | Fun f args => (f = str "sqrt" -> length args = 1%nat) /\
      (fix all (l : list (expr F)) : Prop := match l with [] => True | x :: l' => bases_ok I p t x /\ all l' end) args
  end.
(* The symbols' values at date t of a path. *)
Definition at_date (I : interp F R) (p : path R) (t : Z) : sym -> R :=
  fun s => match s with SPar n => i_par R I n | SSs n => i_ss R I n | SDate n k => p n (t + k)%Z end.
Local Close Scope R_scope.

(* ---- blocks ---- *)
Notation gb b := (Load_Model.gblock_of b) (only parsing).
(* Definitions of a block: different dated names; they use each other only at the date at which they are defined, never
   themselves, no steady-state values and no date beyond the neighbouring ones. *)
Definition definitions_regular (b : Gcn_Model.block F) : Prop :=
  (forall q, In q (Gcn_Model.definitions b) -> exists n t, Gcn_Model.lhs q = Var n (TI t) /\ near (TI t)) /\
  (forall i j q q' n t n' t', nth_error (Gcn_Model.definitions b) i = Some q -> nth_error (Gcn_Model.definitions b) j = Some q' -> i <> j ->
     Gcn_Model.lhs q = Var n (TI t) -> Gcn_Model.lhs q' = Var n' (TI t') -> n <> n') /\
  (forall q n t, In q (Gcn_Model.definitions b) -> In (n, t) (occs (Gcn_Model.rhs q)) -> t <> TIss /\ near t /\
     forall q' t', In q' (Gcn_Model.definitions b) -> Gcn_Model.lhs q' = Var n (TI t') -> t = TI t' /\ Gcn_Model.lhs q <> Var n t).
(* A path on which the definitions of the block hold and all powers are defined. *)
Record good_path (G : smooth) (I : interp F R) (p : path R) (b : Gcn_Model.block F) : Prop := {
  gp_usual : usual G I;
  gp_defs : forall q, In q (Gcn_Model.definitions b) -> forall t, den I p t (Gcn_Model.lhs q) = den I p t (Gcn_Model.rhs q);
  gp_bases : forall q, In q (Gcn_Model.definitions b ++ Gcn_Model.objective b ++ Gcn_Model.constraints b ++ Gcn_Model.identities b) ->
     forall t, bases_ok I p t (Gcn_Model.lhs q) /\ bases_ok I p t (Gcn_Model.rhs q) }.
(* The symbolic equation x (to be zero) says what the written equation q says, on paths whose auxiliary variables are what they
   are called. *)
Definition says (b : Gcn_Model.block F) (x : sx) (q : Gcn_Model.equation F) : Prop :=
  forall G I p t, good_path G I p b -> lags_right (Load_Model.gblock_of b) p -> leads_right (Load_Model.gblock_of b) p ->
    ev (Ralg G) (at_date I p t) x = (den I p t (Gcn_Model.rhs q) - den I p t (Gcn_Model.lhs q))%R.
(* The auxiliary variables of a block: each is the previous one of its chain, one period earlier or later. *)
Inductive link (b : Gcn_Model.block F) : chars -> chars -> Z -> Prop :=
| link_lag x k : uses_lag (Load_Model.gblock_of b) x k -> link b (lag_name x k) (if Nat.eqb k 1 then x else lag_name x (k - 1)) (-1)
| link_lead x k : uses_lead (Load_Model.gblock_of b) x k -> link b (lead_name x k) (if Nat.eqb k 1 then x else lead_name x (k - 1)) 1.
Definition says_link (b : Gcn_Model.block F) (x : sx) (l : chars * chars * Z) : Prop :=
  let '(dst, src, d) := l in
  forall G (I : interp F R) p t, good_path G I p b -> ev (Ralg G) (at_date I p t) x = (p src (t + d)%Z - p dst t)%R.
Definition kept (q : Gcn_Model.equation F) : bool := negb (existsb (Gcn_Model.tag_eqb Gcn_Model.Exclude) (Gcn_Model.tags q)).
(* The equations of a block: its identities, the auxiliary ones, the constraints that are not excluded, the objective, and one
   first-order condition for each control. *)
Definition equations_of (b : Gcn_Model.block F) (g : list sx) : Prop :=
  exists ids aux links cons obj focs, g = ids ++ aux ++ cons ++ obj ++ focs /\
    Forall2 (says b) ids (Gcn_Model.identities b) /\
    Forall2 (says_link b) aux links /\ NoDup (map (fun l => fst (fst l)) links) /\ (forall dst src d, In (dst, src, d) links <-> link b dst src d) /\
    Forall2 (says b) cons (filter kept (Gcn_Model.constraints b)) /\ Forall2 (says b) obj (Gcn_Model.objective b) /\
    length focs = length (Gcn_Model.controls b).
End S.

(* ---- the steady-state block ---- *)
Section SS.
Context {F : Type}.
(* The symbol an expression consists of, if it is one. *)
Fixpoint symbol_of (e : expr F) : option sym :=
  match e with
  | Par n => Some (SPar n)
  | Var n TIss => Some (SSs n)
  | Var n (TI z) => Some (SDate n z)
  | Expec a => symbol_of a
  | _ => None
  end.
Definition rules (b : Gcn_Model.block F) : list (Gcn_Model.equation F) := Gcn_Model.definitions b ++ Gcn_Model.identities b.
(* Each rule gives the value of one symbol, different for different rules, which it does not mention. *)
Definition rules_regular (b : Gcn_Model.block F) : Prop :=
  (forall q, In q (rules b) -> exists s, symbol_of (Gcn_Model.lhs q) = Some s /\ ~ In s (written_symbols (Gcn_Model.rhs q))) /\
  NoDup (map (fun q => symbol_of (Gcn_Model.lhs q)) (rules b)).
(* The rules can be ordered so that each uses only values given by earlier ones. *)
Definition rules_ordered (b : Gcn_Model.block F) : Prop :=
  exists rank : sym -> nat, forall q q' s s', In q (rules b) -> In q' (rules b) -> symbol_of (Gcn_Model.lhs q) = Some s ->
    symbol_of (Gcn_Model.lhs q') = Some s' -> In s' (written_symbols (Gcn_Model.rhs q)) -> (rank s' < rank s)%nat.
End SS.
