(* Properties C04-C06: printing and parsing GCN expressions. *)
From Verif Require Import Common Expr_Model Expr_Spec Expr_Lex Expr_Proofs Expr_RoundTrip Expr_Cases.
Local Open Scope list_scope.

(* C06: parse_expression accepts exactly the texts of the declarative grammar (Expr_Spec.Text) and returns
   the expression the grammar assigns. *)
Theorem C06_parser_implements_grammar :
  forall (F : Type) (fread : chars -> F) (s : chars) (e : expr F),
    parse_expression fread s = Ok e <-> exists t w, s = t ++ w /\ Text fread LAdd e t /\ ws w.
Proof. exact @parse_iff. Qed.
Print Assumptions C06_parser_implements_grammar.

Theorem C06_grammar_unambiguous :
  forall (F : Type) (fread : chars -> F) (e1 e2 : expr F) (t : chars),
    Text fread LAdd e1 t -> Text fread LAdd e2 t -> e1 = e2.
Proof. exact @text_unambiguous. Qed.
Print Assumptions C06_grammar_unambiguous.

(* The parser always terminates with a tree or a grammar error. *)
Theorem C06_parser_total :
  forall (F : Type) (fread : chars -> F) (s : chars), parse_expression fread s <> Err RecursionError.
Proof. exact @parse_total. Qed.
Print Assumptions C06_parser_total.

(* A leading minus binds tighter than ^ ... *)
Theorem C06_minus_binds_tighter_than_power :
  forall (F : Type) (fread : chars -> F) (a b : expr F) (s1 s2 : chars),
    Text fread LUn a s1 -> Text fread LPow b s2 ->
    parse_expression fread (str "-" ++ s1 ++ str "^" ++ s2) = Ok (Bin POW (Neg a) b).
Proof. exact @neg_pow. Qed.
Print Assumptions C06_minus_binds_tighter_than_power.

(* ... so the usual mathematical (and Python, gEcon, Dynare) reading of -a^2 is not what is computed. *)
Theorem C06_usual_reading_of_minus_power_refuted :
  parse_expression nread (str "-a^2") <> Ok (Neg (Bin POW pa (Num 2%N))) /\
  exists e, parse_expression nread (str "-a^2") = Ok e /\ zev e = 4%Z /\ zev (Neg (Bin POW pa (Num 2%N))) = (-4)%Z.
Proof. exact neg_pow_not_usual. Qed.
Print Assumptions C06_usual_reading_of_minus_power_refuted.

(* C04: exact characterisation of when the round trip works. *)
Theorem C04_roundtrip_iff_paren_safe :
  forall (F : Type) (fprint : F -> chars) (fread : chars -> F) (e : expr F),
    wf fprint fread e ->
    (parse_expression fread (print_expression fprint e 0) = Ok e <-> paren_safe e = true).
Proof. exact @roundtrip_iff. Qed.
Print Assumptions C04_roundtrip_iff_paren_safe.

Theorem C04_roundtrip_refuted :
  exists e : expr N, wf nprint nread e /\
    (exists src, parse_expression nread src = Ok e) /\
    parse_expression nread (print_expression nprint e 0) <> Ok e.
Proof. exact roundtrip_fails. Qed.
Print Assumptions C04_roundtrip_refuted.

Definition big_example : expr N :=
  Bin SUB (Bin MUL (Par (str "beta")) (Expec (Bin POW (Var (str "C") (TI 1)) (Neg (Par (str "sigma"))))))
          (Bin DIV (Fun (str "log") [Bin ADD (Num 12%N) (Var (str "K") (TI (-3)))]) (Bin POW (Var (str "A") TIss) (Bin ADD (Num 1%N) (Par (str "x_1"))))).
Example C04_nontrivial : wf nprint nread big_example /\ paren_safe big_example = true.
Proof.
  split; [|reflexivity]. unfold big_example. cbn [wf].
  repeat match goal with |- _ /\ _ => split end;
    try apply nprint_lit; try apply nread_nprint; try discriminate; try exact I; try (split; reflexivity).
Qed.
Example C04_printed : print_expression nprint big_example 0
  = str "beta * E[][C[1] ^ -sigma] - log(12 + K[-3]) / A[ss] ^ (1 + x_1)".
Proof. reflexivity. Qed.

(* C05 *)
Theorem C05_value_preserved :
  forall (F V : Type) (fprint : F -> chars) (fread : chars -> F) (al : algebra V),
    assoc_laws al ->
    forall (vnum : F -> V) (vpar : chars -> V) (vvar : chars -> tix -> V) (e : expr F),
      wf fprint fread e -> value_safe e = true ->
      exists e', parse_expression fread (print_expression fprint e 0) = Ok e' /\
                 eval al vnum vpar vvar e' = eval al vnum vpar vvar e.
Proof. exact (fun F V fprint fread al H vnum vpar vvar e => value_roundtrip fprint fread al H vnum vpar vvar e). Qed.
Print Assumptions C05_value_preserved.

Theorem C05_value_preserved_refuted :
  value_lost w_sub /\ value_lost w_pow /\ value_lost w_powmul /\ value_lost (Bin DIV (Num 100%N) (Bin MUL pa pa)).
Proof. exact value_changes. Qed.
Print Assumptions C05_value_preserved_refuted.

Example C05_laws_satisfiable : assoc_laws Qcalg.
Proof. exact Qcalg_laws. Qed.
Example C05_nontrivial : value_safe (Bin ADD pa (Bin SUB pb (Bin MUL pc (Bin DIV pa pb)))) = true
  /\ paren_safe (Bin ADD pa (Bin SUB pb (Bin MUL pc (Bin DIV pa pb)))) = false.
Proof. split; reflexivity. Qed.
