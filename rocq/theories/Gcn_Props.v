(* C39 C105: what comments and layout mean for a GCN text *)
From Verif Require Import Common Expr_Model Expr_Spec SymDict_Model Gcn_Lex Gcn_Model Gcn_Spec Gcn_Basic Gcn_Proofs.
Local Open Scope list_scope.

(* ---- C39 ---- *)
Theorem C39_comments {F} (fread : chars -> F) farith (text : chars) :
  parse_gcn fread farith (strip_comments text) = parse_gcn fread farith text.
Proof. symmetry. apply gcn_layout, strip_same. Qed.
Theorem C39_comments_equation {F} (fread : chars -> F) (text : chars) :
  parse_equation fread (strip_comments text) = parse_equation fread text.
Proof. symmetry. apply equation_layout, strip_same. Qed.
Theorem C39_comments_block {F} (fread : chars -> F) farith (text : chars) :
  parse_block_from_text fread farith (strip_comments text) = parse_block_from_text fread farith text.
Proof. symmetry. apply block_layout, strip_same. Qed.
(* two texts with the same code and any comments *)
Theorem C39_any_comments {F} (fread : chars -> F) farith (s t : chars) : strip_comments s = strip_comments t ->
  parse_gcn fread farith s = parse_gcn fread farith t.
Proof. intro H. rewrite <- (C39_comments fread farith s), <- (C39_comments fread farith t). now rewrite H. Qed.

Definition lines (l : list string) : chars := concat (map (fun x => str x ++ [newline_char]) l).
Definition demo_arith (o : dop) (a b : chars) : result chars := Ok (a ++ b).
Definition commented : chars := lines [
  "# a model";
  "options { output logfile = TRUE; }; # option names may have several words";
  "block HOUSEHOLD # [ unbalanced ( in a comment";
  "{";
  "  identities";
  "  {";
  "    Y[] = # first half; }; not code";
  "       A[-1] * K[-1] ^ alpha; # Y[ss] = 0;";
  "    #log(A[]) = 0;";
  "  };";
  "  calibration { alpha ~ Beta(alpha=2, beta=5) = 0.35; };";
  "};"]%string.
Theorem C39_case : parse_gcn (fun t => t) demo_arith commented = parse_gcn (fun t => t) demo_arith (strip_comments commented) /\
  match parse_gcn (fun t => t) demo_arith commented with
  | Ok m => options m = [(str "output logfile", inl true)] /\ map b_name (blocks m) = [str "HOUSEHOLD"] /\
            flat_map identities (blocks m) =
              [Eqn (Var (str "Y") (TI 0)) (Bin MUL (Var (str "A") (TI (-1))) (Bin POW (Var (str "K") (TI (-1))) (Par (str "alpha")))) None None []] /\
            length (flat_map calibration (blocks m)) = 1
  | Err _ => False
  end.
Proof. split; [vm_compute; reflexivity|]. vm_compute. repeat split. Qed.
(* the newline that ends a comment is needed: a comment swallows the rest of its line *)
Theorem C39_comment_takes_the_line {F} (fread : chars -> F) farith (s c : chars) : ~ In newline_char c ->
  ~ In "#"%char s ->
  parse_gcn fread farith (s ++ "#"%char :: c) = parse_gcn fread farith s.
Proof.
  intros Hc Hs. rewrite <- (C39_comments fread farith (s ++ _)). f_equal.
  assert (G : forall s, ~ In "#"%char s -> strip_comments (s ++ "#"%char :: c) = s).
  { clear s Hs. unfold strip_comments. induction s as [|d s IH]; intro Hs; [cbn; now apply strip_open|]. cbn [app strip_in].
    replace (Ascii.eqb d "#") with false; [f_equal; apply IH; intro; apply Hs; now right|]. symmetry. apply Ascii.eqb_neq. intros ->. apply Hs. now left. }
  now apply G.
Qed.

(* ---- C105 ---- *)
Theorem C105_layout {F} (fread : chars -> F) farith (s s' : chars) : same_text s s' -> parse_gcn fread farith s = parse_gcn fread farith s'.
Proof. apply gcn_layout. Qed.
Theorem C105_layout_equation {F} (fread : chars -> F) (s s' : chars) : same_text s s' -> parse_equation fread s = parse_equation fread s'.
Proof. apply equation_layout. Qed.
Theorem C105_layout_block {F} (fread : chars -> F) farith (s s' : chars) : same_text s s' -> parse_block_from_text fread farith s = parse_block_from_text fread farith s'.
Proof. apply block_layout. Qed.
(* two layouts of one model: a leading comment, indentation, line breaks *)
Lemma gap_words g : forallb is_ws g = true -> gap g.
Proof. induction g as [|c g IH]; intro H; [constructor|]. cbn [forallb] in H. apply andb_true_iff in H as [H1 H2]. apply gap_blank; auto. Qed.
Theorem C105_case : parse_equation (fun t => t) (str "Y[] = 1 + X[-1] ;") = parse_equation (fun t => t) (lines ["  # header"; "Y[]     = # here"; "1 + "; "  X[-1]  ;  "]%string) /\
  parse_equation (fun t => t) (str "Y[] = 1 + X[-1] ;") = Ok (Eqn (Var (str "Y") (TI 0)) (Bin ADD (Num (str "1")) (Var (str "X") (TI (-1)))) None None []) /\
  same_text (str "Y[] = 1 + X[-1] ;") (lines ["  # header"; "Y[]     = # here"; "1 + "; "  X[-1]  ;  "]%string).
Proof.
  split; [vm_compute; reflexivity|]. split; [vm_compute; reflexivity|].
  exists [], (str "  # header" ++ [newline_char]), (str "Y[] = 1 + X[-1] ;"), (str "Y[]     = # here" ++ newline_char :: str "1 + " ++ newline_char :: str "  X[-1]  ;  " ++ [newline_char]).
  assert (Hb : forall l, ~ In newline_char (str l) -> gap (str "#" ++ str l ++ [newline_char])) by (intros l Hl; apply (gap_comment (str l) []); [exact Hl|constructor]).
  split; [constructor|]. split; [apply gap_blank; [reflexivity|]; apply gap_blank; [reflexivity|]; apply (Hb " header"%string); cbn; intuition discriminate|].
  split; [reflexivity|]. split; [reflexivity|].
  assert (V : forall c, is_ws c = false -> Ascii.eqb c "#" = false -> visible c) by (intros c H1 H2; split; [exact H1|now apply Ascii.eqb_neq]).
  cbn [str list_ascii_of_string app].
  do 3 (apply relayout_char; [apply V; reflexivity|]).
  apply (relayout_gap _ (str " ") (str "     ") "="); try (now apply gap_words); try discriminate; [now apply V|].
  apply (relayout_gap _ (str " ") (str " # here" ++ [newline_char]) "1"); try (now apply gap_words); try discriminate;
    [apply gap_blank; [reflexivity|]; apply (Hb " here"%string); cbn; intuition discriminate|now apply V|].
  apply (relayout_gap _ (str " ") (str " ") "+"); try (now apply gap_words); try discriminate; [now apply V|].
  apply (relayout_gap _ (str " ") (str " " ++ newline_char :: str "  ") "X"); try (now apply gap_words); try discriminate; [now apply V|].
  do 4 (apply relayout_char; [apply V; reflexivity|]).
  apply (relayout_gap _ (str " ") (str "  ") ";"); try (now apply gap_words); try discriminate; [now apply V|].
  apply relayout_end; constructor; now apply gap_words.
Qed.
(* the one exception: between the words of an option's name the blanks are part of the name *)
Theorem C105_option_names_refuted :
  let a := str "options { output  logfile = TRUE; }; block B { };" in
  let b := str "options { output logfile = TRUE; }; block B { };" in
  match parse_gcn (fun t => t) demo_arith a, parse_gcn (fun t => t) demo_arith b with
  | Ok m, Ok m' => options m = [(str "output  logfile", inl true)] /\ options m' = [(str "output logfile", inl true)] | _, _ => False end.
Proof. vm_compute. split; reflexivity. Qed.
(* and a gap cannot be removed or added inside a name or a number *)
Theorem C105_gap_needed :
  parse_equation (fun t => t) (str "Y[] = a b;") = Err (GEconError 0) /\
  parse_equation (fun t => t) (str "Y[] = ab;") = Ok (Eqn (Var (str "Y") (TI 0)) (Par (str "ab")) None None []).
Proof. split; vm_compute; reflexivity. Qed.

(* ---- C106: a text is accepted or rejected in one of these ways ---- *)
Lemma build_items_err {F} (fread : chars -> F) farith l e : build_items fread farith l = Err e ->
  exists d, In (inl d) l /\ build_dist fread farith d = Err e.
Proof.
  induction l as [|[d|q] l IH]; cbn; intro H; [discriminate| |].
  - destruct (build_dist fread farith d) eqn:E; [|injection H as <-; exists d; auto]. destruct (build_items fread farith l); [discriminate|].
    destruct (IH H) as (d' & H1 & H2). exists d'. auto.
  - destruct (build_items fread farith l); [discriminate|]. destruct (IH H) as (d' & H1 & H2). exists d'. auto.
Qed.
Definition arith_error {F} (farith : dop -> F -> F -> result F) (e : exn) : Prop := e = TypeError \/ exists o a b, farith o a b = Err e.
Lemma eval_dnum_err {F} (fread : chars -> F) farith x e : eval_dnum fread farith x = Err e -> arith_error farith e.
Proof.
  destruct x as [t|o a l]; cbn [eval_dnum]; intro H; [discriminate|].
  assert (G : forall l v, eval_rest fread farith o v l = Err e -> arith_error farith e).
  { clear. induction l as [|y l IH]; intros v H; cbn in H; [discriminate|]. destruct y; cbn in H; [|injection H as <-; now left].
    destruct (farith o v (fread t)) eqn:E; [now apply IH in H|injection H as <-; right; eauto]. }
  destruct a; cbn in H; [now apply G in H|injection H as <-; now left].
Qed.
Lemma eval_args_err {F} (fread : chars -> F) farith l : forall acc e, eval_args fread farith acc l = Err e -> arith_error farith e.
Proof.
  induction l as [|[k a] l IH]; intros acc e H; cbn in H; [discriminate|]. destruct (eval_darg fread farith a) eqn:E; [now apply IH in H|]. injection H as <-.
  destruct a as [x| |n]; cbn in E; try discriminate. destruct (eval_dnum fread farith x) eqn:E2; [discriminate|]. injection E as <-. now apply eval_dnum_err in E2.
Qed.
Lemma build_dist_err {F} (fread : chars -> F) farith d e : build_dist fread farith d = Err e -> arith_error farith e.
Proof.
  unfold build_dist. intro H. destruct (eval_args fread farith [] (rd_args d)) eqn:E1; [|injection H as <-; now apply eval_args_err in E1].
  destruct (rd_wrapper d) as [[w l]|].
  - destruct (eval_args fread farith [] l) eqn:E2; [|injection H as <-; now apply eval_args_err in E2].
    destruct (rd_init d); [|discriminate]. destruct (eval_dnum fread farith d0) eqn:E3; [discriminate|]. injection H as <-. now apply eval_dnum_err in E3.
  - destruct (rd_init d); [|discriminate]. destruct (eval_dnum fread farith d0) eqn:E3; [discriminate|]. injection H as <-. now apply eval_dnum_err in E3.
Qed.
Lemma build_block_err {F} (fread : chars -> F) farith nc e : build_block fread farith nc = Err e -> arith_error farith e.
Proof.
  unfold build_block. destruct nc as [n l]. cbn [fst snd]. generalize (Block (F:=F) n [] [] [] [] [] [] [] []). induction l as [|c l IH]; intros b H; cbn in H; [discriminate|].
  destruct (set_component fread farith b c) eqn:E; [now apply IH in H|]. injection H as <-. destruct b, c; cbn in E; try discriminate.
  destruct (build_items fread farith l0) eqn:E2; [discriminate|]. injection E as <-. apply build_items_err in E2 as (d & _ & Hd). now apply build_dist_err in Hd.
Qed.
Theorem C106_outcomes {F} (fread : chars -> F) farith text e : parse_gcn fread farith text = Err e -> e = GEconError 0 \/ arith_error farith e.
Proof.
  rewrite gcn_whole. destruct (whole _ text) as [[sp bs]|]; [|intro H; injection H as <-; now left]. intro H. right. unfold build_model in H. cbn [snd fst] in H.
  destruct (build_blocks fread farith bs) as [x|e0] eqn:E; [discriminate|]. injection H as <-. revert e0 E. induction bs as [|b bs IH]; intros e0 E; cbn in E; [discriminate|].
  destruct (build_block fread farith b) eqn:E1; [|injection E as <-; now apply build_block_err in E1]. destruct (build_blocks fread farith bs) as [y|e1] eqn:E2; [discriminate|].
  injection E as <-. now apply (IH e1).
Qed.
Theorem C106_equation_outcomes {F} (fread : chars -> F) text e : parse_equation fread text = Err e -> e = GEconError 0.
Proof. rewrite equation_whole. destruct (whole _ text); [discriminate|]. intro H. now injection H as <-. Qed.
(* the other exceptions do occur: (1 + 2) * 3 in an argument *)
Theorem C106_grammar_error_only_refuted :
  parse_gcn (fun t => t) demo_arith (str "block B { calibration { a ~ Normal(mu = (1 + 2) * 3, sigma = 1); }; };") = Err TypeError.
Proof. vm_compute. reflexivity. Qed.
