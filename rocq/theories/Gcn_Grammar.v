(* Declarative grammar of GCN texts (comments already removed), independent of the parser: which character sequences write
   which equation, distribution, component, block and file.  [ws], [ident], [numlit], [tix_text], [Text] are those of
   Expr_Spec; every [w..] is a possibly empty run of blanks. *)
From Verif Require Import Common Expr_Model Expr_Spec SymDict_Model Gcn_Lex Gcn_Model.
Local Open Scope list_scope.

(* comma-separated, at least one *)
Inductive commas {A} (P : A -> chars -> Prop) : list A -> chars -> Prop :=
| commas_one a s : P a s -> commas P [a] s
| commas_cons a s w l ss : P a s -> ws w -> commas P l ss -> commas P (a :: l) (s ++ w ++ str "," ++ ss).
(* one after the other *)
Inductive sequence {A} (P : A -> chars -> Prop) : list A -> chars -> Prop :=
| sequence_nil : sequence P [] []
| sequence_cons a s l ss : P a s -> sequence P l ss -> sequence P (a :: l) (s ++ ss).
(* keywords are written in upper or lower case *)
Definition keyword (kw : string) (s : chars) : Prop := map lower s = map lower (str kw).

(* K[-1] *)
Definition varref_text (v : varref) (s : chars) : Prop :=
  exists w w1 ti, s = w ++ fst v ++ w1 ++ str "[" ++ ti ++ str "]" /\ ws w /\ ident (fst v) /\ ws w1 /\ tix_text (snd v) ti.
(* @exclude *)
Definition tag_text (t : tag) (s : chars) : Prop := exists w n, s = w ++ str "@" ++ n /\ ws w /\ ident n /\ map lower n = tag_name t.
Section Grammar.
Context {F : Type} (fread : chars -> F).
(* : lambda[] *)
Inductive multiplier_text : option chars -> chars -> Prop :=
| mult_none : multiplier_text None []
| mult_some w n t s : ws w -> varref_text (n, t) s -> multiplier_text (Some n) (w ++ str ":" ++ s).
(* -> alpha *)
Inductive calibrating_text : option chars -> chars -> Prop :=
| cal_none : calibrating_text None []
| cal_some w w1 n : ws w -> ws w1 -> ident n -> calibrating_text (Some n) (w ++ str "->" ++ w1 ++ n).
(* a tag's name must not run into the expression *)
Definition detached (l : list tag) (s : chars) : Prop := l = [] \/ match s with c :: _ => is_idc c = false | [] => True end.
Inductive equation_text : equation F -> chars -> Prop :=
| equation_parts ts tt l lt w r rt m mt c ct w1 :
    sequence tag_text ts tt -> detached ts lt -> Text fread LAdd l lt -> ws w -> Text fread LAdd r rt ->
    multiplier_text m mt -> calibrating_text c ct -> ws w1 ->
    equation_text (Eqn l r m c (tag_set ts)) (tt ++ lt ++ w ++ str "=" ++ rt ++ mt ++ ct ++ w1 ++ str ";").

(* numbers in a distribution: an optional sign, and no exponent after ".5" *)
Inductive dnumber : chars -> Prop :=
| dnumber_int sg d ex : sg = [] \/ sg = str "+" \/ sg = str "-" -> digits1 d -> exponent ex -> dnumber (sg ++ d ++ ex)
| dnumber_real sg d1 d2 ex : sg = [] \/ sg = str "+" \/ sg = str "-" -> digits1 d1 -> digits d2 -> exponent ex -> dnumber (sg ++ d1 ++ str "." ++ d2 ++ ex)
| dnumber_frac sg d : sg = [] \/ sg = str "+" \/ sg = str "-" -> digits1 d -> dnumber (sg ++ str "." ++ d).
(* arithmetic: every operator has its own level, "/" binds tightest, then "*", "+", "-" *)
Definition dop_text (o : dop) : chars := match o with DDiv => str "/" | DMul => str "*" | DAdd => str "+" | DSub => str "-" end.
Definition dop_level (o : dop) : nat := match o with DDiv => 1 | DMul => 2 | DAdd => 3 | DSub => 4 end.
Inductive arith_text : nat -> dnum -> chars -> Prop :=
| arith_number w t : ws w -> dnumber t -> arith_text 0 (DN t) (w ++ t)
| arith_paren w e s w1 : ws w -> arith_text 4 e s -> ws w1 -> arith_text 0 e (w ++ str "(" ++ s ++ w1 ++ str ")")
| arith_up n e s : n < 4 -> arith_text n e s -> arith_text (S n) e s
| arith_op o a s l ss : arith_text (dop_level o - 1) a s -> l <> [] -> arith_rest o l ss -> arith_text (dop_level o) (DOp o a l) (s ++ ss)
with arith_rest : dop -> list dnum -> chars -> Prop :=
| rest_nil o : arith_rest o [] []
| rest_cons o w a s l ss : ws w -> arith_text (dop_level o - 1) a s -> arith_rest o l ss -> arith_rest o (a :: l) (w ++ dop_text o ++ s ++ ss).
(* sigma = 1 *)
Inductive darg_value : darg -> chars -> Prop :=
| value_num e s : arith_text 4 e s -> darg_value (ANum e) s
| value_none w : ws w -> darg_value ANone (w ++ str "None")
| value_name w n : ws w -> ident n -> n <> str "None" -> darg_value (AName n) (w ++ n).
Definition darg_text (a : chars * darg) (s : chars) : Prop :=
  exists w w1 v, s = w ++ fst a ++ w1 ++ str "=" ++ v /\ ws w /\ ident (fst a) /\ ws w1 /\ darg_value (snd a) v.
Definition dargs_text (l : list (chars * darg)) (s : chars) : Prop := (l = [] /\ s = []) \/ commas darg_text l s.
(* Normal(mu = 0, sigma = 1) *)
Definition call_text (c : chars * list (chars * darg)) (s : chars) : Prop :=
  exists w w1 a w2, s = w ++ fst c ++ w1 ++ str "(" ++ a ++ w2 ++ str ")" /\ ws w /\ In (fst c) preliz_dists /\ ws w1 /\ dargs_text (snd c) a /\ ws w2.
(* maxent(Normal(), lower = 0, upper = 1) *)
Inductive dist_call_text : chars * list (chars * darg) -> option (chars * list (chars * darg)) -> chars -> Prop :=
| dist_plain c s : call_text c s -> dist_call_text c None s
| dist_wrapped w x w1 c s l a w2 : ws w -> In x preliz_wrappers -> ws w1 -> call_text c s ->
    ((l = [] /\ a = []) \/ (exists w3 a', a = w3 ++ str "," ++ a' /\ ws w3 /\ commas darg_text l a')) -> ws w2 ->
    dist_call_text c (Some (x, l)) (w ++ x ++ w1 ++ str "(" ++ s ++ a ++ w2 ++ str ")").
Definition init_text {A} (P : A -> chars -> Prop) (i : option A) (s : chars) : Prop :=
  match i with None => s = [] | Some e => exists w t, s = w ++ str "=" ++ t /\ ws w /\ P e t end.
(* alpha ~ Beta(alpha = 2, beta = 5) = 0.35; *)
Definition distribution_text (d : rawdist) (s : chars) : Prop :=
  exists w w1 c i w2, s = w ++ rd_par d ++ w1 ++ str "~" ++ c ++ i ++ w2 ++ str ";" /\ ws w /\ ident (rd_par d) /\ ws w1 /\
    dist_call_text (rd_name d, rd_args d) (rd_wrapper d) c /\ init_text (arith_text 4) (rd_init d) i /\ ws w2.
(* alpha = Beta ... is taken for a distribution with a missing "~" and rejected *)
Definition looks_like_distribution (s : chars) : Prop :=
  exists w n w1 w2 x r, s = w ++ n ++ w1 ++ str "=" ++ w2 ++ x ++ r /\ ws w /\ ident n /\ ws w1 /\ ws w2 /\ In x (preliz_wrappers ++ preliz_dists).
Inductive cal_item_text : rawdist + equation F -> chars -> Prop :=
| cal_dist d s : distribution_text d s -> cal_item_text (inl d) s
| cal_eqn e s : equation_text e s -> ~ looks_like_distribution s -> cal_item_text (inr e) s.
(* epsilon[], eta[];   or   epsilon[] ~ Normal(mu = 0, sigma = 1) = 0.5; *)
Definition number_text (i : dnum) (s : chars) : Prop := exists w t, i = DN t /\ s = w ++ t /\ ws w /\ numlit t.
Inductive shock_text : list varref * list rawdist -> chars -> Prop :=
| shock_list l s w : commas varref_text l s -> ws w -> shock_text (l, []) (s ++ w ++ str ";")
| shock_dist v s w c i w1 d : varref_text v s -> ws w -> rd_par d = fst v -> dist_call_text (rd_name d, rd_args d) (rd_wrapper d) c ->
    init_text number_text (rd_init d) i -> ws w1 ->
    shock_text ([(fst v, TI 0)], [d]) (s ++ w ++ str "~" ++ c ++ i ++ w1 ++ str ";").
(* nothing, or  C[], L[]; *)
Definition opt_list_text (l : list varref) (s : chars) : Prop :=
  (l = [] /\ s = []) \/ exists t w, s = t ++ w ++ str ";" /\ commas varref_text l t /\ ws w.

(* keyword { ... }; *)
Definition braces (kw : string) (body s : chars) : Prop :=
  exists w k w1 w2 w3, s = w ++ k ++ w1 ++ str "{" ++ body ++ w2 ++ str "}" ++ w3 ++ str ";" /\ ws w /\ keyword kw k /\ ws w1 /\ ws w2 /\ ws w3.
Inductive component_text : component F -> chars -> Prop :=
| comp_definitions l b s : sequence equation_text l b -> braces "definitions" b s -> component_text (CDefinitions l) s
| comp_controls l b s : opt_list_text l b -> braces "controls" b s -> component_text (CControls l) s
| comp_objective l b s : sequence equation_text l b -> braces "objective" b s -> component_text (CObjective l) s
| comp_constraints l b s : sequence equation_text l b -> braces "constraints" b s -> component_text (CConstraints l) s
| comp_identities l b s : sequence equation_text l b -> braces "identities" b s -> component_text (CIdentities l) s
| comp_shocks l b s : sequence shock_text l b -> braces "shocks" b s -> component_text (CShocks (concat (map fst l)) (concat (map snd l))) s
| comp_calibration l b s : sequence cal_item_text l b -> braces "calibration" b s -> component_text (CCalibration l) s.
(* block NAME { ... }; *)
Definition block_text (b : chars * list (component F)) (s : chars) : Prop :=
  exists w k w1 w2 body w3 w4, s = w ++ k ++ w1 ++ fst b ++ w2 ++ str "{" ++ body ++ w3 ++ str "}" ++ w4 ++ str ";" /\
    ws w /\ keyword "block" k /\ ws w1 /\ w1 <> [] /\ ident (fst b) /\ ws w2 /\ sequence component_text (snd b) body /\ ws w3 /\ ws w4.

(* an option's name: words separated by spaces *)
Inductive words : chars -> Prop :=
| words_one n : ident n -> words n
| words_cons n sp s : ident n -> sp <> [] -> forallb (Ascii.eqb " ") sp = true -> words s -> words (n ++ sp ++ s).
Inductive optval_text : optval -> chars -> Prop :=
| optval_true k : keyword "TRUE" k -> optval_text (inl true) k
| optval_false k : keyword "FALSE" k -> optval_text (inl false) k
| optval_name n : ident n -> ~ keyword "TRUE" n -> ~ keyword "FALSE" n -> optval_text (inr n) n.
Definition option_text (o : chars * optval) (s : chars) : Prop :=
  exists w w1 w2 v w3, s = w ++ fst o ++ w1 ++ str "=" ++ w2 ++ v ++ w3 ++ str ";" /\ ws w /\ words (fst o) /\ ws w1 /\ ws w2 /\ optval_text (snd o) v /\ ws w3.
Definition assumption_item_text (n : chars) (s : chars) : Prop :=
  (exists t, varref_text (n, t) s) \/ (exists w, s = w ++ n /\ ws w /\ ident n).
Definition subblock_text (a : chars * list chars) (s : chars) : Prop :=
  exists w k w1 t w2 w3 w4, s = w ++ k ++ w1 ++ str "{" ++ t ++ w2 ++ str ";" ++ w3 ++ str "}" ++ w4 ++ str ";" /\
    ws w /\ In (fst a) gcn_assumptions /\ map lower k = fst a /\ ws w1 /\ commas assumption_item_text (snd a) t /\ ws w2 /\ ws w3 /\ ws w4.
Inductive special_text : special -> chars -> Prop :=
| special_options l b s : sequence option_text l b -> braces "options" b s -> special_text (SOptions l) s
| special_tryreduce l b s : opt_list_text l b -> braces "tryreduce" b s -> special_text (STryreduce (map fst l)) s
| special_assumptions l b s : sequence subblock_text l b -> braces "assumptions" b s -> special_text (SAssumptions l) s.
(* a file: special blocks first, then at least one model block *)
Definition file_text (f : list special * list (chars * list (component F))) (s : chars) : Prop :=
  exists t1 t2 w, s = t1 ++ t2 ++ w /\ sequence special_text (fst f) t1 /\ sequence block_text (snd f) t2 /\ snd f <> [] /\ ws w.
End Grammar.
