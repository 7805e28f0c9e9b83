(* C111 - C114: printing and parsing again *)
From Verif Require Import Common Expr_Model Expr_Spec Expr_Lex Expr_Proofs Expr_RoundTrip SymDict_Model Gcn_Lex Gcn_Model Gcn_Basic Gcn_Grammar Gcn_Expr Gcn_Sound Gcn_Complete Gcn_Complete2 Gcn_Complete3 Gcn_Complete4 Gcn_Complete5 Gcn_Meaning Gcn_Build Gcn_Spec Gcn_NoHash Gcn_Props Gcn_Props2 Gcn_Print Gcn_Print2 Gcn_Print3 Gcn_Parsed.
From Verif Require Sort_Lib.
From Coq Require Import Permutation.
Local Open Scope list_scope.
Set Default Proof Using "Type".

Lemma clean_id s : clean s -> strip_comments s = s.
Proof. apply strip_id. Qed.
Section RoundTrip.
Context {F : Type} (fprint fstr : F -> chars) (fread : chars -> F) (farith : dop -> F -> F -> result F).
Theorem C111_equation e : printable fprint fread e -> parse_equation fread (print_equation fprint e ++ str ";") = Ok (untagged e).
Proof.
  intro H. pose proof (equation_print fprint fread e H [] eq_refl) as T. rewrite app_nil_l in T. apply C107_equation. exists (print_equation fprint e ++ str ";"), []. rewrite app_nil_r, clean_id by (eapply clean_equation; exact T).
  split; [reflexivity|]. split; [exact T|reflexivity].
Qed.
Theorem C111_exact e : printable fprint fread e -> (parse_equation fread (print_equation fprint e ++ str ";") = Ok e <-> tags e = []).
Proof. intro H. rewrite (C111_equation e H). destruct e as [l r m c ts]. unfold untagged. cbn. split; [intro E; injection E; auto|now intros ->]. Qed.
(* the printed text alone, without ";", is never an equation *)
Theorem C111_no_semicolon e e' : printable fprint fread e -> parse_equation fread (print_equation fprint e) <> Ok e'.
Proof.
  intros H C. pose proof (equation_print fprint fread e H [] eq_refl) as T. rewrite app_nil_l in T. pose proof (clean_equation fread _ _ T) as K.
  assert (K' : clean (print_equation fprint e)) by (unfold clean, nohash in *; rewrite forallb_app in K; now apply andb_true_iff in K as [K _]).
  apply C107_equation in C as (t & w & E & Ht & Hw). rewrite (clean_id _ K') in E. pose proof (equation_c fread _ _ [] T) as P. rewrite app_nil_r, E, <- app_assoc in P. pose proof (equation_c fread _ _ (w ++ str ";") Ht) as Q. rewrite P in Q. injection Q as _ Q. destruct w; discriminate.
Qed.
Theorem C112_block b : block_ok fprint fstr fread b -> parse_block_from_text fread farith (print_block fprint fstr b) = Ok (plain_block b).
Proof.
  intro H. pose proof (block_print fprint fstr fread b H [] eq_refl) as T. rewrite app_nil_l in T. apply C107_block. exists (raw_block fstr b), (print_block fprint fstr b), []. rewrite app_nil_r, clean_id by (eapply clean_block; exact T).
  split; [reflexivity|]. split; [exact T|]. split; [reflexivity|]. now apply (block_meaning fprint fstr fread farith).
Qed.
Lemma untag_all l : map untagged l = l <-> forall e : equation F, In e l -> tags e = [].
Proof.
  induction l as [|e l IH]; cbn [map In]; [split; [intros _ e []|reflexivity]|]. split.
  - intro E. injection E as E1 E2. intros x [<-|Hx]; [rewrite <- E1; reflexivity|now apply IH].
  - intro H. f_equal; [|apply IH; auto]. destruct e as [lh r m c ts]. pose proof (H _ (or_introl eq_refl)) as X. cbn in X. now subst.
Qed.
(* what is lost: tags and distributions of shocks, nothing else *)
Definition untagged_block (b : block F) : Prop :=
  (forall e, In e (definitions b ++ objective b ++ constraints b ++ identities b) -> tags e = []) /\ (forall e, In (IEqn e) (calibration b) -> tags e = []).
Lemma plain_item_all (l : list (item F)) : map plain_item l = l <-> forall e, In (IEqn e) l -> tags e = [].
Proof.
  induction l as [|i l IH]; cbn [map In]; [split; [intros _ e []|reflexivity]|]. split.
  - intro E. injection E as E1 E2. intros e [-> | He]; [injection E1 as E1; rewrite <- E1; reflexivity|now apply IH].
  - intro H. f_equal; [|apply IH; auto]. destruct i as [d|[lh r m c ts]]; [reflexivity|]. pose proof (H _ (or_introl eq_refl)) as X. cbn in X. now subst.
Qed.
Theorem C112_exact b : block_ok fprint fstr fread b ->
  (parse_block_from_text fread farith (print_block fprint fstr b) = Ok b <-> untagged_block b /\ shock_dists b = []).
Proof.
  intro H. rewrite (C112_block b H). unfold untagged_block. rewrite <- plain_item_all. assert (G : (forall e, In e (definitions b ++ objective b ++ constraints b ++ identities b) -> tags e = []) <-> map untagged (definitions b) = definitions b /\ map untagged (objective b) = objective b /\ map untagged (constraints b) = constraints b /\ map untagged (identities b) = identities b).
  { rewrite !untag_all. split; [intro X; repeat split; intros e He; apply X; rewrite !in_app_iff; tauto|]. intros (A & B & C & D) e He. rewrite !in_app_iff in He. destruct He as [He|[He|[He|He]]]; auto. }
  rewrite G. unfold plain_block. destruct b as [n d ct o cs i s sd cal]. cbn [b_name definitions controls objective constraints identities shocks shock_dists calibration]. split.
  - intro E. injection E as E1 E2 E3 E4 E5 E6. auto 8.
  - intros (((-> & -> & -> & ->) & ->) & ->). reflexivity.
Qed.
Context (sort : list chars -> list chars) (Hsort : forall l, Permutation (sort l) l).
Theorem C113_model m : model_ok fprint fstr fread m -> exists m', parse_gcn fread farith (print_model fprint fstr sort m) = Ok m' /\
  blocks m' = map plain_block (blocks m) /\ options m' = options m /\ tryreduce m' = tryreduce m /\ forall v k, assumed (assumptions m') v k <-> assumed (assumptions m) v k.
Proof using Hsort.
  intro H. pose proof (model_print fprint fstr fread sort Hsort m H) as T. pose proof (clean_file fread _ _ T) as K.
  assert (X : exists m', build_model fread farith (raw_model fstr sort m) = Ok m').
  { unfold build_model. destruct (build_blocks fread farith (snd (raw_model fstr sort m))) as [bs|x] eqn:E; [eauto|]. exfalso. destruct (blocks_total fprint fstr fread farith m H) as [bs Hbs]. unfold raw_model in E. cbn [snd] in E.
    assert (G : forall l bs, Forall2 (block_of fread farith) l bs -> build_blocks fread farith l = Ok bs) by (induction 1 as [|r b l l' Hb Hr IH]; [reflexivity|]; cbn; apply build_block_iff in Hb; rewrite Hb, IH; reflexivity). rewrite (G _ _ Hbs) in E. discriminate. }
  destruct X as [m' X]. apply build_model_iff in X. exists m'. split; [apply C107_file; exists (raw_model fstr sort m); rewrite clean_id by exact K; auto|].
  destruct (model_meaning fprint fstr fread farith sort Hsort m m' H X) as (A & B & C & D). pose proof H as (_ & _ & _ & _ & E & _). rewrite E. auto.
Qed.
Lemma plain_ok b : block_ok fprint fstr fread b -> block_ok fprint fstr fread (plain_block b).
Proof.
  intros (H1 & H2 & H3 & H4). unfold block_ok, plain_block. cbn [b_name definitions controls objective constraints identities shocks calibration]. split; [exact H1|]. split; [|split; [exact H3|]].
  - intros e He. rewrite <- !map_app in He. apply in_map_iff in He as (e0 & <- & He). exact (H2 e0 He).
  - intros i Hi. apply in_map_iff in Hi as (i0 & <- & Hi). specialize (H4 i0 Hi). destruct i0; exact H4.
Qed.
(* printing once more changes nothing *)
Theorem C113_stable m m1 m2 : model_ok fprint fstr fread m -> parse_gcn fread farith (print_model fprint fstr sort m) = Ok m1 -> parse_gcn fread farith (print_model fprint fstr sort m1) = Ok m2 ->
  blocks m2 = blocks m1 /\ options m2 = options m1 /\ tryreduce m2 = tryreduce m1 /\ forall v k, assumed (assumptions m2) v k <-> assumed (assumptions m1) v k.
Proof using Hsort.
  intros H P1 P2. destruct (C113_model m H) as (m' & P & B & O & T & A). rewrite P in P1. injection P1 as ->. pose proof H as (N & Hb & Ho1 & Ho2 & Ht & Ha).
  assert (H1 : model_ok fprint fstr fread m1).
  { split; [rewrite B; intro E; apply map_eq_nil in E; contradiction|]. split; [|rewrite O, T; split; [exact Ho1|]; split; [exact Ho2|]; split; [exact Ht|]].
    - intros b Hi. rewrite B in Hi. apply in_map_iff in Hi as (b0 & <- & Hi). apply plain_ok. auto.
    - intros v k Hv. rewrite !A in *. exact (Ha v k Hv). }
  destruct (C113_model m1 H1) as (m3 & P3 & B3 & O3 & T3 & A3). rewrite P3 in P2. injection P2 as ->. split; [|auto]. rewrite B3, B, map_map. apply map_ext. intro b. unfold plain_block. cbn. rewrite !map_map. f_equal. apply map_ext. intros []; reflexivity.
Qed.
(* a model read from any file *)
Theorem C113_parsed text m : parse_gcn fread farith text = Ok m -> faithful fprint fstr fread m -> exists m', parse_gcn fread farith (print_model fprint fstr sort m) = Ok m' /\
  blocks m' = map plain_block (blocks m) /\ options m' = options m /\ tryreduce m' = tryreduce m /\ forall v k, assumed (assumptions m') v k <-> assumed (assumptions m) v k.
Proof using Hsort.
  intros P Hf. apply C113_model. apply C107_file in P as (raw & Ht & Hm). eapply parsed_ok; eassumption.
Qed.
(* parse_block(name, content): the text it builds lacks the final ";" *)
Theorem C114_parse_block name content b : clean name -> clean content -> parse_block fread farith name content <> Ok b.
Proof.
  intros Hn Hc C. unfold parse_block in C. apply C107_block in C as (raw & t & w & E & (w0 & k & w1 & w2 & body & w3 & w4 & -> & _) & Hw & _).
  rewrite clean_id in E by (repeat (apply clean_app); auto; reflexivity).
  assert (G : forall (X Y : chars) z w, ws w -> X ++ [z] = (Y ++ str ";") ++ w -> is_ws z = true \/ z = ";"%char).
  { intros X Y z v Hv Eq. destruct v as [|c v] using rev_ind; [rewrite app_nil_r in Eq; apply app_inj_tail in Eq as [_ ->]; now right|]. rewrite app_assoc in Eq. apply app_inj_tail in Eq as [_ ->]. left. unfold ws in Hv. rewrite forallb_app in Hv. apply andb_true_iff in Hv as [_ Hv]. cbn in Hv. now rewrite andb_true_r in Hv. }
  destruct (G (str "block " ++ name ++ str " { " ++ content ++ str " ") (w0 ++ k ++ w1 ++ fst raw ++ w2 ++ str "{" ++ body ++ w3 ++ str "}" ++ w4) "}"%char w Hw) as [X|X]; [|discriminate X|discriminate X].
  repeat rewrite <- app_assoc. repeat rewrite <- app_assoc in E. exact E.
Qed.
End RoundTrip.
(* ---- a model that meets the hypotheses ---- *)
Definition whole : chars := Gcn_Props.lines [
  "options { output logfile = TRUE; language = python; };";
  "assumptions { positive { Y[], C; }; unit_interval { delta; }; };";
  "block HOUSEHOLD { definitions { u[] = log(C[]); }; controls { C[], K[]; };";
  "  objective { U[] = u[] + beta * E[][U[1]]; };";
  "  constraints { C[] + K[] = r[] * K[-1] : lambda[]; };";
  "  identities { K[ss] / Y[ss] = 10 -> alpha; };";
  "  shocks { epsilon[]; };";
  "  calibration { beta = 0.99; rho ~ maxent(Beta(), lower=0.2, upper=0.9) = 0.95; }; };"]%string.
Notation pgcn := (parse_gcn (fun t => t) demo_arith).
Notation psort := (Sort_Lib.isort SymDict_Model.chars_leb).
Definition printed (m : gmodel chars) : chars := print_model (fun t => t) (fun t => t) psort m.
Lemma psort_perm l : Permutation (psort l) l.
Proof. symmetry. apply Sort_Lib.isort_perm. Qed.
Definition whole_model : gmodel chars := match pgcn whole with Ok m => m | Err _ => Model [] [] [] [] end.
Ltac digs := split; [discriminate|reflexivity].
Lemma num_int d : digits1 d -> numlit d.
Proof. intro H. exists d, []. rewrite app_nil_r. split; [reflexivity|]. split; [now constructor|constructor]. Qed.
Lemma num_dot d1 d2 : digits1 d1 -> digits d2 -> numlit (d1 ++ "."%char :: d2).
Proof. intros H1 H2. exists (d1 ++ "."%char :: d2), []. rewrite app_nil_r. split; [reflexivity|]. split; [now constructor|constructor]. Qed.
Lemma dnum_dot d1 d2 : digits1 d1 -> digits d2 -> dnumber (d1 ++ "."%char :: d2).
Proof. intros H1 H2. pose proof (dnumber_real [] d1 d2 [] (or_introl eq_refl) H1 H2 (exp_none)) as X. rewrite app_nil_l in X. cbn [str app] in X. now rewrite app_nil_r in X. Qed.
Theorem C113_case : pgcn whole = Ok whole_model /\ faithful (fun t => t) (fun t => t) (fun t => t) whole_model /\
  (forall b, In b (blocks whole_model) -> length (definitions b) = 1 /\ length (controls b) = 2 /\ length (constraints b) = 1 /\ length (identities b) = 1 /\ length (calibration b) = 2) /\
  length (blocks whole_model) = 1 /\ length (options whole_model) = 2 /\
  assumed (assumptions whole_model) (str "delta") (str "positive") /\
  match pgcn (printed whole_model) with Ok m => blocks m = blocks whole_model /\ options m = options whole_model | Err _ => False end.
Proof.
  split; [vm_compute; reflexivity|]. split; [|split; [|split; [vm_compute; reflexivity|]; split; [vm_compute; reflexivity|]; split; [|vm_compute; split; reflexivity]]].
  - split; [|vm_compute; reflexivity]. intros b Hb. vm_compute in Hb. destruct Hb as [<-|[]]. split.
    + intros e He. cbn in He. repeat destruct He as [<-|He]; [| | | |destruct He]; cbn; repeat split; try reflexivity. apply (num_int (str "10")). digs.
    + intros i Hi. cbn in Hi. destruct Hi as [<-|[<-|[]]].
      * cbn. split; [repeat split; try reflexivity; apply (num_dot (str "0") (str "99")); [digs|reflexivity]|]. intros (n & x & r & _ & Hx & E). cbn in E. revert E. cbn in Hx. repeat destruct Hx as [<-|Hx]; try discriminate. destruct Hx.
      * cbn. split; [intros k v []|]. split; [|split; [apply (dnum_dot (str "0") (str "95")); [digs|reflexivity]|reflexivity]].
        intros k v Hv. cbn in Hv. destruct Hv as [Hv|[Hv|[]]]; injection Hv as <- <-; (split; [|reflexivity]); [apply (dnum_dot (str "0") (str "2"))|apply (dnum_dot (str "0") (str "9"))]; try digs; reflexivity.
  - intros b Hb. vm_compute in Hb. destruct Hb as [<-|[]]. vm_compute. auto.
  - eexists. split; [vm_compute; right; right; left; reflexivity|vm_compute; auto].
Qed.
(* ---- what does not come back ---- *)
Definition again (text : list string) : option (gmodel chars * result (gmodel chars)) :=
  match pgcn (Gcn_Props.lines text) with Ok m => Some (m, pgcn (printed m)) | Err _ => None end.
(* tags *)
Theorem C111_tags_refuted : match again ["block A { identities { @exclude x[] = y[]; }; };"%string] with
  | Some (m, Ok m') => map (fun b => map tags (identities b)) (blocks m) = [[[Exclude]]] /\ map (fun b => map tags (identities b)) (blocks m') = [[[]]] | _ => False end.
Proof. vm_compute. split; reflexivity. Qed.
(* distributions of shocks *)
Theorem C112_shocks_refuted : match again ["block A { identities { x[] = eps[]; }; shocks { eps[] ~ Normal(mu=0, sigma=1); }; };"%string] with
  | Some (m, Ok m') => map (fun b => length (shock_dists b)) (blocks m) = [1] /\ map (fun b => length (shock_dists b)) (blocks m') = [0] /\ map shocks (blocks m) = map shocks (blocks m') | _ => False end.
Proof. vm_compute. repeat split. Qed.
(* a tryreduce list is printed without brackets and cannot be read *)
Theorem C113_tryreduce_refuted : match again ["tryreduce { U[], C[]; }; block A { identities { x[] = y[]; }; };"%string] with
  | Some (m, r) => tryreduce m = [str "U"; str "C"] /\ r = Err (GEconError 0) | None => False end.
Proof. vm_compute. split; reflexivity. Qed.
(* grouping *)
Theorem C113_grouping_refuted : match again ["block A { identities { x[] = a - (b - c); }; };"%string] with
  | Some (m, Ok m') => map (fun b => map rhs (identities b)) (blocks m) = [[Bin SUB (Par (str "a")) (Bin SUB (Par (str "b")) (Par (str "c")))]] /\
      map (fun b => map rhs (identities b)) (blocks m') = [[Bin SUB (Bin SUB (Par (str "a")) (Par (str "b"))) (Par (str "c"))]] | _ => False end.
Proof. vm_compute. split; reflexivity. Qed.
(* a calibration equation whose right side begins with a distribution's name *)
Theorem C113_mistaken_refuted : match again ["block A { calibration { alpha = (Beta_hh); }; };"%string] with Some (_, r) => r = Err (GEconError 0) | None => False end.
Proof. vm_compute. reflexivity. Qed.
Theorem C112_case : exists b, In b (blocks whole_model) /\ block_ok (fun t => t) (fun t => t) (fun t => t) b /\ parse_block_from_text (fun t => t) demo_arith (print_block (fun t => t) (fun t => t) b) = Ok b.
Proof.
  destruct C113_case as (P & Hf & _). apply C107_file in P as (raw & Ht & Hm). pose proof (parsed_ok _ _ _ demo_arith _ _ _ Ht Hm Hf) as (_ & Hb & _).
  eexists. split; [vm_compute; left; reflexivity|]. split; [apply Hb; vm_compute; left; reflexivity|vm_compute; reflexivity].
Qed.
Theorem C111_case : exists e, printable (fun t => t) (fun t => t) e /\ multiplier e = Some (str "lambda") /\ parse_equation (fun t => t) (print_equation (fun t => t) e ++ str ";") = Ok e.
Proof.
  destruct C113_case as (P & Hf & _). apply C107_file in P as (raw & Ht & Hm). pose proof (parsed_ok _ _ _ demo_arith _ _ _ Ht Hm Hf) as (_ & Hb & _).
  exists (Eqn (Bin ADD (Var (str "C") (TI 0)) (Var (str "K") (TI 0))) (Bin MUL (Var (str "r") (TI 0)) (Var (str "K") (TI (-1)))) (Some (str "lambda")) None []).
  split; [|split; [reflexivity|vm_compute; reflexivity]]. eapply (Hb _); [vm_compute; left; reflexivity|]. vm_compute. right. right. left. reflexivity.
Qed.
(* a comment in the content makes parse_block work after all *)
Theorem C114_case : match parse_block (fun t => t) demo_arith (str "A") (str "identities { x[] = y[]; }; }; #") with Ok b => length (identities b) = 1 | Err _ => False end /\
  parse_block (fun t => t) demo_arith (str "A") (str "identities { x[] = y[]; };") = Err (GEconError 0).
Proof. vm_compute. split; reflexivity. Qed.
