(* C151: the first-order conditions of a loaded model. *)
From Verif Require Import Common Expr_Model Sym_Model Sym_Spec SymDict_Model ExpandTime_Spec Load_Model Load_Spec Load_Props Lfoc_Spec Lfoc_Proofs.
From Verif Require Gcn_Model.
From Coq Require Import Reals Lra Permutation.
Local Open Scope list_scope.

Section T.
Context {F : Type} (whole : F -> result (option Z)) (lit : F -> chars).
Variables (ord sord : set_order) (aord : list sx -> list sx).
Hypothesis Ho : set_order_ok ord.
Hypothesis Hs : set_order_ok sord.
Hypothesis Ha : forall l, Permutation (aord l) l.
Theorem C151_first_order_conditions m sss eqs : load whole lit ord sord aord m = Ok (sss, eqs) -> NoDup (map Gcn_Model.b_name (Gcn_Model.blocks m)) ->
  exists groups, eqs = concat groups /\
    Forall2 (fun b g => forall obj c, problem b obj c ->
        exists static focs, g = static ++ focs /\ Forall2 (first_order_condition whole lit b obj c) focs (Gcn_Model.controls b))
      (filter (fun b => negb (skipped (Gcn_Model.b_name b))) (Gcn_Model.blocks m)) groups.
Proof. exact (load_focs whole lit ord sord aord Ho Hs Ha m sss eqs). Qed.
Theorem C151_text fread farith text sss eqs m : load_gcn_string whole lit ord sord aord fread farith text = Ok (sss, eqs) ->
  Gcn_Model.parse_gcn fread farith text = Ok m -> NoDup (map Gcn_Model.b_name (Gcn_Model.blocks m)) ->
  forall b obj c, In b (Gcn_Model.blocks m) -> skipped (Gcn_Model.b_name b) = false -> problem b obj c ->
  exists before focs after, eqs = before ++ focs ++ after /\ Forall2 (first_order_condition whole lit b obj c) focs (Gcn_Model.controls b).
Proof.
  unfold load_gcn_string. intros H E Hn b obj c Hb Hk Hpb. rewrite E in H. cbn [bind] in H.
  destruct (C151_first_order_conditions m sss eqs H Hn) as (groups & -> & H2).
  assert (Hin : In b (filter (fun b => negb (skipped (Gcn_Model.b_name b))) (Gcn_Model.blocks m))) by (apply filter_In; rewrite Hk; auto).
  clear -H2 Hin Hpb. induction H2 as [|b' g l r Hg H2 IH]; [destruct Hin|]. destruct Hin as [<-|Hin].
  - destruct (Hg obj c Hpb) as (st & focs & -> & Hf). exists st, focs, (concat r). split; [cbn [concat]; now rewrite <- app_assoc|exact Hf].
  - destruct (IH Hin) as (x & focs & y & Ex & Hf). exists (g ++ x), focs, y. split; [cbn [concat]; rewrite Ex; now rewrite <- app_assoc|exact Hf].
Qed.
End T.
Print Assumptions C151_first_order_conditions.
Print Assumptions C151_text.

(* ---- a case: exponential utility ---- *)
Local Open Scope R_scope.
Definition exp_fn (f : chars) (k : nat) (x : R) : R := if chars_eqb f (str "exp") then exp x else demo_fn f k x.
Lemma exp_der f k x : f = str "exp" -> derivable_pt_lim (exp_fn f k) x (exp_fn f (S k) x).
Proof.
  intros ->. unfold exp_fn. replace (chars_eqb (str "exp") (str "exp")) with true by reflexivity. exact (derivable_pt_lim_exp x).
Qed.
Definition exp_smooth : smooth := Smooth exp_fn (fun f _ => f = str "exp") exp_der.
Lemma exp_usual par ss : usual demo_whole demo_lit exp_smooth (demo_interp par ss).
Proof.
  assert (E : forall f x, s_fn exp_smooth f 0 x = s_fn demo_smooth f 0 x).
  { intros f x. cbn [exp_smooth s_fn demo_smooth]. unfold exp_fn. destruct (chars_eqb f (str "exp")) eqn:Ef; [|reflexivity].
    apply chars_eqb_eq in Ef. subst. reflexivity. }
  destruct (C133_usual_case par ss) as [H1 H2 H3 H4 H5 H6 H7 H8 H9 H10 H11 H12 H13]. constructor; auto; intros; rewrite ?E; auto.
Qed.
Local Close Scope R_scope.
Definition saving_text : string := "
block HOUSEHOLD {
  definitions { u[] = -exp(-C[]); };
  controls { C[], K[]; };
  objective { U[] = u[] + beta * E[][U[1]]; };
  constraints { C[] + K[] = R[] * K[-1]; };
  identities { X[] = A[-3] + 2; };
  calibration { beta = 0.99; };
};"%string.
(* everything is 1, but consumption at date 0 is y, and u follows *)
Definition saving_path (y : R) : path R :=
  fun n t => let C t := if Z.eqb t 0 then y else 1%R in
             if chars_eqb n (str "C") then C t else if chars_eqb n (str "u") then (- exp (- C t))%R else 1%R.
Lemma ido_ok : set_order_ok ido.
Proof. intro l. apply Permutation_refl. Qed.
Theorem C151_case : exists sss eqs m b obj c,
  demo_load saving_text = Ok (sss, eqs) /\
  Gcn_Model.parse_gcn (fun x => x) demo_arith (str saving_text) = Ok m /\ In b (Gcn_Model.blocks m) /\ skipped (Gcn_Model.b_name b) = false /\
  problem b obj c /\ map fst (Gcn_Model.controls b) = [str "C"; str "K"] /\ multipliers_of b = [str "lambda__H_1"] /\ length eqs = 7%nat /\
  forall par ss, let I := demo_interp par ss in
    (forall y, good_path demo_whole demo_lit exp_smooth I (saving_path y) b /\ moves b saving_path (str "C") 0 1 y) /\
    saving_path 1 (str "C") 0%Z = 1%R /\
    (forall t q, In q (Gcn_Model.definitions b ++ [obj]) -> differentiable_at demo_whole demo_lit exp_smooth I (saving_path 1) t (Gcn_Model.rhs q)) /\
    (forall t q, In q (Gcn_Model.constraints b) -> differentiable_at demo_whole demo_lit exp_smooth I (saving_path 1) t (Gcn_Model.lhs q) /\
                                                   differentiable_at demo_whole demo_lit exp_smooth I (saving_path 1) t (Gcn_Model.rhs q)) /\
    exists f H, In f eqs /\ derivable_pt_lim
        (fun y => sum_f_R0 (fun k => par (str "beta") ^ k * period_lagrangian I (saving_path y) (0 + Z.of_nat k) b obj)%R H)
        1 (ev (Ralg exp_smooth) (at_date I (saving_path 1) 0) f).
Proof.
  destruct (Gcn_Model.parse_gcn (fun x => x) demo_arith (str saving_text)) as [m|] eqn:Em; [|vm_compute in Em; discriminate Em].
  destruct (demo_load saving_text) as [[sss eqs]|] eqn:El; [|vm_compute in El; discriminate El].
  assert (Hl : match demo_load saving_text with Ok (_, eqs) => length eqs = 7%nat | Err _ => False end) by (vm_compute; reflexivity). rewrite El in Hl.
  pose proof (C151_text demo_whole demo_lit ido ido ida ido_ok ido_ok (fun l => Permutation_refl l) (fun x => x) demo_arith (str saving_text) sss eqs m El Em) as HT.
  clear El. vm_compute in Em. injection Em as <-.
  cbn [Gcn_Model.blocks] in HT. match type of HT with context [In _ [?x]] => set (b := x) in * end.
  assert (Hobj : exists o, Gcn_Model.objective b = [o]) by (eexists; reflexivity). destruct Hobj as (o & Eo).
  assert (Hpb : problem b o (Some (Par (str "beta")))).
  { assert (Eo' := Eo). cbn [b Gcn_Model.objective] in Eo'. injection Eo' as <-. constructor.
    - unfold definitions_regular. cbn [b Gcn_Model.definitions]. split; [|split].
      + intros q [<-|[]]. do 2 eexists. split; [reflexivity|]. cbn. lia.
      + intros [|[|i]] [|[|j]] q q' n t n' t' H1 H2 Hne; try discriminate. now destruct Hne.
      + intros q n t [<-|[]] [H'|[]]. injection H' as <- <-. split; [discriminate|]. split; [cbn; lia|].
        intros q' t' [<-|[]] H'. discriminate H'.
    - reflexivity.
    - reflexivity.
    - apply (recursive_value _ (str "U") 0%Z (Var (str "u") (TI 0)) (Par (str "beta")) (Expec (Var (str "U") (TI 1)))); try reflexivity; [now right|].
      intros [H|[]]. discriminate H.
    - discriminate.
    - intros v [<-|[<-|[]]]; do 2 eexists; (split; [reflexivity|cbn; lia]).
    - split; intros n t Hin; cbn in Hin; repeat destruct Hin as [Hin|Hin]; try contradiction; injection Hin as <- <-; (split; [discriminate|cbn; lia]).
    - intros q [<-|[]]; split; intros n t Hin; cbn in Hin; repeat destruct Hin as [Hin|Hin]; try contradiction; injection Hin as <- <-; (split; [discriminate|cbn; lia]).
    - intros n [<-|[]] (q & t & [<-|[]] & E). discriminate E. }
  exists sss, eqs. eexists. exists b, o, (Some (Par (str "beta"))). split; [reflexivity|]. split; [reflexivity|]. split; [now left|]. split; [reflexivity|].
  split; [exact Hpb|]. split; [reflexivity|]. split; [reflexivity|]. split; [exact Hl|]. intros par ss I.
  assert (G1 : forall y, good_path demo_whole demo_lit exp_smooth I (saving_path y) b /\ moves b saving_path (str "C") 0 1 y).
  { intro y. split.
    - constructor.
      + apply exp_usual.
      + intros q [<-|[]] t. cbn [Gcn_Model.lhs Gcn_Model.rhs den]. cbn. rewrite Z.add_0_r. reflexivity.
      + intros q Hq t. cbn in Hq. repeat destruct Hq as [Hq|Hq]; try contradiction; subst q; cbn; repeat split; try discriminate.
    - intros n t Hd. split.
      + intros [-> ->]. reflexivity.
      + intro Hn. unfold saving_path. destruct (chars_eqb n (str "C")) eqn:E1.
        * apply chars_eqb_eq in E1. destruct (Z.eqb_spec t 0); [destruct Hn; auto|reflexivity].
        * destruct (chars_eqb n (str "u")) eqn:E2; [|reflexivity]. apply chars_eqb_eq in E2. destruct Hd. subst n. do 2 eexists. split; [now left|reflexivity]. }
  assert (G2 : forall t q, In q (Gcn_Model.definitions b ++ [o]) -> differentiable_at demo_whole demo_lit exp_smooth I (saving_path 1) t (Gcn_Model.rhs q)).
  { assert (Eo' := Eo). cbn [b Gcn_Model.objective] in Eo'. injection Eo' as <-. intros t q Hq. cbn in Hq. repeat destruct Hq as [Hq|Hq]; try contradiction; subst q; cbn; repeat split. }
  assert (G3 : forall t q, In q (Gcn_Model.constraints b) -> differentiable_at demo_whole demo_lit exp_smooth I (saving_path 1) t (Gcn_Model.lhs q) /\
                                                   differentiable_at demo_whole demo_lit exp_smooth I (saving_path 1) t (Gcn_Model.rhs q)).
  { intros t q [<-|[]]; cbn; repeat split. }
  split; [exact G1|]. split; [reflexivity|]. split; [exact G2|]. split; [exact G3|].
  destruct (HT ltac:(repeat constructor; intros []) b o (Some (Par (str "beta"))) (or_introl eq_refl) eq_refl Hpb) as (x & focs & z & -> & HF).
  inversion HF as [|f v fs vs Hf _ E1 E2]; subst. destruct (Hf (str "C") 0%Z eq_refl exp_smooth I) as (N & HN).
  exists f, N. split; [apply in_or_app; right; now left|].
  apply (HN saving_path 0%Z 1%R 1%R N (le_n N) Rlt_0_1); auto.
  intros c' E. injection E as <-. exact Coq.Init.Logic.I.
Qed.
Print Assumptions C151_case.
