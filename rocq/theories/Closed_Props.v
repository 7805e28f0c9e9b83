(* Property C18: the closed-form first-order conditions of Cobb-Douglas and CES blocks. *)
From Verif Require Import Common Sym_Model Sym_Spec Sym_Proofs Sym_Diff Sym_Flatten Sym_More SymDict_Model SymDict_More Block_Model Block_Spec Block_Props
  Closed_Model Closed_Spec Closed_Final.
From Coq Require Import Permutation Reals Lra.
Local Open Scope list_scope.

(* [zero] is what sp.simplify recognises as zero; [production_point] and [written_once] are in Closed_Spec. *)
Theorem C18_closed_forms_agree :
  forall ord sord aord, set_order_ok ord -> set_order_ok sord -> (forall l, Permutation (aord l) l) ->
  forall zero G a obj e c short b Y, power_world G ->
  optimisation_block a obj c short -> ab_defs a = [] -> ab_cons a = [e] -> g_lhs e = Sy Y ->
  (forall x, In x (ab_controls a) -> written_once e x) ->
  (forall n t, In (SDate n t) (ab_controls a) -> ~ In (SDate n 0) (assigned short 1 [e])) ->
  to_block ord sord a = Ok b ->
  exists b1 b2, solve_optimization ord sord aord b = Ok b1 /\ solve_dispatched ord sord aord zero b = Ok b2 /\
    Forall2 (fun x y => forall env, production_point G zero obj e c env -> ev (Ralg G) env x = ev (Ralg G) env y) (k_sys b1) (k_sys b2).
Proof. exact closed_forms_agree. Qed.
Print Assumptions C18_closed_forms_agree.

(* ---- a concrete world and concrete firms ---- *)
Section World.
Local Open Scope R_scope.
Definition dlog (k : nat) (x : R) : R := match k with O => ln x | S j => (-1) ^ j * INR (fact j) * (/ x) ^ (S j) end.
Lemma dlog_der k x : 0 < x -> derivable_pt_lim (dlog k) x (dlog (S k) x).
Proof.
  intro Hx. destruct k as [|j]; cbn [dlog].
  - replace ((-1) ^ 0 * INR (fact 0) * (/ x) ^ 1) with (/ x) by (cbn; ring). apply derivable_pt_lim_ln. exact Hx.
  - assert (Hi : derivable_pt_lim (fun y => / y) x (- (/ x) ^ 2)).
    { replace (- (/ x) ^ 2) with ((0 * x - 1 * 1) / Rsqr x) by (unfold Rsqr; field; lra).
      eapply derivable_pt_lim_ext; [|apply (derivable_pt_lim_div (fct_cte 1) id x 0 1);
        [apply derivable_pt_lim_const|apply derivable_pt_lim_id|unfold id; lra]].
      intro y. unfold div_fct, fct_cte, id. unfold Rdiv. ring. }
    pose proof (derivable_pt_lim_comp _ _ x _ _ Hi (derivable_pt_lim_pow (/ x) (S j))) as Hc.
    pose proof (derivable_pt_lim_scal _ ((-1) ^ j * INR (fact j)) x _ Hc) as Hf.
    replace ((-1) ^ S j * INR (fact (S j)) * (/ x) ^ S (S j)) with ((-1) ^ j * INR (fact j) * (INR (S j) * (/ x) ^ Init.Nat.pred (S j) * - (/ x) ^ 2)); [exact Hf|].
    rewrite fact_simpl, mult_INR. cbn [pow Init.Nat.pred]. ring.
Qed.
Definition wfn (f : chars) (k : nat) (x : R) : R :=
  if chars_eqb f (str "exp") then exp x else if chars_eqb f (str "log") then dlog k x else 0.
Definition wdom (f : chars) (x : R) : Prop := if chars_eqb f (str "log") then 0 < x else True.
Lemma wder f k x : wdom f x -> derivable_pt_lim (wfn f k) x (wfn f (S k) x).
Proof.
  unfold wdom, wfn. destruct (chars_eqb f (str "exp")) eqn:E1.
  - intros _. apply derivable_pt_lim_exp.
  - destruct (chars_eqb f (str "log")) eqn:E2; intro H; [apply dlog_der; exact H|apply derivable_pt_lim_const].
Qed.
Definition W : smooth := Smooth wfn wdom wder.
Lemma W_power : power_world W.
Proof. constructor; cbn [W s_fn s_dom]; intros; try reflexivity; try (cbn; lra). exact H. Qed.
End World.

Definition firm_obj : geq := GEq (x_ "TC" 0) (Ad (Mu (x_ "r" 0) (x_ "K" 0)) (Mu (x_ "w" 0) (x_ "L" 0))) false true false None None.
Definition mono : sx := Mu (Mu (x_ "A" 0) (pw (x_ "K" 0) (p_ "alpha"))) (pw (x_ "L" 0) (Ad (Cst 1) (Ng (p_ "alpha")))).
Definition firm_of (defs : list geq) (obj e : geq) : ablock := ABlock (str "FIRM") (ctl ["K"; "L"]%string) [] defs [obj] [e] [] [].
Definition cd_con : geq := eq_ (x_ "Y" 0) mono (Some "mc"%string).
Definition ces_con : geq := eq_ (x_ "Y" 0)
  (Mu (x_ "A" 0) (pw (Ad (Mu (p_ "a") (pw (x_ "K" 0) (p_ "s"))) (Mu (p_ "b") (pw (x_ "L" 0) (p_ "s")))) (pw (p_ "s") (Cst (-1))))) (Some "mc"%string).
(* a simplifier that knows e - e = 0 and s^-1 s - 1 = 0 *)
Fixpoint sx_eqb (x y : sx) : bool :=
  match x, y with
  | Cst a, Cst b => Z.eqb a b
  | Sy a, Sy b => sym_eqb a b
  | Ad a b, Ad c d | Mu a b, Mu c d => (sx_eqb a c && sx_eqb b d)%bool
  | Ng a, Ng b => sx_eqb a b
  | Fn f k a, Fn g j b => (chars_eqb f g && Nat.eqb k j && sx_eqb a b)%bool
  | _, _ => false
  end.
Definition zero0 (e : sx) : bool :=
  match e with
  | Ad (Mu (Fn f k a) s) (Ng (Cst 1)) => (sx_eqb (Fn f k a) (pw s (Cst (-1))) && sx_eqb s (p_ "s"))%bool
  | Ad a (Ng b) => sx_eqb a b
  | _ => false
  end.
Definition same_everywhere (G : smooth) zero obj e c (b1 b2 : block) : Prop :=
  Forall2 (fun x y => forall env, production_point G zero obj e c env -> ev (Ralg G) env x = ev (Ralg G) env y) (k_sys b1) (k_sys b2).
Definition solved (a : ablock) (b1 b2 : block) : Prop :=
  exists b, to_block id_ord id_ord a = Ok b /\ solve_optimization id_ord id_ord (fun l => l) b = Ok b1 /\
            solve_dispatched id_ord id_ord (fun l => l) zero0 b = Ok b2.

Ltac listed H := cbn in H; repeat (destruct H as [H|H]; [|]); try contradiction.
Lemma static_firm e : g_lm e = Some (str "mc") -> no_ss (g_lhs e) -> no_ss (g_rhs e) -> optimisation_block (firm_of [] firm_obj e) firm_obj (Cst 1) (str "F").
Proof.
  intros Hlm Hl Hr. constructor; try reflexivity.
  - split; [intros ? []|]. split; [intros i j e0 e1 b t b' t' H1; destruct i; discriminate|]. split; [intros ? ? ? []|intros ? []].
  - apply static_objective. intros s Hs. cbn in Hs. repeat (destruct Hs as [<-|Hs]; [split; [discriminate|intros b t E; injection E as _ <-; auto]|]). destruct Hs.
  - discriminate.
  - intros x Hx. cbn in Hx. destruct Hx as [<-|[<-|[]]]; eexists; eexists; reflexivity.
  - split; [|intros e0 _; split]; intros b t _ (e' & t' & r & [] & _).
  - split; [intros b Hb; cbn in Hb; repeat (destruct Hb as [Hb|Hb]; [discriminate|]); destruct Hb|]. intros e0 [<-|[]]. auto.
  - intros n _ (e' & t' & r & [] & _).
Qed.
(* the point at which every variable and parameter is 1, except the shares of the CES function *)
Definition ones (s : sym) : R := match s with SPar p => if (chars_eqb p (str "a") || chars_eqb p (str "b"))%bool then (/ 2)%R else 1%R | _ => 1%R end.
Lemma ones_eqb s t : sx_eqb s t = true -> s = t.
Proof.
  revert t. induction s as [z|s|a IHa b IHb|a IHa b IHb|a IH|h k a IH]; intros [z'|s'|a' b'|a' b'|a'|h' k' a'] H; cbn in H; try discriminate.
  - apply Z.eqb_eq in H. congruence.
  - apply sym_eqb_eq in H. congruence.
  - apply andb_true_iff in H as [H1 H2]. f_equal; auto.
  - apply andb_true_iff in H as [H1 H2]. f_equal; auto.
  - f_equal; auto.
  - apply andb_true_iff in H as [H H3]. apply andb_true_iff in H as [H1 H2]. apply chars_eqb_eq in H1. apply Nat.eqb_eq in H2. f_equal; auto.
Qed.

Lemma zero0_sound x : zero0 x = true -> ev (Ralg W) ones x = 0%R.
Proof.
  assert (K : forall a b, sx_eqb a b = true -> ev (Ralg W) ones (Ad a (Ng b)) = 0%R).
  { intros a b H. apply ones_eqb in H. subst b. cbn. lra. }
  intro H0. unfold zero0 in H0. destruct x as [| |a nb| | |]; try discriminate. destruct nb as [| | | |b|]; try (exfalso; revert H0; destruct a as [| | |u0 s0| |]; try discriminate; destruct u0; discriminate).
  rename H0 into H. destruct a as [| | |u s| |]; try (apply K; exact H). destruct u as [| | | | |f k a]; try (apply K; exact H).
  destruct b as [z| | | | |]; try (apply K; exact H). destruct z as [|p|p]; try (apply K; exact H). destruct p; try (apply K; exact H).
  apply andb_true_iff in H as [H1 H2]. apply ones_eqb in H1, H2. subst s. rewrite H1. unfold pw.
  cbn -[exp ln]. unfold wfn. cbn -[exp ln]. rewrite ln_1. replace (-1 * 0)%R with 0%R by ring. rewrite exp_0. lra.
Qed.
Lemma later_ones k s : later k ones s = ones s. Proof. destruct s; reflexivity. Qed.
Lemma ones_point e : ev (Ralg W) ones (g_lhs e) = ev (Ralg W) ones (g_rhs e) -> (0 < ev (Ralg W) ones (g_lhs e))%R -> defined W ones (g_lhs e) -> defined W ones (g_rhs e) ->
  forall obj c, defined W ones (g_rhs obj) -> defined W ones c -> production_point W zero0 obj e c ones.
Proof.
  intros H1 H2 H3 H4 obj c H5 H6. constructor; auto using zero0_sound.
  intro k. repeat split; (eapply defined_ext; [|eassumption]; intros s _; symmetry; apply later_ones).
Qed.
Ltac real := cbn -[exp ln Rplus Rmult Ropp IZR Rinv]; unfold wfn, dlog, wdom; cbn -[exp ln Rplus Rmult Ropp IZR Rinv];
  repeat (rewrite ?ln_1, ?Rmult_0_r, ?Rmult_0_l, ?exp_0, ?Rmult_1_l, ?Rmult_1_r, ?Rplus_0_r, ?Rplus_0_l).

Example C18_cobb_douglas_firm : production_point W zero0 firm_obj cd_con (Cst 1) ones.
Proof. apply ones_point; real; try lra; repeat split; lra. Qed.
Example C18_ces_firm : production_point W zero0 firm_obj ces_con (Cst 1) ones.
Proof. apply ones_point; real; try lra; replace (/ 2 + / 2)%R with 1%R by lra; real; repeat split; lra. Qed.

Ltac occurs1 := let s := fresh in intros s Hs; cbn in Hs; destruct Hs as [<-|[<-|[]]]; (split; [vm_compute; lia|]);
  let E := fresh in intros n t t' E Hin; injection E as <- <-; vm_compute in Hin; repeat (destruct Hin as [Hin|Hin]; [try discriminate; congruence|]); contradiction.
(* The closed forms are really used, and the theorem applies. *)
Example C18_firms : forall e, In e [cd_con; ces_con] ->
  optimisation_block (firm_of [] firm_obj e) firm_obj (Cst 1) (str "F") /\
  (forall x, In x (ab_controls (firm_of [] firm_obj e)) -> written_once e x) /\
  (forall n t, In (SDate n t) (ab_controls (firm_of [] firm_obj e)) -> ~ In (SDate n 0) (assigned (str "F") 1 [e])) /\
  exists b1 b2, solved (firm_of [] firm_obj e) b1 b2 /\ k_sys b1 <> k_sys b2.
Proof.
  intros e He. assert (Hn : no_ss (g_lhs e) /\ no_ss (g_rhs e)).
  { destruct He as [<-|[<-|[]]]; split; intros b Hb; cbn in Hb; repeat (destruct Hb as [Hb|Hb]; [discriminate|]); destruct Hb. }
  split; [apply static_firm; [destruct He as [<-|[<-|[]]]; reflexivity|apply Hn|apply Hn]|].
  destruct He as [<-|[<-|[]]]; (split; [occurs1|split; [intros n t Hx; cbn in Hx; destruct Hx as [Hx|[Hx|[]]]; injection Hx as <- _; intros [K|[]]; discriminate K|]]).
  all: eexists _, _; (split; [eexists; split; [vm_compute; reflexivity|split; vm_compute; reflexivity]|cbn; discriminate]).
Qed.

(* ---- what fails outside the hypotheses ---- *)
(* "production = output": the multiplier term gets the wrong sign. *)
Definition cd_swapped : geq := eq_ mono (x_ "Y" 0) (Some "mc"%string).
Theorem C18_output_on_the_right_refuted :
  ~ (forall a obj e c short b1 b2 Y, optimisation_block a obj c short -> ab_defs a = [] -> ab_cons a = [e] -> g_rhs e = Sy Y ->
       (forall x, In x (ab_controls a) -> written_once e x) -> solved a b1 b2 -> same_everywhere W zero0 obj e c b1 b2).
Proof.
  intro H. destruct (to_block id_ord id_ord (firm_of [] firm_obj cd_swapped)) as [b|] eqn:E; [|vm_compute in E; discriminate].
  destruct (solve_optimization id_ord id_ord (fun l => l) b) as [b1|] eqn:E1. 2:{ vm_compute in E. injection E as <-. vm_compute in E1. discriminate. }
  destruct (solve_dispatched id_ord id_ord (fun l => l) zero0 b) as [b2|] eqn:E2. 2:{ vm_compute in E. injection E as <-. vm_compute in E2. discriminate. }
  specialize (H (firm_of [] firm_obj cd_swapped) firm_obj cd_swapped (Cst 1) (str "F") b1 b2 (SDate (str "Y") 0)).
  assert (P : production_point W zero0 firm_obj cd_swapped (Cst 1) ones) by (apply ones_point; real; try lra; repeat split; lra).
  assert (H' : same_everywhere W zero0 firm_obj cd_swapped (Cst 1) b1 b2).
  { apply H; try reflexivity.
    - apply static_firm; [reflexivity| |]; intros b0 Hb; cbn in Hb; repeat (destruct Hb as [Hb|Hb]; [discriminate|]); destruct Hb.
    - occurs1.
    - exists b. auto. }
  clear H. vm_compute in E. injection E as <-. vm_compute in E1. injection E1 as <-. vm_compute in E2. injection E2 as <-.
  unfold same_everywhere in H'. cbn [k_sys] in H'. inversion H' as [|? ? ? ? _ T1]; subst. inversion T1 as [|? ? ? ? _ T2]; subst. inversion T2 as [|? ? ? ? K _]; subst.
  specialize (K ones P). clear -K. revert K. real. lra.
Qed.
Print Assumptions C18_output_on_the_right_refuted.

(* Definitions in the block: the closed form differentiates the objective without expanding them; and without a name for
   the multiplier it looks the multiplier up under the wrong number and fails. *)
Definition def_obj : geq := GEq (x_ "TC" 0) (x_ "cost" 0) false true false None None.
Definition cost_def : geq := eq_ (x_ "cost" 0) (Ad (Mu (x_ "r" 0) (x_ "K" 0)) (Mu (x_ "w" 0) (x_ "L" 0))) None.
Theorem C18_objective_with_definitions_refuted :
  ~ (forall a obj e c b1 b2 Y, ab_obj a = [obj] -> ab_cons a = [e] -> g_lhs e = Sy Y -> discounted_by obj c ->
       (forall x, In x (ab_controls a) -> written_once e x) -> solved a b1 b2 -> same_everywhere W zero0 obj e c b1 b2).
Proof.
  intro H. destruct (to_block id_ord id_ord (firm_of [cost_def] def_obj cd_con)) as [b|] eqn:E; [|vm_compute in E; discriminate].
  destruct (solve_optimization id_ord id_ord (fun l => l) b) as [b1|] eqn:E1. 2:{ vm_compute in E. injection E as <-. vm_compute in E1. discriminate. }
  destruct (solve_dispatched id_ord id_ord (fun l => l) zero0 b) as [b2|] eqn:E2. 2:{ vm_compute in E. injection E as <-. vm_compute in E2. discriminate. }
  specialize (H (firm_of [cost_def] def_obj cd_con) def_obj cd_con (Cst 1) b1 b2 (SDate (str "Y") 0)).
  assert (P : production_point W zero0 def_obj cd_con (Cst 1) ones) by (apply ones_point; real; try lra; repeat split; lra).
  assert (H' : same_everywhere W zero0 def_obj cd_con (Cst 1) b1 b2).
  { apply H; try reflexivity.
    - apply static_objective. intros s Hs. cbn in Hs. repeat (destruct Hs as [<-|Hs]; [split; [discriminate|intros b0 t E0; injection E0 as _ <-; auto]|]). destruct Hs.
    - occurs1.
    - exists b. auto. }
  clear H. vm_compute in E. injection E as <-. vm_compute in E1. injection E1 as <-. vm_compute in E2. injection E2 as <-.
  unfold same_everywhere in H'. cbn [k_sys] in H'. inversion H' as [|? ? ? ? _ T1]; subst. inversion T1 as [|? ? ? ? _ T2]; subst. inversion T2 as [|? ? ? ? K _]; subst.
  specialize (K ones P). clear -K. revert K. real. lra.
Qed.
Print Assumptions C18_objective_with_definitions_refuted.

Definition cd_unnamed : geq := eq_ (x_ "Y" 0) mono None.
Theorem C18_unnamed_multiplier_with_definitions_refuted :
  ~ (forall a b b1, to_block id_ord id_ord a = Ok b -> solve_optimization id_ord id_ord (fun l => l) b = Ok b1 ->
       exists b2, solve_dispatched id_ord id_ord (fun l => l) zero0 b = Ok b2).
Proof.
  intro H. destruct (to_block id_ord id_ord (firm_of [cost_def] def_obj cd_unnamed)) as [b|] eqn:E; [|vm_compute in E; discriminate].
  destruct (solve_optimization id_ord id_ord (fun l => l) b) as [b1|] eqn:E1. 2:{ vm_compute in E. injection E as <-. vm_compute in E1. discriminate. }
  destruct (H _ _ _ E E1) as (b2 & E2). vm_compute in E. injection E as <-. vm_compute in E2. discriminate.
Qed.
Print Assumptions C18_unnamed_multiplier_with_definitions_refuted.

(* An input that is a control at one date and an input again at another date: the discounted effect is lost. *)
Definition dyn_obj : geq := eq_ (x_ "V" 0) (Ad (Ng (Mu (x_ "r" 0) (x_ "K" 0))) (Mu (p_ "beta") (x_ "V" 1))) None.
Definition two_dates : geq := eq_ (x_ "Y" 0) (Mu (pw (x_ "K" 0) (p_ "alpha")) (pw (x_ "K" (-1)) (p_ "gamma"))) (Some "mc"%string).
Definition dyn_firm : ablock := ABlock (str "FIRM") (ctl ["K"]%string) [] [] [dyn_obj] [two_dates] [] [].
Theorem C18_input_at_two_dates_refuted :
  ~ (forall a obj e c b1 b2 Y, ab_obj a = [obj] -> ab_defs a = [] -> ab_cons a = [e] -> g_lhs e = Sy Y -> discounted_by obj c ->
       solved a b1 b2 -> same_everywhere W zero0 obj e c b1 b2).
Proof.
  intro H. destruct (to_block id_ord id_ord dyn_firm) as [b|] eqn:E; [|vm_compute in E; discriminate].
  destruct (solve_optimization id_ord id_ord (fun l => l) b) as [b1|] eqn:E1. 2:{ vm_compute in E. injection E as <-. vm_compute in E1. discriminate. }
  destruct (solve_dispatched id_ord id_ord (fun l => l) zero0 b) as [b2|] eqn:E2. 2:{ vm_compute in E. injection E as <-. vm_compute in E2. discriminate. }
  specialize (H dyn_firm dyn_obj two_dates (p_ "beta") b1 b2 (SDate (str "Y") 0)).
  assert (P : production_point W zero0 dyn_obj two_dates (p_ "beta") ones) by (apply ones_point; real; try lra; repeat split; lra).
  assert (H' : same_everywhere W zero0 dyn_obj two_dates (p_ "beta") b1 b2).
  { apply H; try reflexivity.
    - apply (bellman_objective dyn_obj (str "V") 0%Z (Ng (Mu (x_ "r" 0) (x_ "K" 0))) (p_ "beta")); try reflexivity.
      + cbn. intros [K|[K|[]]]; discriminate.
      + intros s [<-|[]]. eexists. reflexivity.
    - exists b. auto. }
  clear H. vm_compute in E. injection E as <-. vm_compute in E1. injection E1 as <-. vm_compute in E2. injection E2 as <-.
  unfold same_everywhere in H'. cbn [k_sys] in H'. inversion H' as [|? ? ? ? _ T1]; subst. inversion T1 as [|? ? ? ? _ T2]; subst. inversion T2 as [|? ? ? ? K _]; subst.
  specialize (K ones P). clear -K. revert K. real. lra.
Qed.
Print Assumptions C18_input_at_two_dates_refuted.
