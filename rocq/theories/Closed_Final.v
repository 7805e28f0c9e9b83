From Verif Require Import Common Sym_Model Sym_Spec Sym_Proofs Sym_Diff Sym_Flatten SymDict_Model
  Block_Model Block_Spec Block_Proofs Block_Lagr Block_Foc Block_Solve Block_Final Closed_Model Closed_Spec Closed_Proofs Closed_Forms.
From Coq Require Import Permutation Reals Lra.
Local Open Scope list_scope.

Section R.
Variable G : smooth.
Hypothesis HG : power_world G.
Notation evr := (ev (Ralg G)).
Local Open Scope R_scope.
Variable zero : sx -> bool.
Variables (obj e : geq) (c : sx) (env : sym -> R).
Hypothesis HP : production_point G zero obj e c env.
Variables (Y0 : sym).
Hypothesis HY0 : g_lhs e = Sy Y0.
Variable x : sym.
Hypothesis Hone : written_once e x.
Definition e' : eqn := Eqn (g_lhs e) (g_rhs e).

Lemma defined_now : defined G env (g_rhs e).
Proof. apply (defined_ext G (later 0 env)); [intros; apply later_0|]. apply (pp_def _ _ _ _ _ _ HP 0%Z). Qed.

(* what the first residual says *)
Lemma first_residual Y prod : split_residual (signed true (g_rhs e) ++ signed false (g_lhs e)) = Some (Y, prod) ->
  evr env prod = env Y /\ evr env (diff x prod) - evr env (diff x (Sy Y)) = evr env (diff x (g_rhs e)) - evr env (diff x (g_lhs e)) /\
  (occ x prod <= 1)%nat /\ defined G env prod.
Proof.
  intro H.
  assert (V1 := split_value (evr env) _ _ _ (fun a => evNg G env a) H).
  assert (V2 := split_value (fun u => evr env (diff x u)) _ _ _ (fun a => evNg G env (diff x a)) H).
  rewrite ssum_app, !(signed_ev G) in V1. rewrite ssum_app, !(signed_diff G) in V2. rewrite evSy in V1.
  pose proof (pp_holds _ _ _ _ _ _ HP) as Hh.
  assert (L2 : list_sum (map (fun bt : bool * sx => occ x (snd bt)) (signed true (g_rhs e) ++ signed false (g_lhs e))) = (occ x (g_rhs e) + occ x (g_lhs e))%nat).
  { rewrite map_app, list_sum_app. assert (K : forall l : list (bool * sx), list_sum (map (fun bt => occ x (snd bt)) l) = occs x (map snd l)).
    { induction l as [|u l IH]; [reflexivity|]. cbn [map list_sum fold_right occs]. fold (list_sum (map (fun bt : bool * sx => occ x (snd bt)) l)). rewrite IH. reflexivity. }
    rewrite !K, !signed_occ. reflexivity. }
  assert (Ho : (occ x (g_rhs e) + occ x (g_lhs e) <= 1)%nat).
  { destruct Hone as [K _]. rewrite count_occ_app in K. unfold occ. lia. }
  split; [lra|]. split; [lra|].
  pose proof H as H'. apply split_shape in H' as (s & t & Hl & Hp).
  assert (Ot : (occ x prod = occ x t)%nat) by (rewrite Hp; destruct s; reflexivity).
  assert (It : In (s, t) (signed true (g_rhs e) ++ signed false (g_lhs e))) by (destruct Hl as [-> | ->]; cbn; auto).
  split.
  - rewrite Ot. destruct Hl as [El|El]; rewrite El in L2; unfold list_sum in L2; cbn [map fold_right snd] in L2; lia.
  - assert (Dt : defined G env t).
    { apply in_app_or in It as [It|It]; [exact (signed_defined G env _ defined_now true _ It)|].
      refine (signed_defined G env (g_lhs e) _ false _ It). rewrite HY0. exact I. }
    rewrite Hp. destruct s; exact Dt.
Qed.
Lemma no_second_cd : match_cd_residual (signed true (g_lhs e) ++ signed false (g_rhs e)) = None.
Proof.
  rewrite HY0. unfold match_cd_residual. destruct (split_residual _) as [[Y prod]|] eqn:E; [|reflexivity].
  apply split_shape in E as (s & t & [E|E] & ->); cbn in E; [discriminate|]. injection E as <- <- _. reflexivity.
Qed.
Lemma no_second_ces : match_ces_residual zero (signed true (g_lhs e) ++ signed false (g_rhs e)) = None.
Proof.
  rewrite HY0. unfold match_ces_residual. destruct (split_residual _) as [[Y prod]|] eqn:E; [|reflexivity].
  apply split_shape in E as (s & t & [E|E] & ->); cbn in E; [discriminate|]. injection E as <- <- _. reflexivity.
Qed.
Lemma diff_other y : x <> y -> evr env (diff x (Sy y)) = 0.
Proof. intro H. apply diff_free. cbn. intros [->|[]]. congruence. Qed.
Lemma output_pos Y prod : split_residual (signed true (g_rhs e) ++ signed false (g_lhs e)) = Some (Y, prod) -> Y = Y0 \/ exists z, prod = Ng (Sy z).
Proof.
  rewrite HY0. intro H. apply split_shape in H as (s & t & Hl & Hp). cbn in Hl. destruct Hl as [Hl|Hl].
  - destruct (signed true (g_rhs e)) as [|u [|v l]] eqn:E; cbn in Hl; try discriminate.
    + assert (s = false /\ t = Sy Y0) as [-> ->] by (split; congruence). right. exists Y0. exact Hp.
    + exfalso. injection Hl as _ _ Hl. destruct l; discriminate.
  - left. destruct (signed true (g_rhs e)) as [|u [|v l]] eqn:E; cbn in Hl; try discriminate; [congruence|].
    injection Hl as _ _ Hl. destruct l; discriminate.
Qed.

(* the marginal products *)
Lemma cd_value idx m mu t : match_cd (Some [(idx, e')]) = Some (idx, m) -> cd_closed m mu x = Some t ->
  evr env t = env mu * (evr env (diff x (g_rhs e)) - evr env (diff x (g_lhs e))).
Proof.
  unfold match_cd, residuals, e'. cbn [first_some lhs rhs]. rewrite no_second_cd.
  destruct (match_cd_residual _) as [m'|] eqn:E; [|discriminate]. intros H Hc. assert (m' = m) by congruence. subst m'. clear H.
  unfold match_cd_residual in E. destruct (split_residual _) as [[Y prod]|] eqn:Es; [|discriminate].
  destruct (decompose_monomial prod) as [[A ins]|] eqn:Ed; [|discriminate]. destruct (distinct (Y :: olist A ++ map fst ins)) eqn:En; [|discriminate].
  injection E as <-. unfold cd_closed in Hc. cbn [cd_inputs cd_Y] in Hc. destruct (find_input x ins) as [al|] eqn:Ef; [|discriminate]. injection Hc as <-.
  apply distinct_NoDup in En. inversion En as [|? ? Hny Hnd]; subst.
  pose proof (find_input_in x ins al Ef) as Hin. assert (Hxin : In x (map fst ins)) by (apply in_map_iff; exists (x, al); auto).
  destruct (first_residual Y prod Es) as (HYv & Hdv & Ho & Hd).
  assert (HxA : ~ In x (olist A)).
  { destruct A as [s|]; cbn; [|tauto]. intros [->|[]]. cbn in Hnd. inversion Hnd. contradiction. }
  assert (HxY : x <> Y) by (intros ->; apply Hny, in_or_app; now right).
  rewrite diff_other in Hdv by exact HxY.
  pose proof (monomial_separate x prod A ins al Ed Ef Ho) as Hsep.
  pose proof (monomial_diff G HG env x prod A ins al Ed HxA Hsep Hd Ef) as Hm.
  rewrite <- Hdv, Rminus_0_r, Hm, HYv.
  assert (Hx : 0 < env x).
  { unfold decompose_monomial in Ed. destruct (fold_left monomial_step (factors prod) (Some (None, []))) as [[A' ins']|] eqn:Efo; [|discriminate].
    assert (ins' = ins) by (destruct ins'; [discriminate|]; destruct (distinct _); [injection Ed as <- <-; reflexivity|discriminate]). subst ins'.
    destruct (monomial_shape _ _ _ _ _ Efo _ _ Hin) as [[]|K]. pose proof (factors_defined G env prod _ Hd K) as Dp.
    destruct (pw_defined G HG env _ _ Dp) as (_ & _ & P). exact P. }
  rewrite !evMu, !evSy, (pw_ev G HG) by exact Hx. rewrite evSy. change (evr env (Cst (-1))) with (IZR (-1)).
  replace (Rpower (env x) (IZR (-1))) with (/ env x); [ring|]. replace (IZR (-1)) with (- (1)) by lra. rewrite Rpower_Ropp, Rpower_1 by exact Hx. reflexivity.
Qed.
Lemma ces_value idx m mu t : match_ces zero (Some [(idx, e')]) = Some (idx, m) -> ces_closed m mu x = Some t ->
  evr env t = env mu * (evr env (diff x (g_rhs e)) - evr env (diff x (g_lhs e))).
Proof.
  unfold match_ces, residuals, e'. cbn [first_some lhs rhs]. rewrite no_second_ces.
  destruct (match_ces_residual zero _) as [m'|] eqn:E; [|discriminate]. intros H Hc. assert (m' = m) by congruence. subst m'. clear H.
  unfold match_ces_residual in E. destruct (split_residual _) as [[Y prod]|] eqn:Es; [|discriminate].
  destruct (decompose_outer prod) as [[[A inner] o]|] eqn:Ed; [|discriminate].
  destruct (decompose_inner zero inner o) as [[s ins]|] eqn:Ei; [|discriminate].
  destruct (distinct (Y :: olist A ++ map fst ins)) eqn:En; [|discriminate].
  injection E as <-. unfold ces_closed in Hc. cbn [ces_inputs ces_Y ces_A ces_s] in Hc. destruct (find_input x ins) as [sh|] eqn:Ef; [|discriminate]. injection Hc as <-.
  apply distinct_NoDup in En. inversion En as [|? ? Hny Hnd]; subst.
  pose proof (find_input_in x ins sh Ef) as Hin. assert (Hxin : In x (map fst ins)) by (apply in_map_iff; exists (x, sh); auto).
  destruct (first_residual Y prod Es) as (HYv & Hdv & Ho & Hd).
  assert (HxA : ~ In x (olist A)).
  { destruct A as [s0|]; cbn; [|tauto]. intros [->|[]]. cbn in Hnd. inversion Hnd. contradiction. }
  assert (HxY : x <> Y) by (intros ->; apply Hny, in_or_app; now right).
  rewrite diff_other in Hdv by exact HxY.
  assert (YY : Y = Y0). { destruct (output_pos Y prod Es) as [|[z ->]]; [assumption|]. discriminate Ed. }
  assert (HYpos : 0 < env Y). { rewrite YY. pose proof (pp_pos _ _ _ _ _ _ HP) as K. rewrite HY0 in K. exact K. }
  destruct (ces_diff G HG zero env (pp_zero _ _ _ _ _ _ HP) x prod A inner o s ins sh (env Y) Ed Ei Ef HxA Ho Hd HYv HYpos) as (Hm & Hx & HApos).
  rewrite <- Hdv, Rminus_0_r, Hm.
  assert (Hi : evr env (pw (Sy x) (Cst (-1))) = / env x).
  { rewrite (pw_ev G HG) by exact Hx. rewrite evSy. change (evr env (Cst (-1))) with (IZR (-1)). replace (IZR (-1)) with (- (1)) by lra. rewrite Rpower_Ropp, Rpower_1 by exact Hx. reflexivity. }
  assert (HYi : evr env (Mu (Sy Y) (pw (Sy x) (Cst (-1)))) = env Y * / env x) by (rewrite evMu, Hi, evSy; reflexivity).
  rewrite !(evMu G env (Mu _ _)). rewrite (pw_ev G HG env (Mu _ _)).
  2:{ rewrite HYi. apply Rmult_lt_0_compat; [exact HYpos|apply Rinv_0_lt_compat, Hx]. }
  rewrite HYi. unfold minus. rewrite !evMu, evSy, evAd, evNg. change (evr env (Cst 1)) with 1. fold (1 - evr env s).
  destruct A as [a0|].
  - rewrite (pw_ev G HG) by (apply HApos; reflexivity). rewrite evSy. unfold Rminus. ring.
  - change (evr env (Cst 1)) with 1. unfold Rminus. ring.
Qed.
End R.

(* ---------- blocks ---------- *)
Section B.
Variables ord sord : set_order.
Variable aord : list sx -> list sx.
Hypothesis Ho : set_order_ok ord.
Hypothesis Hs : set_order_ok sord.
Hypothesis Ha : forall l, Permutation (aord l) l.

Lemma subs_dict_nil e : subs_dict sord [] e = e.
Proof.
  rewrite (subs_dict_simul sord Hs [] e); [|constructor|intros; contradiction].
  rewrite <- (smap_id e) at 2. apply smap_ext. reflexivity.
Qed.
Lemma solve_with_swap foc1 foc2 b b1 (R : sx -> sx -> Prop) : solve_with ord sord aord foc1 b = Ok b1 ->
  (forall x, R x x) ->
  (forall controls L mu df obji obj rest b', k_mult b' = mu -> k_obj b' = k_obj b -> k_flags b' = k_flags b -> k_controls b = Some controls -> k_obj b = Some ((obji, obj) :: rest) -> build_lagrangian ord sord b = Ok (L, mu) -> discount_factor aord obj = Ok df ->
     forall c f, In c controls ->
     foc1 b' c L df = Ok f -> exists g, foc2 b' c L df = Ok g /\ R f g) ->
  exists b2, solve_with ord sord aord foc2 b = Ok b2 /\ Forall2 R (k_sys b1) (k_sys b2).
Proof.
  intros H Hr Hfg. unfold solve_with in *. destruct (def_dict _) as [sd|]; cbn [bind] in *; [|discriminate].
  destruct (keep _ _) as [kept|]; cbn [bind] in *; [|discriminate].
  assert (Rl : forall l, Forall2 R l l) by (induction l; constructor; auto).
  destruct (k_controls b) as [controls|] eqn:Ec; destruct (k_obj b) as [[|[obji obj] rest]|] eqn:Eo; try discriminate.
  - destruct (discount_factor aord obj) as [df|] eqn:Ed; cbn [bind] in *; [|discriminate].
    destruct (build_lagrangian ord sord b) as [[L mu]|] eqn:El; cbn [bind] in *; [|discriminate].
    destruct (nth_error _ _) as [[|]|]; try discriminate.
    match type of H with bind (all_focs ?f1 _) _ = _ => set (F1 := f1) in * end.
    match goal with |- context [all_focs ?f2 controls] => set (F2 := f2) end.
    assert (K : forall cs, (forall c0, In c0 cs -> In c0 controls) -> forall fs, all_focs F1 cs = Ok fs -> exists gs, all_focs F2 cs = Ok gs /\ Forall2 R fs gs).
    { induction cs as [|c0 cs IH]; intros Hin fs Hfs; cbn [all_focs] in *.
      - injection Hfs as <-. exists []. split; [reflexivity|constructor].
      - destruct (F1 c0) as [f|] eqn:E1; cbn [bind] in *; [|discriminate]. destruct (all_focs F1 cs) as [fs'|] eqn:E2; cbn [bind] in *; [|discriminate].
        injection Hfs as <-. destruct (IH (fun c1 H1 => Hin c1 (or_intror H1)) fs' eq_refl) as (gs & Hgs & Hrel).
        unfold F1 in E1. match type of E1 with foc1 ?bb _ _ _ = _ => set (b' := bb) in * end.
        destruct (Hfg controls L mu df obji obj rest b' eq_refl) with (c := c0) (f := f) as (g & Hg & Hrg); try assumption; try reflexivity; [apply Hin; now left|].
        exists (g :: gs). split; [|constructor; assumption]. change (F2 c0 = Ok g) in Hg. rewrite Hg. cbn [bind]. rewrite Hgs. reflexivity. }
    destruct (all_focs F1 controls) as [fs|] eqn:Ef; cbn [bind] in *; [|discriminate]. injection H as <-.
    destruct (K controls (fun _ h => h) fs Ef) as (gs & Hgs & Hrel). eexists. rewrite Hgs. cbn [bind]. split; [reflexivity|]. cbn [k_sys].
    apply Forall2_app; [apply Rl|]. constructor; [apply Hr|exact Hrel].
  - injection H as <-. eexists. split; [reflexivity|]. apply Rl.
Qed.

Theorem closed_forms_agree zero G a obj e c short b Y :
  power_world G ->
  optimisation_block a obj c short -> ab_defs a = [] -> ab_cons a = [e] -> g_lhs e = Sy Y ->
  (forall x, In x (ab_controls a) -> written_once e x) ->
  (forall n t, In (SDate n t) (ab_controls a) -> ~ In (SDate n 0) (assigned short 1 [e])) ->
  to_block ord sord a = Ok b ->
  exists b1 b2, solve_optimization ord sord aord b = Ok b1 /\ solve_dispatched ord sord aord zero b = Ok b2 /\
    Forall2 (fun x y => forall env, production_point G zero obj e c env -> ev (Ralg G) env x = ev (Ralg G) env y) (k_sys b1) (k_sys b2).
Proof.
  intros HG Hob Hd0 Hc1 HY Hw Hmn Hb.
  destruct (block_system ord sord aord Ho Hs Ha a obj c short b Hob Hb) as (b1 & eqs & focs & Hb1 & _).
  exists b1. 
  set (Rel := fun x y : sx => forall env, production_point G zero obj e c env -> ev (Ralg G) env x = ev (Ralg G) env y).
  assert (Hrefl : forall x, Rel x x) by (intros x env _; reflexivity).
  destruct Hob as [Osh Odef Oobj Olm Odisc Ocons Octl Onear Onoss Omult].
  pose proof Hb as Hb0. apply to_block_inv in Hb0 as (short' & d' & Esh & Hval & Hcon & Eb). rewrite Osh in Esh. injection Esh as <-.
  destruct (validate_facts a short Hval) as (Hcal & _).
  assert (Cobj : g_cal obj = None). { apply Hcal. rewrite Oobj. apply in_or_app; right. apply in_or_app; left. now left. }
  assert (Ce : g_cal e = None). { apply Hcal. rewrite Hc1. apply in_or_app; right. apply in_or_app; right. apply in_or_app; left. now left. }
  assert (Ed' : d' = None). { unfold raw_block in Hcon. cbn [k_defs] in Hcon. rewrite Hd0 in Hcon. cbn in Hcon. congruence. }
  assert (Eobj : k_obj b = Some [(0%nat, Eqn (g_lhs obj) (g_rhs obj))]).
  { rewrite Eb. cbn [k_obj raw_block]. rewrite Hd0, Oobj. cbn. unfold equation_to_sympy. rewrite Cobj. reflexivity. }
  assert (Econs : k_cons b = Some [(1%nat, e' e)]).
  { rewrite Eb. cbn [k_cons raw_block]. rewrite Hd0, Oobj, Hc1. cbn. unfold equation_to_sympy, e'. rewrite Ce. reflexivity. }
  assert (Edefs : k_defs b = None) by (rewrite Eb; exact Ed').
  assert (Eflag : nget 0 (k_flags b) = Some (extract_flags obj)).
  { rewrite Eb. cbn [k_flags raw_block]. unfold entries. rewrite Hd0, Oobj, Hc1. reflexivity. }
  assert (Em1 : nget 1 (k_mult b) = Some (extract_multiplier e)).
  { rewrite Eb. cbn [k_mult raw_block]. unfold entries. rewrite Hd0, Oobj, Hc1. reflexivity. }
  assert (Esh : k_short b = short) by (rewrite Eb; reflexivity).
  assert (Ectl : k_controls b = opt_list (ab_controls a)) by (rewrite Eb; reflexivity).
  (* the Lagrangian *)
  set (om := if g_min obj then Ng (g_rhs obj) else g_rhs obj).
  assert (HL : exists mn mt mu', assigned short 1 [e] = [SDate mn mt] /\ mt = 0%Z /\ nget 1 mu' = Some (Some (SDate mn mt)) /\
    build_lagrangian ord sord b = Ok (Ad om (Ng (Mu (Sy (SDate mn mt)) (Ad (g_lhs e) (Ng (g_rhs e))))), mu')).
  { unfold build_lagrangian. rewrite Eobj, Econs, Edefs, Esh. cbn [tab expand_defs bind]. rewrite Eflag. cbn [lag_loop]. unfold e'. cbn [lhs rhs fl_min extract_flags].
    rewrite Em1, !subs_dict_nil. unfold extract_multiplier. cbn [assigned]. fold om.
    destruct (g_lm e) as [n|] eqn:El.
    - exists n, 0%Z, (k_mult b). repeat split. rewrite Em1. unfold extract_multiplier. rewrite El. reflexivity.
    - eexists _, 0%Z, _. split; [reflexivity|]. split; [reflexivity|]. split; [|reflexivity]. rewrite nget_nset. reflexivity. }
  destruct HL as (mn & mt & mu' & Eas & -> & Emu & EL).
  destruct (discount_spec aord Ha obj c Odisc Cobj) as (df & Edf & Hdfp & Hdfv & Hdfd).
  unfold equation_to_sympy in Edf. rewrite Cobj in Edf.
  assert (Noss : no_ss om /\ no_ss (g_lhs e) /\ no_ss (g_rhs e)).
  { destruct Onoss as [N1 N2]. destruct (N2 e) as [N3 N4]; [rewrite Hc1; now left|]. repeat split; auto. unfold om. destruct (g_min obj); [|exact N1]. intros b0 Hb0'. exact (N1 b0 Hb0'). }
  (* one control *)
  assert (Key : forall closed, (forall mu x t env, closed mu x = Some t -> written_once e x -> production_point G zero obj e c env ->
        ev (Ralg G) env t = (env mu * (ev (Ralg G) env (diff x (g_rhs e)) - ev (Ralg G) env (diff x (g_lhs e))))%R) ->
     forall x f b', In x (ab_controls a) -> k_mult b' = mu' -> k_obj b' = k_obj b -> k_flags b' = k_flags b ->
     foc_of ord (Ad om (Ng (Mu (Sy (SDate mn 0)) (Ad (g_lhs e) (Ng (g_rhs e)))))) df x = Ok f ->
     exists g, closed_foc ord 1 closed b' x (Ad om (Ng (Mu (Sy (SDate mn 0)) (Ad (g_lhs e) (Ng (g_rhs e)))))) df = Ok g /\ Rel f g).
  { intros closed Hcl x f b' Hx B1 B2 B3 Hf. destruct (Octl x Hx) as (n & t & ->).
    unfold closed_foc. rewrite B1, B2, B3, Emu, Eobj. cbn [tab]. rewrite Eflag. cbn [fl_min extract_flags rhs]. fold om.
    destruct (dtt_correct ord Ho G om df n t (proj1 Noss) Hdfp) as (g & n2 & Eg & _). cbn [foc_of] in *. rewrite Eg. cbn [bind].
    destruct (closed (SDate mn 0) (SDate n t)) as [tm|] eqn:Ecl.
    - eexists. split; [reflexivity|]. intros env HP.
      rewrite evAd, (Hcl _ _ _ env Ecl (Hw _ Hx) HP).
      rewrite (closed_core G ord Ho om (g_lhs e) (g_rhs e) df n t mn 0 f g env); try tauto.
      + ring.
      + intros ->. apply (Hmn n t Hx). rewrite Eas. now left.
      + intros t' Ht'. exact (proj2 (Hw _ Hx) n t t' eq_refl Ht').
      + apply Hdfd, (pp_c _ _ _ _ _ _ HP).
      + intro k. destruct (pp_def _ _ _ _ _ _ HP k) as (D1 & D2 & D3). repeat split; auto. unfold om. destruct (g_min obj); exact D1.
    - exists f. split; [exact Hf|]. intros env _. reflexivity. }
  assert (Fin : forall closed, (forall mu x t env, closed mu x = Some t -> written_once e x -> production_point G zero obj e c env ->
        ev (Ralg G) env t = (env mu * (ev (Ralg G) env (diff x (g_rhs e)) - ev (Ralg G) env (diff x (g_lhs e))))%R) ->
     exists b2, solve_with ord sord aord (closed_foc ord 1 closed) b = Ok b2 /\ Forall2 Rel (k_sys b1) (k_sys b2)).
  { intros closed Hcl. apply (solve_with_swap (fun _ c0 L df0 => foc_of ord L df0 c0) _ b b1 Rel Hb1 Hrefl).
    intros controls L mu df0 obji obj0 rest b' B1 B2 B3 E1 E2 E3 E4 x f Hx Hf.
    rewrite Eobj in E2. injection E2 as <- <- <-. rewrite EL in E3. injection E3 as <- <-. assert (df0 = df) by congruence. subst df0.
    apply (Key closed Hcl x f b'); [|congruence|assumption|assumption|exact Hf].
    rewrite Ectl in E1. unfold opt_list in E1. destruct (ab_controls a); [discriminate|]. congruence. }
  unfold solve_dispatched. rewrite Eobj, Econs.
  destruct (match_ces zero (Some [(1%nat, e' e)])) as [[idx m]|] eqn:E1.
  - assert (idx = 1%nat) by (unfold match_ces in E1; destruct (first_some _ _); congruence). subst idx.
    destruct (Fin (ces_closed m)) as (b2 & Hb2 & Hr).
    { intros mu x t env Hcl Hwo HP. exact (ces_value G HG zero obj e c env HP Y HY x Hwo 1 m mu t E1 Hcl). }
    exists b2. auto.
  - destruct (match_cd (Some [(1%nat, e' e)])) as [[idx m]|] eqn:E2.
    + assert (idx = 1%nat) by (unfold match_cd in E2; destruct (first_some _ _); congruence). subst idx.
      destruct (Fin (cd_closed m)) as (b2 & Hb2 & Hr).
      { intros mu x t env Hcl Hwo HP. exact (cd_value G HG zero obj e c env HP Y HY x Hwo 1 m mu t E2 Hcl). }
      exists b2. auto.
    + exists b1. split; [exact Hb1|]. split; [exact Hb1|]. clear. induction (k_sys b1); constructor; auto. intros env _. reflexivity.
Qed.
End B.
