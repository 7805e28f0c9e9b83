(* Properties C15-C17 and C47-C50: from a parsed block to its system of equations. *)
From Verif Require Import Common Sym_Model Sym_Spec Sym_Proofs Sym_Diff Sym_Flatten Sym_More SymDict_Model SymDict_More
  Block_Model Block_Spec Block_Proofs Block_Lagr Block_Foc Block_Solve Block_Params Block_Final.
From Coq Require Import Permutation Reals Lra.
Local Open Scope list_scope.

(* C15 *)
Theorem C15_equation_numbers :
  forall ord sord a b, to_block ord sord a = Ok b ->
  let nd := length (ab_defs a) in let no := length (ab_obj a) in let nc := length (ab_cons a) in let ni := length (ab_ids a) in
  map fst (tab (k_defs b)) = seq 0 nd /\
  tab (k_obj b) = numbered nd (map equation_to_sympy (ab_obj a)) /\
  tab (k_cons b) = numbered (nd + no) (map equation_to_sympy (ab_cons a)) /\
  tab (k_ids b) = numbered (nd + no + nc) (map equation_to_sympy (ab_ids a)) /\
  tab (k_cal b) = numbered (nd + no + nc + ni) (map (fun efm => fst (fst efm)) (flat_map calib_entry (ab_calib a))) /\
  k_flags b = numbered 0 (map (fun efm => snd (fst efm)) (entries a)) /\
  k_mult b = numbered 0 (map snd (entries a)).
Proof. exact (fun ord sord a b H => numbering ord sord a b H). Qed.
Print Assumptions C15_equation_numbers.

(* C16 *)
Theorem C16_each_constraint_its_own_multiplier :
  forall short cs, NoDup (user_names cs) -> (forall n, In n (user_names cs) -> ~ starts_with (str "lambda__") n) ->
    length (assigned short 1 cs) = length cs /\ NoDup (assigned short 1 cs) /\
    (forall i e n, nth_error cs i = Some e -> g_lm e = Some n -> nth_error (assigned short 1 cs) i = Some (SDate n 0)).
Proof. exact (fun short cs H1 H2 => conj (assigned_length short cs 1) (conj (assigned_nodup short cs 1 H1 H2) (fun i e n => assigned_named short cs 1 i e n))). Qed.
Print Assumptions C16_each_constraint_its_own_multiplier.

Theorem C16_all_multipliers_are_variables :
  forall ord sord aord, set_order_ok ord -> set_order_ok sord -> (forall l, Permutation (aord l) l) ->
  forall a obj c short b, optimisation_block a obj c short -> to_block ord sord a = Ok b ->
    (forall m, In m (assigned short 1 (ab_cons a)) -> ~ In m (ab_shocks a)) ->
  exists b' vars0 vars1, solve_optimization ord sord aord b = Ok b' /\
    variable_list ord sord b [] = Ok vars0 /\ variable_list ord sord b' vars0 = Ok vars1 /\
    forall m, In m (assigned short 1 (ab_cons a)) -> In m vars1.
Proof. exact multipliers_are_variables. Qed.
Print Assumptions C16_all_multipliers_are_variables.

(* C17. [ord] and [sord] are the iteration orders of Python sets and of SymPy's subs, [aord] the argument order of sums. *)
Theorem C17_first_order_conditions :
  forall ord sord aord, set_order_ok ord -> set_order_ok sord -> (forall l, Permutation (aord l) l) ->
  forall a obj c short b, optimisation_block a obj c short -> to_block ord sord a = Ok b ->
  exists b' eqs focs, solve_optimization ord sord aord b = Ok b' /\ k_sys b' = eqs ++ focs /\
    Forall2 (fun x e => forall G env, follows_definitions a env env (Ralg G) ->
               ev (Ralg G) env x = (ev (Ralg G) env (g_rhs e) - ev (Ralg G) env (g_lhs e))%R)
      eqs (ab_ids a ++ filter (fun e => negb (g_exclude e)) (ab_cons a) ++ [obj]) /\
    (forall x e n t, In x eqs -> In e (ab_defs a) -> g_lhs e = Sy (SDate n t) -> ~ In (SDate n t) (atoms x)) /\
    Forall2 (fun f x =>
       forall G, exists horizon, forall (env : sym -> R) (full : R -> sym -> R) H eps, (horizon <= H)%nat -> (0 < eps)%R -> defined G env c ->
         (forall y, (Rabs (y - env x) < eps)%R -> follows_definitions a (with_value env x y) (full y) (Ralg G)) ->
         (forall k e, In e (ab_defs a) -> defined G (later k (full (env x))) (g_rhs e)) ->
         (forall k, defined G (later k (full (env x))) (g_rhs obj)) ->
         (forall k e, In e (ab_cons a) -> defined G (later k (full (env x))) (g_lhs e) /\ defined G (later k (full (env x))) (g_rhs e)) ->
         derivable_pt_lim
           (fun y => sum_f_R0 (fun k => (ev (Ralg G) env c) ^ k *
                       lagrangian (Ralg G) a obj (assigned short 1 (ab_cons a)) (later (Z.of_nat k) (full y)))%R H)
           (env x) (ev (Ralg G) env f))
      focs (ab_controls a).
Proof. exact (fun ord sord aord Ho Hs Ha a obj c short b => block_system ord sord aord Ho Hs Ha a obj c short b). Qed.
Print Assumptions C17_first_order_conditions.

(* A household with a definition, a named and an unnamed multiplier. *)
Definition x_ (n : string) (t : Z) : sx := Sy (SDate (str n) t).
Definition p_ (n : string) : sx := Sy (SPar (str n)).
Definition eq_ (l r : sx) (lm : option string) : geq := GEq l r false false false (option_map str lm) None.
Definition ctl (l : list string) : list sym := map (fun n => SDate (str n) 0) l.
Definition hh_obj : geq := eq_ (x_ "U" 0) (Ad (x_ "u" 0) (Mu (p_ "beta") (x_ "U" 1))) None.
Definition hh_cons : list geq :=
  [eq_ (Ad (x_ "C" 0) (x_ "K" 0)) (Ad (x_ "Y" 0) (Mu (p_ "d") (x_ "K" (-1)))) (Some "mu"%string);
   eq_ (x_ "Y" 0) (Mu (p_ "A") (x_ "K" (-1))) None].
Definition household : ablock :=
  ABlock (str "HOUSEHOLD") (ctl ["C"; "K"; "Y"]%string) [] [eq_ (x_ "u" 0) (Fn (str "log") 0 (x_ "C" 0)) None] [hh_obj] hh_cons
         [eq_ (x_ "I" 0) (Ad (x_ "K" 0) (Ng (Mu (p_ "d") (x_ "K" (-1))))) None] [].
Example C17_household : optimisation_block household hh_obj (p_ "beta") (str "H") /\
  (exists b, to_block id_ord id_ord household = Ok b) /\
  assigned (str "H") 1 (ab_cons household) = [SDate (str "mu") 0; SDate (str "lambda__H_1") 0] /\
  match bind (to_block id_ord id_ord household) (solve_optimization id_ord id_ord (fun l => l)) with
  | Ok b => length (k_sys b) | Err _ => 0%nat end = 7%nat.
Proof.
  split; [constructor|split; [eexists; vm_compute; reflexivity|split; vm_compute; reflexivity]].
  - reflexivity.
  - split; [|split; [|split]].
    + intros e [<-|[]]. exists (str "u"), 0%Z. repeat split.
    + intros i j e e' b t b' t' H1 H2 Hne. destruct i as [|[|i]]; [|discriminate|discriminate]. destruct j as [|[|j]]; [congruence|discriminate|discriminate].
    + intros e b t [<-|[]] Hin (e' & t' & r & [<-|[]] & Hd & _). exfalso. cbn in Hin, Hd. destruct Hin as [Hin|[]]. injection Hin as E1 _. injection Hd as E2 _. subst b. discriminate E2.
    + intros e [<-|[]] b Hin. cbn in Hin. destruct Hin as [Hin|[]]. discriminate.
  - reflexivity.
  - reflexivity.
  - apply (bellman_objective hh_obj (str "U") 0%Z (x_ "u" 0) (p_ "beta")); try reflexivity.
    + cbn. intros [H|[]]. discriminate.
    + intros s [<-|[]]. eexists. reflexivity.
  - discriminate.
  - intros x [<-|[<-|[<-|[]]]]; eexists; eexists; reflexivity.
  - assert (K : forall x, In x [g_rhs hh_obj; g_lhs (nth 0 hh_cons hh_obj); g_rhs (nth 0 hh_cons hh_obj); g_lhs (nth 1 hh_cons hh_obj); g_rhs (nth 1 hh_cons hh_obj)] -> near_dates household x).
    { intros x Hx b t Hin _. cbn in Hx. repeat (destruct Hx as [<-|Hx]; [cbn in Hin; repeat (destruct Hin as [Hin|Hin]; [try discriminate; injection Hin as _ <-; cbn; auto|]); destruct Hin|]). destruct Hx. }
    split; [apply K; cbn; auto|]. intros e [<-|[<-|[]]]; split; apply K; cbn; auto 8.
  - split; [intros b Hin; cbn in Hin; repeat (destruct Hin as [Hin|Hin]; [discriminate|]); destruct Hin|].
    intros e [<-|[<-|[]]]; split; intros b Hin; cbn in Hin; repeat (destruct Hin as [Hin|Hin]; [discriminate|]); destruct Hin.
  - intros n Hn (e' & t' & r & [<-|[]] & Hd & _). cbn in Hn, Hd. destruct Hn as [Hn|[Hn|[]]]; injection Hn as <-; discriminate Hd.
Qed.

(* What fails outside those hypotheses. *)
Definition user_multiplier_kept : Prop := forall a b b' i e n, to_block id_ord id_ord a = Ok b ->
  solve_optimization id_ord id_ord (fun l => l) b = Ok b' -> nth_error (ab_cons a) i = Some e -> g_lm e = Some n ->
  nget (length (ab_defs a) + length (ab_obj a) + i) (k_mult b') = Some (Some (SDate n 0)).
Definition saver : ablock := ABlock (str "A") (ctl ["C"]%string) [] [] [hh_obj]
  [eq_ (x_ "C" 0) (x_ "Y" 0) (Some "mu"%string); eq_ (x_ "C" 0) (x_ "u" 0) None] [] [].
Theorem C16_user_multiplier_overwritten_refuted : ~ user_multiplier_kept.
Proof.
  intro H. destruct (to_block id_ord id_ord saver) as [b|] eqn:E1; [|vm_compute in E1; discriminate].
  destruct (solve_optimization id_ord id_ord (fun l => l) b) as [b'|] eqn:E2.
  2:{ vm_compute in E1. injection E1 as <-. vm_compute in E2. discriminate. }
  specialize (H saver b b' 0%nat _ (str "mu") E1 E2 eq_refl eq_refl).
  vm_compute in E1. injection E1 as <-. vm_compute in E2. injection E2 as <-. vm_compute in H. discriminate.
Qed.
Print Assumptions C16_user_multiplier_overwritten_refuted.

Theorem C16_solving_twice_refuted :
  ~ (forall a b b', to_block id_ord id_ord a = Ok b -> solve_optimization id_ord id_ord (fun l => l) b = Ok b' ->
       exists b'', solve_optimization id_ord id_ord (fun l => l) b' = Ok b'').
Proof.
  intro H. destruct (to_block id_ord id_ord household) as [b|] eqn:E1; [|vm_compute in E1; discriminate].
  destruct (solve_optimization id_ord id_ord (fun l => l) b) as [b'|] eqn:E2.
  2:{ vm_compute in E1. injection E1 as <-. vm_compute in E2. discriminate. }
  destruct (H household b b' E1 E2) as (b'' & H').
  vm_compute in E1. injection E1 as <-. vm_compute in E2. injection E2 as <-. vm_compute in H'. discriminate.
Qed.
Print Assumptions C16_solving_twice_refuted.

(* C49: two blocks whose names have the same initials *)
Theorem C49_automatic_multipliers_distinct_within_block :
  forall short i j, SDate (lambda_name short i) 0 = SDate (lambda_name short j) 0 -> i = j.
Proof. exact (fun short i j H => lambda_inj short i j (f_equal (fun s => match s with SDate n _ => n | _ => [] end) H)). Qed.
Print Assumptions C49_automatic_multipliers_distinct_within_block.
Theorem C49_automatic_multipliers_across_blocks_refuted :
  ~ (forall n1 n2 s1 s2 i, n1 <> n2 -> short_name n1 = Ok s1 -> short_name n2 = Ok s2 -> lambda_name s1 i <> lambda_name s2 i).
Proof. intro H. exact (H (str "FIRM") (str "FISCAL") (str "F") (str "F") 1%nat ltac:(discriminate) eq_refl eq_refl eq_refl). Qed.
Print Assumptions C49_automatic_multipliers_across_blocks_refuted.
Theorem C49_block_name_with_empty_word_refuted : ~ (forall n, n <> [] -> exists s, short_name n = Ok s).
Proof. intro H. destruct (H (str "A__B") ltac:(discriminate)) as (s & E). vm_compute in E. discriminate. Qed.
Print Assumptions C49_block_name_with_empty_word_refuted.

(* C17: an optimisation problem without constraints cannot be solved *)
Definition unconstrained : ablock := ABlock (str "A") (ctl ["C"]%string) [] []
  [eq_ (x_ "U" 0) (Ad (Ng (Mu (x_ "C" 0) (x_ "C" 0))) (Mu (p_ "beta") (x_ "U" 1))) None] [] [] [].
Theorem C17_unconstrained_problem_refuted :
  ~ (forall a b, to_block id_ord id_ord a = Ok b -> (length (ab_obj a) = 1)%nat ->
       exists b', solve_optimization id_ord id_ord (fun l => l) b = Ok b').
Proof.
  intro H. destruct (to_block id_ord id_ord unconstrained) as [b|] eqn:E1; [|vm_compute in E1; discriminate].
  destruct (H unconstrained b E1 eq_refl) as (b' & H'). vm_compute in E1. injection E1 as <-. vm_compute in H'. discriminate.
Qed.
Print Assumptions C17_unconstrained_problem_refuted.

(* C17: the discount factor is read off the first addend that contains the next value *)
Definition two_discounts : eqn := Eqn (x_ "V" 0) (Ad (x_ "u" 0) (Ad (Mu (p_ "b1") (x_ "V" 1)) (Mu (p_ "b2") (x_ "V" 1)))).
Theorem C17_discount_factor_of_split_objective_refuted :
  ~ (forall obj df, discount_factor (fun l => l) obj = Ok df -> forall V u c1 c2 (env : sym -> R) G,
       lhs obj = Sy (SDate V 0) -> rhs obj = Ad u (Ad (Mu c1 (Sy (SDate V 1))) (Mu c2 (Sy (SDate V 1)))) ->
       ev (Ralg G) env df = (ev (Ralg G) env c1 + ev (Ralg G) env c2)%R).
Proof.
  intro H. specialize (H two_discounts _ eq_refl (str "V") (x_ "u" 0) (p_ "b1") (p_ "b2") (fun _ => 1%R) expworld eq_refl eq_refl).
  cbn in H. lra.
Qed.
Print Assumptions C17_discount_factor_of_split_objective_refuted.

(* C17: with the auxiliary variables that replace deep lags (C05), a control's effect through the deep lag is lost.
   [lag_path]: K__lag1 carries K one period back. *)
Theorem C17_deep_lag_through_auxiliary_refuted :
  ~ (forall L1 L2 df f1 f2 G (env : sym -> R), param_only df ->
       (forall e : sym -> R, (forall t, e (SDate (str "K__lag1") t) = e (SDate (str "K") (t - 1))) -> ev (Ralg G) e L1 = ev (Ralg G) e L2) ->
       foc_of id_ord L1 df (SDate (str "K") 0) = Ok f1 -> foc_of id_ord L2 df (SDate (str "K") 0) = Ok f2 ->
       (forall t, env (SDate (str "K__lag1") t) = env (SDate (str "K") (t - 1))) ->
       ev (Ralg G) env f1 = ev (Ralg G) env f2).
Proof.
  intro H. pose (L1 := Ad (x_ "K" 0) (x_ "K" (-2))). pose (L2 := Ad (x_ "K" 0) (x_ "K__lag1" (-1))).
  destruct (foc_of id_ord L1 (p_ "beta") (SDate (str "K") 0)) as [f1|] eqn:E1; [|vm_compute in E1; discriminate].
  destruct (foc_of id_ord L2 (p_ "beta") (SDate (str "K") 0)) as [f2|] eqn:E2; [|vm_compute in E2; discriminate].
  specialize (H L1 L2 (p_ "beta") f1 f2 expworld (fun _ => 1%R) ltac:(intros s [<-|[]]; eexists; reflexivity)).
  specialize (H ltac:(intros e He; unfold L1, L2, x_; rewrite !evAd, !evSy, (He (-1)%Z); reflexivity) E1 E2 ltac:(reflexivity)).
  vm_compute in E1. injection E1 as <-. vm_compute in E2. injection E2 as <-. cbn in H. lra.
Qed.
Print Assumptions C17_deep_lag_through_auxiliary_refuted.

(* C47 *)
Theorem C47_block_accepted_exactly_when_well_formed :
  forall ord sord a short, set_order_ok ord -> short_name (ab_name a) = Ok short ->
  (forall b, to_block ord sord a = Ok b -> acceptable a) /\
  (acceptable a -> ab_defs a = [] -> exists b, to_block ord sord a = Ok b) /\
  (to_block ord sord a = Err (GEconError 20) <-> ~ (ab_obj a = [] <-> ab_controls a = [])) /\
  (to_block ord sord a = Err (GEconError 21) <-> (ab_obj a = [] <-> ab_controls a = []) /\ (1 < length (ab_obj a))%nat) /\
  (to_block ord sord a = Err (GEconError 22) <->
     (ab_obj a = [] <-> ab_controls a = []) /\ (length (ab_obj a) <= 1)%nat /\ ~ (forall x, In x (ab_controls a) -> control_used a x)).
Proof. exact to_block_exact. Qed.
Print Assumptions C47_block_accepted_exactly_when_well_formed.
Example C47_cases :
  (exists b, to_block id_ord id_ord household = Ok b) /\
  to_block id_ord id_ord (ABlock (str "A") [] [] [] [hh_obj] [] [] []) = Err (GEconError 20) /\
  to_block id_ord id_ord (ABlock (str "A") (ctl ["C"]%string) [] [] [hh_obj; hh_obj] [] [] []) = Err (GEconError 21) /\
  to_block id_ord id_ord (ABlock (str "A") (ctl ["Z"]%string) [] [] [hh_obj] [] [] []) = Err (GEconError 22) /\
  to_block id_ord id_ord (ABlock (str "A") [] [] [] [] [] [GEq (x_ "C" 0) (x_ "K" 0) true false false None None] []) = Err ValueError.
Proof. split; [eexists; vm_compute; reflexivity|repeat split; vm_compute; reflexivity]. Qed.

(* C48 *)
Theorem C48_parameters_classified :
  forall ord sord a b, to_block ord sord a = Ok b -> (forall eb, In eb (calibrations a) -> calibration_ok eb) ->
  (NoDup (map fst (numeric_of a)) /\ NoDup (map fst (calibrated_of a)) /\ NoDup (map fst (deterministic_of a)) ->
   param_dicts ord sord [] b = Ok (PDicts (numeric_of a) (calibrated_of a) (deterministic_of a) [])) /\
  (~ (NoDup (map fst (numeric_of a)) /\ NoDup (map fst (calibrated_of a)) /\ NoDup (map fst (deterministic_of a))) ->
   param_dicts ord sord [] b = Err (GEconError 24)).
Proof. exact param_dicts_spec. Qed.
Print Assumptions C48_parameters_classified.
Definition cal_ (p : string) (r : sx) : citem := CEqn (GEq (p_ p) r false false false None None).
Definition calibrate (l r : sx) (p : string) : citem := CEqn (GEq l r false false false None (Some (str p))).
Definition ss_ (n : string) : sx := Sy (SSs (str n)).
Definition calib_block (l : list citem) : ablock := ABlock (str "CALIBRATION") [] [] [] [] [] [] l.
Definition calib1 : ablock := calib_block [cal_ "beta" (Cst 1); calibrate (ss_ "K") (Mu (Cst 10) (ss_ "Y")) "delta"; cal_ "g" (Mu (Cst 2) (p_ "beta"))].
Example C48_cases :
  (forall eb, In eb (calibrations calib1) -> calibration_ok eb) /\
  bind (to_block id_ord id_ord calib1) (param_dicts id_ord id_ord []) =
  Ok (PDicts [(SPar (str "beta"), Cst 1)] [(SPar (str "delta"), Ad (Mu (Cst 10) (ss_ "Y")) (Ng (ss_ "K")))] [(SPar (str "g"), Mu (Cst 2) (p_ "beta"))] []) /\
  bind (to_block id_ord id_ord (calib_block [cal_ "beta" (Cst 1); cal_ "beta" (Cst 2)])) (param_dicts id_ord id_ord []) = Err (GEconError 24).
Proof.
  split; [|split; vm_compute; reflexivity].
  intros eb [<-|[<-|[<-|[]]]]; (split; [eexists; reflexivity|]).
  - left. reflexivity.
  - right. intros s Hin Ht. cbn in Hin. repeat (destruct Hin as [<-|Hin]; [try discriminate Ht; eexists; reflexivity|]). destruct Hin.
  - right. intros s Hin. cbn in Hin. repeat (destruct Hin as [<-|Hin]; [reflexivity|]). destruct Hin.
Qed.
(* A parameter may be given a number and be calibrated, or be given a number and a formula, without any complaint. *)
Theorem C48_conflicting_values_detected_refuted :
  ~ (forall a b p, to_block id_ord id_ord a = Ok b -> param_dicts id_ord id_ord [] b = Ok p ->
       NoDup (map fst (p_num p ++ p_calib p ++ p_det p))).
Proof.
  intro H. pose (a := calib_block [cal_ "delta" (Cst 1); calibrate (ss_ "K") (Mu (Cst 10) (ss_ "Y")) "delta"]).
  destruct (to_block id_ord id_ord a) as [b|] eqn:E1; [|vm_compute in E1; discriminate].
  destruct (param_dicts id_ord id_ord [] b) as [p|] eqn:E2.
  2:{ vm_compute in E1. injection E1 as <-. vm_compute in E2. discriminate. }
  specialize (H a b p E1 E2). vm_compute in E1. injection E1 as <-. vm_compute in E2. injection E2 as <-. cbn in H.
  inversion H as [|x l H1 H2]. apply H1. now left.
Qed.
Print Assumptions C48_conflicting_values_detected_refuted.

(* C50: definitions are eliminated where they are used at the date at which they are written (C17), and nowhere else. *)
Definition lead_user : ablock := ABlock (str "A") [] [] [eq_ (x_ "u" 0) (x_ "C" 0) None] [] [] [eq_ (x_ "Z" 0) (x_ "u" 1) None] [].
Theorem C50_definition_at_other_date_eliminated_refuted :
  ~ (forall a b b' e n t x k, to_block id_ord id_ord a = Ok b -> solve_optimization id_ord id_ord (fun l => l) b = Ok b' ->
       In e (ab_defs a) -> g_lhs e = Sy (SDate n t) -> In x (k_sys b') -> ~ In (SDate n k) (atoms x)).
Proof.
  intro H. destruct (to_block id_ord id_ord lead_user) as [b|] eqn:E1; [|vm_compute in E1; discriminate].
  destruct (solve_optimization id_ord id_ord (fun l => l) b) as [b'|] eqn:E2.
  2:{ vm_compute in E1. injection E1 as <-. vm_compute in E2. discriminate. }
  specialize (H lead_user b b' _ (str "u") 0%Z (Ad (x_ "u" 1) (Ng (x_ "Z" 0))) 1%Z E1 E2 (or_introl eq_refl) eq_refl).
  vm_compute in E1. injection E1 as <-. vm_compute in E2. injection E2 as <-. apply H; cbn; auto.
Qed.
Print Assumptions C50_definition_at_other_date_eliminated_refuted.
