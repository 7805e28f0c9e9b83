(* Properties C19, C20 and C51-C54: parameters, priors and variable order of a built model. *)
From Verif Require Import Common Sym_Model Sym_Spec Sym_Proofs Sym_More SymDict_Model Sort_Lib Build_Model Build_Spec Build_Proofs Build_Order Build_Dist.
From Coq Require Import Permutation Sorted.
Local Open Scope list_scope.

(* C19 *)
Theorem C19_parameters_grouped_and_checked :
  forall ord sord, set_order_ok ord -> set_order_ok sord ->
  forall (frees calibs dets : list sdict) (hyper : list sym) (eqs : list sx) (rels : list (sx * sx)) (mode : on_unused) (dist_atoms : list sym),
  (forall d, In d (frees ++ calibs ++ dets) -> NoDup (map fst d)) -> NoSelf (concat dets) ->
  match build_params ord sord frees calibs dets hyper eqs rels mode dist_atoms with
  | Ok p => once frees /\ once calibs /\ once dets /\ acyclic (concat dets) /\ grouped frees calibs dets hyper eqs rels p /\
      (forall s, ~ orphan eqs rels p s) /\ (mode = URaise -> forall s, ~ unused eqs rels dist_atoms p s)
  | Err e =>
      (e = GEconError 40 /\ ~ (once frees /\ once calibs /\ once dets)) \/
      (e = ValueError /\ ~ acyclic (concat dets)) \/
      exists p, grouped frees calibs dets hyper eqs rels p /\
        ((e = GEconError 41 /\ exists s, orphan eqs rels p s) \/
         (e = GEconError 42 /\ mode = URaise /\ (forall s, ~ orphan eqs rels p s) /\ exists s, unused eqs rels dist_atoms p s))
  end.
Proof. exact build_spec. Qed.
Print Assumptions C19_parameters_grouped_and_checked.

Theorem C19_block_order_irrelevant :
  forall ds ds' : list sdict, (forall d, In d ds -> NoDup (map fst d)) -> (forall k, In k (map fst (concat ds)) -> exists n, k = SPar n) ->
    Permutation ds ds' -> merge_params ds = merge_params ds'.
Proof. exact merge_order. Qed.
Print Assumptions C19_block_order_irrelevant.

Definition q (n : string) : sx := Sy (sp n).
Definition xt (n : string) (t : Z) : sx := Sy (SDate (str n) t).
(* An undeclared parameter passes if some parameter's formula mentions it. *)
Theorem C19_undeclared_parameter_detected_refuted :
  ~ (forall frees calibs dets eqs p, build_params id_ord id_ord frees calibs dets [] eqs [] URaise [] = Ok p ->
       forall n, (exists e, In e eqs /\ In (SPar n) (atoms e)) -> declared p (SPar n)).
Proof.
  intro H. destruct (build_params id_ord id_ord [] [] [[(sp "b", Mu (Cst 2) (q "a"))]] [] [Ad (xt "x" 0) (Ad (q "a") (q "b"))] [] URaise []) as [p|] eqn:E;
    [|vm_compute in E; discriminate].
  specialize (H _ _ _ _ _ E (str "a")). vm_compute in E. injection E as <-.
  destruct H as [[]|[[]|[H|[]]]]; [exists (Ad (xt "x" 0) (Ad (q "a") (q "b"))); split; [left; reflexivity|right; left; reflexivity]|discriminate].
Qed.
Print Assumptions C19_undeclared_parameter_detected_refuted.
(* A name may be free and calibrated at once. *)
Theorem C19_one_group_per_parameter_refuted :
  ~ (forall frees calibs dets eqs p, build_params id_ord id_ord frees calibs dets [] eqs [] URaise [] = Ok p ->
       forall k, ~ (In k (map fst (pr_free p)) /\ In k (map fst (pr_calib p)))).
Proof.
  intro H. destruct (build_params id_ord id_ord [[(sp "a", Cst 1)]] [[(sp "a", Ad (Sy (SSs (str "x"))) (Cst (-3)))]] [] [] [Ad (xt "x" 0) (q "a")] [] URaise []) as [p|] eqn:E;
    [|vm_compute in E; discriminate].
  specialize (H _ _ _ _ _ E (sp "a")). vm_compute in E. injection E as <-. apply H. split; left; reflexivity.
Qed.
Print Assumptions C19_one_group_per_parameter_refuted.
(* A formula used only by a calibrating equation is thrown away, and the calibrating equation keeps its name. *)
Theorem C19_needed_formulas_kept_refuted :
  ~ (forall frees calibs dets eqs p, build_params id_ord id_ord frees calibs dets [] eqs [] URaise [] = Ok p ->
       forall k w s, In (k, w) (pr_calib p) -> In s (atoms w) -> In s (map fst (concat dets)) -> In s (map fst (pr_det p))).
Proof.
  intro H.
  destruct (build_params id_ord id_ord [[(sp "a", Cst 1)]] [[(sp "c", Ad (Sy (SSs (str "x"))) (q "b"))]] [[(sp "b", Mu (Cst 2) (q "a"))]] []
              [Ad (xt "x" 0) (Ad (q "a") (q "c"))] [] URaise []) as [p|] eqn:E; [|vm_compute in E; discriminate].
  specialize (H _ _ _ _ _ E (sp "c") (Ad (Sy (SSs (str "x"))) (q "b")) (sp "b")). vm_compute in E. injection E as <-.
  destruct H; [left; reflexivity|right; left; reflexivity|left; reflexivity].
Qed.
Print Assumptions C19_needed_formulas_kept_refuted.
(* An accepted model need not have computable parameters: a formula over a shock's standard deviation. *)
Theorem C19_accepted_parameters_computable_refuted :
  ~ (forall frees dets hyper eqs p, build_params id_ord id_ord frees [] dets hyper eqs [] URaise hyper = Ok p ->
       forall free : list (sym * Z), map fst free = map fst (pr_free p) -> exists f, compile_params Zalg free (pr_det p) = Ok f).
Proof.
  intro H.
  destruct (build_params id_ord id_ord [[(sp "sigma", Cst 1)]] [] [[(sp "b", Mu (Cst 2) (q "sigma"))]] [sp "sigma"] [Ad (xt "x" 0) (q "b")] [] URaise [sp "sigma"])
    as [p|] eqn:E; [|vm_compute in E; discriminate].
  specialize (H _ _ _ _ _ E []). vm_compute in E. injection E as <-. destruct (H eq_refl) as (f & Hf). vm_compute in Hf. discriminate.
Qed.
Print Assumptions C19_accepted_parameters_computable_refuted.

Example C19_accepted :
  build_params id_ord id_ord [[(sp "rho", Cst 1); (sp "sigma", Cst 2)]; [(sp "beta", Cst 3)]] [[(sp "alpha", Ad (Sy (SSs (str "x"))) (Cst (-3)))]]
    [[(sp "c", Mu (q "b") (q "rho")); (sp "b", Mu (Cst 2) (q "beta")); (sp "z", Cst 1)]] [sp "sigma"]
    [Ad (xt "x" 0) (Mu (q "alpha") (Ad (q "beta") (q "c")))] [] URaise [sp "sigma"]
  = Ok (Params [(sp "beta", Cst 3); (sp "rho", Cst 1)] [(sp "sigma", Cst 2)] [(sp "c", Mu (Mu (Cst 2) (q "beta")) (q "rho"))]
          [(sp "alpha", Ad (Sy (SSs (str "x"))) (Cst (-3)))])
  /\ build_params id_ord id_ord [[(sp "a", Cst 1)]; [(sp "a", Cst 2)]] [] [] [] [q "a"] [] URaise [] = Err (GEconError 40)
  /\ build_params id_ord id_ord [[(sp "a", Cst 1)]] [] [] [] [Ad (q "a") (q "b")] [] URaise [] = Err (GEconError 41)
  /\ build_params id_ord id_ord [[(sp "a", Cst 1); (sp "b", Cst 1)]] [] [] [] [q "a"] [] URaise [] = Err (GEconError 42)
  /\ is_ok (build_params id_ord id_ord [[(sp "a", Cst 1); (sp "b", Cst 1)]] [] [] [] [q "a"] [] UWarn []) = true.
Proof. repeat split; vm_compute; reflexivity. Qed.

(* C20.  [defaults] are the free parameters' values, [det] the formulas, f the compiled function. *)
Theorem C20_update_is_local :
  forall V (A : alg V) (defaults : list (sym * V)) (det : sdict) f,
  NoDup (map fst defaults ++ map fst det) -> compile_params A defaults det = Ok f ->
  forall u : list (sym * V), NoDup (map fst u) ->
  match parameters defaults det f u with
  | Ok r =>
      (forall k, In k (map fst u) -> In k (map fst defaults) \/ In k (map fst det)) /\
      map fst r = map fst defaults ++ map fst det /\
      (forall k v, In k (map fst defaults) -> (In (k, v) r <-> In (k, v) u \/ (~ In k (map fst u) /\ In (k, v) defaults))) /\
      (forall k e, In (k, e) det -> In (k, ev A (env_of A r) e) r)
  | Err e => e = GEconError 43 /\ exists k, In k (map fst u) /\ ~ In k (map fst defaults) /\ ~ In k (map fst det)
  end.
Proof. exact @parameters_spec. Qed.
Print Assumptions C20_update_is_local.
Theorem C20_idempotent :
  forall V (A : alg V) (defaults : list (sym * V)) (det : sdict) f,
  NoDup (map fst defaults ++ map fst det) -> compile_params A defaults det = Ok f ->
  forall u r, NoDup (map fst u) -> parameters defaults det f u = Ok r -> parameters defaults det f r = Ok r.
Proof. exact @parameters_idempotent. Qed.
Print Assumptions C20_idempotent.
Theorem C20_order_of_updates_irrelevant :
  forall V (A : alg V) (defaults : list (sym * V)) (det : sdict) f,
  NoDup (map fst defaults ++ map fst det) -> compile_params A defaults det = Ok f ->
  forall u u', NoDup (map fst u) -> Permutation u u' -> parameters defaults det f u = parameters defaults det f u'.
Proof. exact @parameters_order. Qed.
Print Assumptions C20_order_of_updates_irrelevant.
Example C20_case :
  let defaults := [(sp "a", 1%Z); (sp "b", 2%Z)] in let det := [(sp "c", Mu (q "a") (q "b"))] in
  exists f, compile_params Zalg defaults det = Ok f /\
    parameters defaults det f [(sp "b", 5%Z); (sp "c", 100%Z)] = Ok [(sp "a", 1%Z); (sp "b", 5%Z); (sp "c", 5%Z)] /\
    parameters defaults det f [(sp "d", 5%Z)] = Err (GEconError 43).
Proof. eexists. split; [vm_compute; reflexivity|]. split; vm_compute; reflexivity. Qed.

(* C51: the order of a model's variables and shocks *)
Theorem C51_order_independent_of_blocks_and_sets :
  forall ord ord' vars vars' shocks shocks', set_order_ok ord -> set_order_ok ord' ->
  time_aware_list vars -> time_aware_list shocks -> time_aware_list vars' -> time_aware_list shocks' ->
  (forall x, In x (map at0 (concat vars)) <-> In x (map at0 (concat vars'))) ->
  (forall x, In x (map at0 (concat shocks)) <-> In x (map at0 (concat shocks'))) ->
  let order r := (model_order (fst r), model_order (snd r)) in
  order (variables_and_shocks ord vars shocks) = order (variables_and_shocks ord' vars' shocks').
Proof.
  intros ord ord' vars vars' shocks shocks' Ho Ho' H1 H2 H3 H4 Hv Hs order.
  exact (f_equal order (vs_canonical ord ord' vars vars' shocks shocks' Ho Ho' H1 H2 H3 H4 Hv Hs)).
Qed.
Print Assumptions C51_order_independent_of_blocks_and_sets.
Theorem C51_variables_and_shocks_complete :
  forall ord, set_order_ok ord -> forall vars shocks, time_aware_list vars -> time_aware_list shocks ->
  let r := variables_and_shocks ord vars shocks in
  (forall x, In x (snd r) <-> exists s, In s (concat shocks) /\ x = at0 s) /\
  (forall x, In x (fst r) <-> (exists s, In s (concat vars) /\ x = at0 s) /\ ~ In x (snd r)) /\
  NoDup (fst r) /\ NoDup (snd r) /\ (forall x, In x (fst r) \/ In x (snd r) -> exists b, x = SDate b 0).
Proof. exact vs_spec. Qed.
Print Assumptions C51_variables_and_shocks_complete.
Theorem C51_natural_order :
  forall l, Permutation l (model_order l) /\ StronglySorted (fun x y => nat_leb x y = true) (model_order l) /\
    forall x, filter (fun y => nat_leb x y && nat_leb y x)%bool (model_order l) = filter (fun y => nat_leb x y && nat_leb y x)%bool l.
Proof. exact model_order_spec. Qed.
Print Assumptions C51_natural_order.
Theorem C51_comparison_never_raises : forall s1 s2, exists r, py_leb (natural_key s1) (natural_key s2) = Ok r.
Proof. exact compare_never_raises. Qed.
Print Assumptions C51_comparison_never_raises.
Theorem C51_numbers_in_numeric_order :
  forall p q n m t t', ~ ends_with_digit p -> ~ starts_with_digit q -> (n < m)%N ->
    nat_leb (SDate (p ++ dec n ++ q) t) (SDate (p ++ dec m ++ q) t') = true /\
    nat_leb (SDate (p ++ dec m ++ q) t') (SDate (p ++ dec n ++ q) t) = false.
Proof. exact numbers_in_order. Qed.
Print Assumptions C51_numbers_in_numeric_order.
Definition v (n : string) : sym := SDate (str n) 0.
Example C51_case :
  model_order (fst (variables_and_shocks id_ord [[v "x10"; SDate (str "x2") 1]; [v "x1b"; v "eps"; v "C"; v "x2"; v "x1"]] [[v "eps"]]))
  = [v "C"; v "x1"; v "x1b"; v "x2"; v "x10"].
Proof. vm_compute. reflexivity. Qed.

(* C52 *)
Theorem C52_classified_by_date :
  forall ord eqs names, set_order_ok ord ->
  let written s := exists e, In e eqs /\ In s (atoms e) in
  match classify ord eqs names with
  | Ok (lags, now, leads, shocks) =>
      (forall s, written s -> time_aware s = true -> exists b t, s = SDate b t /\ (t = -1 \/ t = 0 \/ t = 1)%Z) /\
      (forall s, In s lags <-> written s /\ ~ In (par_name s) names /\ exists b, s = SDate b (-1)) /\
      (forall s, In s now <-> written s /\ ~ In (par_name s) names /\ exists b, s = SDate b 0) /\
      (forall s, In s leads <-> written s /\ ~ In (par_name s) names /\ exists b, s = SDate b 1) /\
      (forall s, In s shocks <-> written s /\ In (par_name s) names /\ time_aware s = true) /\
      (NoDup lags /\ NoDup now /\ NoDup leads /\ NoDup shocks) /\
      (forall l, In l [lags; now; leads; shocks] -> StronglySorted (fun x y => nat_leb x y = true) l)
  | Err e => e = ValueError /\ exists s, written s /\ time_aware s = true /\ ~ exists b t, s = SDate b t /\ (t = -1 \/ t = 0 \/ t = 1)%Z
  end.
Proof. exact classify_spec. Qed.
Print Assumptions C52_classified_by_date.
Theorem C52_order_deterministic :
  forall ord ord' eqs names, set_order_ok ord -> set_order_ok ord' ->
  (forall s s', In s (flat_map atoms eqs) -> In s' (flat_map atoms eqs) -> natural_key (par_name s) = natural_key (par_name s') -> par_name s = par_name s') ->
  (forall s, In s (flat_map atoms eqs) -> In (par_name s) names -> exists b, s = SDate b 0) ->
  classify ord eqs names = classify ord' eqs names.
Proof. exact classify_canonical. Qed.
Print Assumptions C52_order_deterministic.
(* x1 and x01 have the same key: their order follows the hash of the set. *)
Theorem C52_order_with_leading_zeros_refuted :
  ~ (forall ord ord' eqs names, set_order_ok ord -> set_order_ok ord' -> classify ord eqs names = classify ord' eqs names).
Proof.
  intro H. specialize (H (nodup sym_eq_dec) (fun l => rev (nodup sym_eq_dec l)) [Ad (xt "x1" 0) (xt "x01" 0)] []).
  assert (E : classify (nodup sym_eq_dec) [Ad (xt "x1" 0) (xt "x01" 0)] [] = classify (fun l => rev (nodup sym_eq_dec l)) [Ad (xt "x1" 0) (xt "x01" 0)] []).
  { apply H; intro l; [reflexivity|symmetry; apply Permutation_rev]. }
  vm_compute in E. discriminate.
Qed.
Print Assumptions C52_order_with_leading_zeros_refuted.
Example C52_case :
  classify id_ord [Ad (xt "K" (-1)) (Mu (xt "K" 0) (xt "eps" 0)); Ad (xt "C" 1) (Ng (xt "C" 0))] [str "eps"]
  = Ok ([SDate (str "K") (-1)], [v "C"; v "K"], [SDate (str "C") 1], [v "eps"])
  /\ classify id_ord [xt "K" 2] [] = Err ValueError.
Proof. split; vm_compute; reflexivity. Qed.

(* C53 *)
Theorem C53_three_aligned_lists :
  forall vars, (forall s, In s vars -> time_aware s = true) ->
  exists names, NoDup names /\ (forall b, In b names <-> exists s, In s vars /\ par_name s = b) /\
    all_time_combinations vars = (map (fun b => SDate b (-1)) names, map (fun b => SDate b 0) names, map (fun b => SDate b 1) names).
Proof. exact combinations_spec. Qed.
Print Assumptions C53_three_aligned_lists.
Theorem C53_order_of_first_occurrence : forall l1 l2, exists r, dedup (l1 ++ l2) = dedup l1 ++ r.
Proof. exact dedup_app. Qed.
Print Assumptions C53_order_of_first_occurrence.
Example C53_case :
  all_time_combinations [SDate (str "K") 1; v "C"; v "K"] = ([SDate (str "K") (-1); SDate (str "C") (-1)], [v "K"; v "C"], [SDate (str "K") 1; SDate (str "C") 1]).
Proof. vm_compute. reflexivity. Qed.

(* C54: shock distributions and the priors of their hyper-parameters *)
Theorem C54_shock_sees_priors_up_to_its_block :
  forall D (bs1 : list (dist_block D)) b bs2 item, let bs := bs1 ++ b :: bs2 in
  NoDup (map fst (priors_of bs)) -> NoDup (map si_name (shocks_of bs)) -> In item (db_shocks b) ->
  match dget chars_eqb (si_name item) (snd (collect_distributions bs)) with
  | Some c => c <> [] /\ forall kw h pr, In (kw, h, pr) c <-> In (kw, KRef h) (si_kwargs item) /\ (forall d, pr = Some d <-> In (h, d) (priors_of (bs1 ++ [b])))
  | None => forall kw h, ~ In (kw, KRef h) (si_kwargs item)
  end.
Proof.
  intros D bs1 b bs2 item bs Hp Hs Hi. pose proof (shock_gets_known bs1 b bs2 item Hp Hs Hi) as E. cbv zeta in E. fold bs in E. rewrite E. clear E. apply create_shock_spec.
  unfold bs, priors_of in Hp. rewrite map_app, concat_app, map_app in Hp. cbn [map concat] in Hp. rewrite map_app, app_assoc in Hp.
  apply NoDup_app in Hp as (Hp & _ & _). unfold priors_of. rewrite map_app, concat_app. cbn. rewrite app_nil_r, map_app. exact Hp.
Qed.
Print Assumptions C54_shock_sees_priors_up_to_its_block.
Theorem C54_parameter_priors :
  forall D (bs : list (dist_block D)) shock_names, NoDup (map fst (priors_of bs)) ->
  let cd := collect_distributions bs in let sp := split_distributions (fst cd) (snd cd) shock_names in
  snd sp = snd cd /\
  forall n d, In (n, d) (fst sp) <-> In (n, d) (priors_of bs) /\ ~ In n shock_names /\
    ~ exists s c kw pr, In (s, c) (snd cd) /\ In (kw, n, pr) c.
Proof. exact @priors_spec. Qed.
Print Assumptions C54_parameter_priors.
Definition late_prior : list (dist_block nat) :=
  [DistBlock [] [ShockItem (str "eps") [(str "sigma", KRef (str "s"))]]; DistBlock [(str "s", 7%nat)] []].
(* Moving the prior's block after the shock's block loses the prior altogether. *)
Theorem C54_no_prior_lost_refuted :
  ~ (forall D (bs : list (dist_block D)) shock_names, NoDup (map fst (priors_of bs)) ->
       let cd := collect_distributions bs in let sp := split_distributions (fst cd) (snd cd) shock_names in
       forall n d, In (n, d) (priors_of bs) -> ~ In n shock_names -> In (n, d) (fst sp) \/ exists s c kw, In (s, c) (snd sp) /\ In (kw, n, Some d) c).
Proof.
  intro H. specialize (H nat late_prior [str "eps"]). vm_compute in H.
  destruct (H ltac:(constructor; [intros []|constructor]) (str "s") 7%nat) as [[]|(s & c & kw & [E|[]] & Hc)]; [left; reflexivity|intros [E|[]]; discriminate|].
  injection E as <- <-. destruct Hc as [Hc|[]]. discriminate.
Qed.
Print Assumptions C54_no_prior_lost_refuted.
Theorem C54_block_order_irrelevant_refuted :
  ~ (forall D (bs bs' : list (dist_block D)), NoDup (map fst (priors_of bs)) -> Permutation bs bs' ->
       snd (collect_distributions bs) = snd (collect_distributions bs')).
Proof.
  intro H. specialize (H nat late_prior (rev late_prior) ltac:(constructor; [intros []|constructor]) (Permutation_rev _)). vm_compute in H. discriminate.
Qed.
Print Assumptions C54_block_order_irrelevant_refuted.
Example C54_case :
  collect_distributions (rev late_prior) = ([(str "s", 7%nat)], [(str "eps", [(str "sigma", str "s", Some 7%nat)])]).
Proof. vm_compute. reflexivity. Qed.
