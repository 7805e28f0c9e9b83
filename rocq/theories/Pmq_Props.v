(* C153: what a parsed file shows before it is turned into a model. *)
From Verif Require Import Common Expr_Model Expr_RoundTrip Sym_Model Sym_Spec Sym_Proofs SymDict_Model SymDict_More ExpandTime_Spec Load_Model Load_Spec Load_Proofs Load_Props
  Pz_Props Pmq_Model.
From Verif Require Gcn_Model.
From Coq Require Import Reals Lra.
Local Open Scope list_scope.

(* --- specification --- *)
Section Spec.
Context {F : Type}.
(* the equations of a block that are not in its calibration, in the order of the components *)
Definition block_equations (b : Gcn_Model.block F) : list (Gcn_Model.equation F) :=
  Gcn_Model.definitions b ++ Gcn_Model.objective b ++ Gcn_Model.constraints b ++ Gcn_Model.identities b.
(* the equation is one of the block's, calibration included *)
Definition of_block (b : Gcn_Model.block F) (q : Gcn_Model.equation F) : Prop :=
  In q (block_equations b) \/ In (Gcn_Model.IEqn q) (Gcn_Model.calibration b).
(* the parameter n is written in e *)
Definition written_parameter (n : chars) (e : expr F) : Prop := In (SPar n) (written_symbols e).
(* the equations among the items of a calibration, in order *)
Inductive equations_among : list (Gcn_Model.item F) -> list (Gcn_Model.equation F) -> Prop :=
| ea_nil : equations_among [] []
| ea_eqn q l r : equations_among l r -> equations_among (Gcn_Model.IEqn q :: l) (q :: r)
| ea_dist d l r : equations_among l r -> equations_among (Gcn_Model.IDist d :: l) r.
(* e is the variable n[t], alone or under expectations *)
Fixpoint alone (n : chars) (t : tix) (e : expr F) : Prop :=
  match e with Var n' t' => n' = n /\ t' = t | Expec a => alone n t a | _ => False end.
End Spec.

(* --- facts --- *)
Section Facts.
Context {F : Type}.
Variables (whole : F -> result (option Z)) (lit : F -> chars).
Notation convert := (Load_Model.convert whole lit).
Notation eqn := (equation_to_sympy whole lit).

Lemma alone_iff n t e : alone n t e <-> convert e = convert (Var n t).
Proof.
  induction e as [v|k|k u|a IH|o a b IHa IHb|f args IH|a IH] using expr_ind'; cbn [alone].
  - split; [intros []|]. cbn. unfold number. destruct (whole v) as [[z|]|]; cbn; destruct t; discriminate.
  - split; [intros []|]. cbn. destruct t; discriminate.
  - split; [intros [-> ->]; reflexivity|]. destruct u, t; cbn; intros E; injection E; intros; subst; auto; discriminate E.
  - split; [intros []|]. cbn [Load_Model.convert]. destruct (convert a); cbn; destruct t; discriminate.
  - split; [intros []|]. cbn [Load_Model.convert]. destruct (convert a) as [x|]; cbn [bind]; [|destruct t; discriminate].
    destruct (convert b) as [y|]; cbn [bind]; [|destruct t; discriminate].
    assert (N : forall s, apply_op o x y <> Sy s) by (intros s; destruct o; cbn; unfold spow; try destruct (integer_of y); discriminate).
    destruct t; intros E; injection E as E; now apply N in E.
  - split; [intros []|]. rewrite convert_fun. destruct (existsb (chars_eqb f) sympy_functions); [|destruct t; discriminate].
    destruct (map_ok convert args) as [xs|]; cbn [bind]; [|destruct t; discriminate].
    assert (N : forall s, call f xs <> Ok (Sy s)).
    { intros s. unfold call. destruct xs as [|x [|y [|]]]; try discriminate. destruct (chars_eqb f (str "log")); [discriminate|]. destruct (chars_eqb f (str "sqrt")); discriminate. }
    destruct t; intros E; now apply N in E.
  - exact IH.
Qed.
Lemma eqn_accepts q : (exists x, eqn q = Ok x) <-> usable whole lax_arity (Gcn_Model.lhs q) /\ usable whole lax_arity (Gcn_Model.rhs q).
Proof.
  rewrite <- !(convert_accepts whole lit). unfold equation_to_sympy. split.
  - intros (x & H). destruct (convert (Gcn_Model.lhs q)) as [l|]; [|discriminate H]. cbn [bind] in H.
    destruct (convert (Gcn_Model.rhs q)) as [r|]; [|discriminate H]. eauto.
  - intros ((l & ->) & (r & ->)). cbn [bind]. eauto.
Qed.
Lemma map_ok_all {A B} (f : A -> result B) l : (exists r, map_ok f l = Ok r) <-> forall x, In x l -> exists y, f x = Ok y.
Proof.
  induction l as [|a l IH]; cbn [map_ok].
  - split; [intros _ x []|eauto].
  - split.
    + intros (r & H) x Hx. destruct (f a) as [y|] eqn:E; [|discriminate H]. cbn [bind] in H.
      destruct (map_ok f l) as [ys|] eqn:E2; [|discriminate H]. destruct Hx as [<-|Hx]; [eauto|]. apply IH; eauto.
    + intros H. destruct (H a (or_introl eq_refl)) as (y & ->). cbn [bind].
      destruct (proj2 IH) as (ys & ->); [intros x Hx; apply H; now right|]. cbn [bind]. eauto.
Qed.
Lemma cal_eqs (b : Gcn_Model.block F) q : In q (calibration_equations b) <-> In (Gcn_Model.IEqn q) (Gcn_Model.calibration b).
Proof.
  unfold calibration_equations. rewrite in_flat_map. split.
  - intros (i & Hi & Hq). destruct i; [destruct Hq|]. destruct Hq as [<-|[]]. exact Hi.
  - intros H. exists (Gcn_Model.IEqn q). split; [exact H|now left].
Qed.
Lemma among_cal (b : Gcn_Model.block F) : equations_among (Gcn_Model.calibration b) (calibration_equations b).
Proof.
  unfold calibration_equations. induction (Gcn_Model.calibration b) as [|[d|q] l IH]; cbn [flat_map app]; constructor; exact IH.
Qed.
Lemma block_accepts b : (exists c, block_to_sympy whole lit b = Ok c) <-> forall q, of_block b q -> exists x, eqn q = Ok x.
Proof.
  assert (E : (forall q, of_block b q -> exists x, eqn q = Ok x) <->
     (forall q, In q (Gcn_Model.definitions b) -> exists x, eqn q = Ok x) /\ (forall q, In q (Gcn_Model.objective b) -> exists x, eqn q = Ok x) /\
     (forall q, In q (Gcn_Model.constraints b) -> exists x, eqn q = Ok x) /\ (forall q, In q (Gcn_Model.identities b) -> exists x, eqn q = Ok x) /\
     (forall q, In q (calibration_equations b) -> exists x, eqn q = Ok x)).
  { unfold of_block, block_equations. split.
    - intros H. repeat split; intros q Hq; apply H; rewrite ?in_app_iff; auto. right. now apply cal_eqs.
    - intros (H1 & H2 & H3 & H4 & H5) q [Hq|Hq]; [|apply H5; now apply cal_eqs].
      rewrite !in_app_iff in Hq. destruct Hq as [Hq|[Hq|[Hq|Hq]]]; auto. }
  rewrite E, <- !map_ok_all. unfold block_to_sympy. split.
  - intros (c & H).
    destruct (map_ok eqn (Gcn_Model.definitions b)); [|discriminate H]. cbn [bind] in H.
    destruct (map_ok eqn (Gcn_Model.objective b)); [|discriminate H]. cbn [bind] in H.
    destruct (map_ok eqn (Gcn_Model.constraints b)); [|discriminate H]. cbn [bind] in H.
    destruct (map_ok eqn (Gcn_Model.identities b)); [|discriminate H]. cbn [bind] in H.
    destruct (map_ok eqn (calibration_equations b)); [|discriminate H]. eauto 10.
  - intros ((? & ->) & (? & ->) & (? & ->) & (? & ->) & (? & ->)). cbn [bind]. eauto.
Qed.
Lemma fill_spec bs : forall d d', fill whole lit bs d = Ok d' -> NoDup (map fst d) -> NoDup (map fst d') /\
  (forall k, In k (map fst d') <-> In k (map fst d) \/ In k (map Gcn_Model.b_name bs)) /\
  (forall k c, dget chars_eqb k d' = Some c <->
     (exists b, last_such (fun x => Gcn_Model.b_name x = k) bs b /\ block_to_sympy whole lit b = Ok c) \/
     (dget chars_eqb k d = Some c /\ ~ In k (map Gcn_Model.b_name bs))).
Proof.
  induction bs as [|b bs IH]; intros d d' H Hn; cbn [fill] in H.
  - injection H as <-. split; [exact Hn|split; [cbn [map In]; tauto|]]. intros k c. split; [right; split; [assumption|intros []]|].
    intros [(b & (x & y & E & _) & _)|[H _]]; [destruct x; discriminate E|exact H].
  - destruct (block_to_sympy whole lit b) as [c0|] eqn:Eb; [|discriminate H]. cbn [bind] in H.
    destruct (IH _ _ H (dset_nodup chars_eqb chars_eqb_eq _ _ _ Hn)) as (N & K & G). split; [exact N|split].
    + intros k. rewrite K, (dset_keys chars_eqb chars_eqb_eq). cbn [map In]. intuition congruence.
    + intros k c. rewrite (G k c). cbn [map In]. rewrite (dget_dset chars_eqb chars_eqb_eq).
      destruct (chars_eqb k (Gcn_Model.b_name b)) eqn:Ek.
      * apply chars_eqb_eq in Ek. subst k. split.
        -- intros [(x & Hx & Hc)|[Hc Hk]].
           ++ left. exists x. split; [exact (last_app_r _ [b] _ _ Hx)|exact Hc].
           ++ injection Hc as <-. left. exists b. split; [|exact Eb]. exists [], bs. split; [reflexivity|split; [reflexivity|]].
              intros y Hy E. apply Hk. rewrite <- E. now apply in_map.
        -- intros [(x & Hx & Hc)|[_ Hk]]; [|now destruct Hk; left].
           destruct Hx as ([|z a] & r & E & Hp & Hr); cbn [app] in E; injection E as -> ->.
           ++ right. split; [congruence|]. intros Hk. apply in_map_iff in Hk as (y & Ey & Hy). now apply (Hr y Hy).
           ++ left. exists x. split; [exists a, r; auto|exact Hc].
      * apply chars_eqb_neq in Ek. split.
        -- intros [(x & Hx & Hc)|[Hc Hk]]; [left|right].
           ++ exists x. split; [exact (last_app_r _ [b] _ _ Hx)|exact Hc].
           ++ split; [exact Hc|]. intros [E|Hk']; [now apply Ek|auto].
        -- intros [(x & Hx & Hc)|[Hc Hk]]; [left|right; split; [exact Hc|tauto]].
           destruct Hx as ([|z a] & r & E & Hp & Hr); cbn [app] in E; injection E as -> ->; [now destruct Ek|].
           exists x. split; [exists a, r; auto|exact Hc].
Qed.
Lemma fill_accepts bs : forall d, (exists d', fill whole lit bs d = Ok d') <-> forall b, In b bs -> exists c, block_to_sympy whole lit b = Ok c.
Proof.
  induction bs as [|b bs IH]; intros d; cbn [fill].
  - split; [intros _ b []|eauto].
  - split.
    + intros (d' & H) x Hx. destruct (block_to_sympy whole lit b) as [c|] eqn:E; [|discriminate H]. cbn [bind] in H.
      destruct Hx as [<-|Hx]; [eauto|]. apply (proj1 (IH (dset chars_eqb (Gcn_Model.b_name b) c d))); eauto.
    + intros H. destruct (H b (or_introl eq_refl)) as (c & ->). cbn [bind]. apply IH. intros x Hx. apply H. now right.
Qed.
End Facts.

Lemma vadd_spec s v : NoDup s -> NoDup (vadd s v) /\ forall x, In x (vadd s v) <-> In x s \/ x = v.
Proof.
  assert (EQ : forall a b, var_eqb a b = true <-> a = b).
  { intros [n t] [n' t']. unfold var_eqb. cbn [fst snd]. rewrite Bool.andb_true_iff, chars_eqb_eq.
    destruct t as [z|], t' as [z'|]; cbn [tix_eqb]; rewrite ?Z.eqb_eq; intuition congruence. }
  intros H. unfold vadd. destruct (existsb (var_eqb v) s) eqn:E.
  - split; [exact H|]. intros x. split; [auto|intros [K| ->]; [exact K|]]. apply existsb_exists in E as (y & Hy & E). apply EQ in E. now subst.
  - assert (N : ~ In v s). { intros Hv. assert (existsb (var_eqb v) s = true) by (apply existsb_exists; exists v; split; [exact Hv|now apply EQ]). congruence. }
    split; [|intros x; rewrite in_app_iff; cbn [In]; intuition].
    apply NoDup_rev in H. rewrite <- (rev_involutive (s ++ [v])). apply NoDup_rev. rewrite rev_app_distr. cbn [rev app]. constructor; [now rewrite <- in_rev|exact H].
Qed.
Lemma padd_spec s v : NoDup s -> NoDup (padd s v) /\ forall x, In x (padd s v) <-> In x s \/ x = v.
Proof.
  intros H. unfold padd. destruct (existsb (chars_eqb v) s) eqn:E.
  - split; [exact H|]. intros x. split; [auto|intros [K| ->]; [exact K|]]. apply existsb_exists in E as (y & Hy & E). apply chars_eqb_eq in E. now subst.
  - assert (N : ~ In v s). { intros Hv. assert (existsb (chars_eqb v) s = true) by (apply existsb_exists; exists v; split; [exact Hv|apply chars_eqb_refl]). congruence. }
    split; [|intros x; rewrite in_app_iff; cbn [In]; intuition].
    apply NoDup_rev in H. rewrite <- (rev_involutive (s ++ [v])). apply NoDup_rev. rewrite rev_app_distr. cbn [rev app]. constructor; [now rewrite <- in_rev|exact H].
Qed.
Lemma sadd_spec s v : NoDup s -> NoDup (sadd s v) /\ forall x, In x (sadd s v) <-> In x s \/ x = v.
Proof.
  intros H. unfold sadd. destruct (existsb (sym_eqb v) s) eqn:E.
  - split; [exact H|]. intros x. split; [auto|intros [K| ->]; [exact K|]]. apply existsb_exists in E as (y & Hy & E). apply sym_eqb_eq in E. now subst.
  - assert (N : ~ In v s). { intros Hv. assert (existsb (sym_eqb v) s = true) by (apply existsb_exists; exists v; split; [exact Hv|apply sym_eqb_refl]). congruence. }
    split; [|intros x; rewrite in_app_iff; cbn [In]; intuition].
    apply NoDup_rev in H. rewrite <- (rev_involutive (s ++ [v])). apply NoDup_rev. rewrite rev_app_distr. cbn [rev app]. constructor; [now rewrite <- in_rev|exact H].
Qed.
Lemma as_set_spec l : NoDup (as_set l) /\ forall x, In x (as_set l) <-> In x l.
Proof.
  unfold as_set. assert (G : forall s, NoDup s -> NoDup (fold_left sadd l s) /\ forall x, In x (fold_left sadd l s) <-> In x s \/ In x l).
  { induction l as [|a l IH]; intros s H; cbn [fold_left In]; [split; [exact H|tauto]|].
    destruct (sadd_spec s a H) as (N & M). destruct (IH _ N) as (N' & M'). split; [exact N'|]. intros x. rewrite M', M. intuition. }
  destruct (G [] (NoDup_nil _)) as (N & M). split; [exact N|]. intros x. rewrite M. cbn [In]. tauto.
Qed.
Section Collect.
Context {F : Type}.
Lemma collect_variables_spec (e : expr F) : forall s, NoDup s ->
  NoDup (collect_variables s e) /\ forall x, In x (collect_variables s e) <-> In x s \/ In x (occs e).
Proof.
  induction e as [v|n|n t|a IH|o a b IHa IHb|f args IH|a IH] using expr_ind'; intros s H; cbn [collect_variables occs]; try (split; [exact H|cbn [In]; tauto]).
  - destruct (vadd_spec s (n, t) H) as (N & M). split; [exact N|]. intros x. rewrite M. cbn [In]. intuition.
  - now apply IH.
  - destruct (IHa s H) as (N & M). destruct (IHb _ N) as (N' & M'). split; [exact N'|]. intros x. rewrite M', M, in_app_iff. tauto.
  - revert s H. induction IH as [|a l Ha _ IHl]; intros s H; cbn [fold_left flat_map]; [split; [exact H|cbn [In]; tauto]|].
    destruct (Ha s H) as (N & M). destruct (IHl _ N) as (N' & M'). split; [exact N'|]. intros x. rewrite M', M, in_app_iff. tauto.
  - now apply IH.
Qed.
Lemma collect_parameters_spec (e : expr F) : forall s, NoDup s ->
  NoDup (collect_parameters s e) /\ forall x, In x (collect_parameters s e) <-> In x s \/ written_parameter x e.
Proof.
  unfold written_parameter.
  induction e as [v|n|n t|a IH|o a b IHa IHb|f args IH|a IH] using expr_ind'; intros s H; cbn [collect_parameters written_symbols]; try (split; [exact H|cbn [In]; tauto]).
  - destruct (padd_spec s n H) as (N & M). split; [exact N|]. intros x. rewrite M. cbn [In]. intuition congruence.
  - split; [exact H|]. intros x. destruct t; cbn [In]; intuition discriminate.
  - now apply IH.
  - destruct (IHa s H) as (N & M). destruct (IHb _ N) as (N' & M'). split; [exact N'|]. intros x. rewrite M', M, in_app_iff. tauto.
  - revert s H. induction IH as [|a l Ha _ IHl]; intros s H; cbn [fold_left flat_map]; [split; [exact H|cbn [In]; tauto]|].
    destruct (Ha s H) as (N & M). destruct (IHl _ N) as (N' & M'). split; [exact N'|]. intros x. rewrite M', M, in_app_iff. tauto.
  - now apply IH.
Qed.
End Collect.

(* --- theorems --- *)
Section T.
Context {F : Type}.
Variables (whole : F -> result (option Z)) (lit : F -> chars).

(* An equation of the file, converted: outside of calibrating equations each side has the value of the side as written; for a
   calibrating equation  a = b -> p  it is the equation  p = a - b.  The metadata names the parameter and the multiplier. *)
Theorem C153_equation (q : Gcn_Model.equation F) l r md : equation_to_sympy whole lit q = Ok ((l, r), md) ->
  (is_calibrating md = true <-> Gcn_Model.calibrating q <> None) /\
  (forall n, Gcn_Model.multiplier q = Some n -> n <> [] -> lagrange_multiplier md = Some (SDate n 0)) /\
  (Gcn_Model.multiplier q = None -> lagrange_multiplier md = None) /\
  (Gcn_Model.calibrating q = None -> calibrating_parameter md = None /\
     forall G I p t, usual whole lit G I -> bases_ok whole I p t (Gcn_Model.lhs q) -> bases_ok whole I p t (Gcn_Model.rhs q) ->
       ev (Ralg G) (at_date I p t) l = den I p t (Gcn_Model.lhs q) /\ ev (Ralg G) (at_date I p t) r = den I p t (Gcn_Model.rhs q)) /\
  (forall n, Gcn_Model.calibrating q = Some n -> n <> [] -> calibrating_parameter md = Some (SPar n) /\ l = Sy (SPar n) /\
     forall G I p t, usual whole lit G I -> bases_ok whole I p t (Gcn_Model.lhs q) -> bases_ok whole I p t (Gcn_Model.rhs q) ->
       ev (Ralg G) (at_date I p t) r = (den I p t (Gcn_Model.lhs q) - den I p t (Gcn_Model.rhs q))%R).
Proof.
  unfold equation_to_sympy. intros H. destruct (convert whole lit (Gcn_Model.lhs q)) as [a|] eqn:Ea; [|discriminate H]. cbn [bind] in H.
  destruct (convert whole lit (Gcn_Model.rhs q)) as [b|] eqn:Eb; [|discriminate H]. cbn [bind] in H.
  refine (conj _ (conj _ (conj _ (conj _ _)))).
  - destruct (Gcn_Model.calibrating q) as [n|]; [destruct (truthy (Some n))|]; injection H as _ _ <-; cbn [is_calibrating]; split; congruence.
  - intros n En Hn. rewrite En in H. destruct n as [|c n]; [now destruct Hn|].
    destruct (truthy (Gcn_Model.calibrating q)); cbn in H; injection H as _ _ <-; reflexivity.
  - intros En. rewrite En in H. destruct (truthy (Gcn_Model.calibrating q)); cbn in H; injection H as _ _ <-; reflexivity.
  - intros En. rewrite En in H. cbn in H. injection H as <- <- <-. split; [reflexivity|]. intros G I p t U B1 B2.
    split; eapply convert_value; eauto.
  - intros n En Hn. rewrite En in H. destruct n as [|c n]; [now destruct Hn|]. cbn [truthy option_map] in H. injection H as <- <- <-.
    split; [reflexivity|split; [reflexivity|]]. intros G I p t U B1 B2.
    change (ev (Ralg G) (at_date I p t) a + - ev (Ralg G) (at_date I p t) b = den I p t (Gcn_Model.lhs q) - den I p t (Gcn_Model.rhs q))%R.
    rewrite (convert_value whole lit G I p t _ _ U Ea B1), (convert_value whole lit G I p t _ _ U Eb B2). lra.
Qed.
(* The conversion of a whole file succeeds exactly when every equation in it, of the steady-state block and of the calibrations
   too, uses only known functions and finite numbers. *)
Theorem C153_converts (m : Gcn_Model.gmodel F) : (exists d, model_to_sympy whole lit m = Ok d) <->
  forall b q, In b (Gcn_Model.blocks m) -> of_block b q ->
    usable whole lax_arity (Gcn_Model.lhs q) /\ usable whole lax_arity (Gcn_Model.rhs q).
Proof.
  unfold model_to_sympy. rewrite fill_accepts. split.
  - intros H b q Hb Hq. apply (eqn_accepts whole lit). now apply (proj1 (block_accepts whole lit b) (H b Hb)).
  - intros H b Hb. apply block_accepts. intros q Hq. apply eqn_accepts. now apply (H b).
Qed.
(* The result has one entry per block name, and it is that of the last block with the name. *)
Theorem C153_blocks (m : Gcn_Model.gmodel F) d : model_to_sympy whole lit m = Ok d -> NoDup (map fst d) /\
  (forall k, In k (map fst d) <-> In k (block_names m)) /\
  (forall k c, dget chars_eqb k d = Some c <->
     exists b, last_such (fun x => Gcn_Model.b_name x = k) (Gcn_Model.blocks m) b /\ block_to_sympy whole lit b = Ok c).
Proof.
  intros H. destruct (fill_spec whole lit _ _ _ H (NoDup_nil _)) as (N & K & G). split; [exact N|split].
  - intros k. rewrite K. cbn [map In]. unfold block_names. tauto.
  - intros k c. rewrite G. cbn [dget]. split; [intros [E|[E _]]; [exact E|discriminate E]|auto].
Qed.
(* An entry lists the equations of each component, in order; the calibration's priors are left out. *)
Theorem C153_entry (b : Gcn_Model.block F) c : block_to_sympy whole lit b = Ok c ->
  let conv q x := equation_to_sympy whole lit q = Ok x in
  Forall2 conv (Gcn_Model.definitions b) (c_definitions c) /\ Forall2 conv (Gcn_Model.objective b) (c_objective c) /\
  Forall2 conv (Gcn_Model.constraints b) (c_constraints c) /\ Forall2 conv (Gcn_Model.identities b) (c_identities c) /\
  (exists qs, equations_among (Gcn_Model.calibration b) qs /\ Forall2 conv qs (c_calibration c)) /\
  ast_block_to_equations whole lit b = Ok (c_definitions c, c_objective c, c_constraints c, c_identities c).
Proof.
  intros H. cbv zeta. unfold block_to_sympy in H. unfold ast_block_to_equations.
  destruct (map_ok _ (Gcn_Model.definitions b)) eqn:E1; [|discriminate H]. cbn [bind] in H |- *.
  destruct (map_ok _ (Gcn_Model.objective b)) eqn:E2; [|discriminate H]. cbn [bind] in H |- *.
  destruct (map_ok _ (Gcn_Model.constraints b)) eqn:E3; [|discriminate H]. cbn [bind] in H |- *.
  destruct (map_ok _ (Gcn_Model.identities b)) eqn:E4; [|discriminate H]. cbn [bind] in H |- *.
  destruct (map_ok _ (calibration_equations b)) eqn:E5; [|discriminate H]. cbn [bind] in H. injection H as <-.
  cbn [c_definitions c_objective c_constraints c_identities c_calibration].
  apply map_ok_F2 in E1, E2, E3, E4, E5. refine (conj E1 (conj E2 (conj E3 (conj E4 (conj _ eq_refl))))).
  exists (calibration_equations b). split; [apply among_cal|exact E5].
Qed.
(* get_block gives the first block of the name. *)
Theorem C153_get_block name (bs : list (Gcn_Model.block F)) b :
  get_block name bs = Some b <-> first_such (fun x => Gcn_Model.b_name x = name) bs b.
Proof.
  induction bs as [|x bs IH]; cbn [get_block].
  - split; [discriminate|]. intros (a & r & E & _). destruct a; discriminate E.
  - destruct (chars_eqb (Gcn_Model.b_name x) name) eqn:E.
    + apply chars_eqb_eq in E. split.
      * intros K. injection K as <-. exists [], bs. split; [reflexivity|split; [exact E|intros y []]].
      * intros ([|z a] & r & K & Hp & Ha); cbn [app] in K; injection K as -> ->; [reflexivity|]. destruct (Ha z (or_introl eq_refl) E).
    + apply chars_eqb_neq in E. rewrite IH. split.
      * intros (a & r & -> & Hp & Ha). exists (x :: a), r. split; [reflexivity|split; [exact Hp|]]. intros y [<-|Hy]; [exact E|auto].
      * intros ([|z a] & r & K & Hp & Ha); cbn [app] in K; injection K as -> ->; [contradiction|].
        exists a, r. split; [reflexivity|split; [exact Hp|]]. intros y Hy. apply Ha. now right.
Qed.
(* The equations of the file are those of its blocks, in order, the calibrations left out; its variables and parameters are exactly
   those written in these equations, each once. *)
Theorem C153_all (m : Gcn_Model.gmodel F) :
  all_equations m = flat_map block_equations (Gcn_Model.blocks m) /\
  (NoDup (all_variables m) /\ forall v, In v (all_variables m) <->
     exists q, In q (all_equations m) /\ (In v (occs (Gcn_Model.lhs q)) \/ In v (occs (Gcn_Model.rhs q)))) /\
  (NoDup (all_parameters m) /\ forall n, In n (all_parameters m) <->
     exists q, In q (all_equations m) /\ (written_parameter n (Gcn_Model.lhs q) \/ written_parameter n (Gcn_Model.rhs q))).
Proof.
  refine (conj _ (conj _ _)).
  - unfold all_equations. assert (G : forall (bs : list (Gcn_Model.block F)) acc, fold_left (fun equations b => equations ++ Gcn_Model.definitions b ++ Gcn_Model.objective b ++
      Gcn_Model.constraints b ++ Gcn_Model.identities b) bs acc = acc ++ flat_map block_equations bs).
    { induction bs as [|b bs IH]; intros acc; cbn [fold_left flat_map]; [now rewrite app_nil_r|]. rewrite IH, <- app_assoc. reflexivity. }
    apply G.
  - unfold all_variables. generalize (all_equations m) as l. intros l.
    assert (G : forall s, NoDup s -> let s' := fold_left (fun s q => collect_variables (collect_variables s (Gcn_Model.lhs q)) (Gcn_Model.rhs q)) l s in
       NoDup s' /\ forall v, In v s' <-> In v s \/ exists q, In q l /\ (In v (occs (Gcn_Model.lhs q)) \/ In v (occs (Gcn_Model.rhs q)))).
    { cbv zeta. induction l as [|q l IH]; intros s H; cbn [fold_left].
      - split; [exact H|]. intros v. split; [auto|intros [K|(q & [] & _)]; exact K].
      - destruct (collect_variables_spec (Gcn_Model.lhs q) s H) as (N1 & M1). destruct (collect_variables_spec (Gcn_Model.rhs q) _ N1) as (N2 & M2).
        destruct (IH _ N2) as (N & M). split; [exact N|]. intros v. rewrite M, M2, M1. split.
        + intros [[[K|K]|K]|(x & Hx & K)]; auto; right; [exists q|exists q|exists x]; cbn [In]; auto.
        + intros [K|(x & [<-|Hx] & K)]; auto; [tauto|right; eauto]. }
    destruct (G [] (NoDup_nil _)) as (N & M). split; [exact N|]. intros v. rewrite M. cbn [In]. intuition.
  - unfold all_parameters. generalize (all_equations m) as l. intros l.
    assert (G : forall s, NoDup s -> let s' := fold_left (fun s q => collect_parameters (collect_parameters s (Gcn_Model.lhs q)) (Gcn_Model.rhs q)) l s in
       NoDup s' /\ forall v, In v s' <-> In v s \/ exists q, In q l /\ (written_parameter v (Gcn_Model.lhs q) \/ written_parameter v (Gcn_Model.rhs q))).
    { cbv zeta. induction l as [|q l IH]; intros s H; cbn [fold_left].
      - split; [exact H|]. intros v. split; [auto|intros [K|(q & [] & _)]; exact K].
      - destruct (collect_parameters_spec (Gcn_Model.lhs q) s H) as (N1 & M1). destruct (collect_parameters_spec (Gcn_Model.rhs q) _ N1) as (N2 & M2).
        destruct (IH _ N2) as (N & M). split; [exact N|]. intros v. rewrite M, M2, M1. split.
        + intros [[[K|K]|K]|(x & Hx & K)]; auto; right; [exists q|exists q|exists x]; cbn [In]; auto.
        + intros [K|(x & [<-|Hx] & K)]; auto; [tauto|right; eauto]. }
    destruct (G [] (NoDup_nil _)) as (N & M). split; [exact N|]. intros v. rewrite M. cbn [In]. intuition.
Qed.
(* The variables of a block, for this helper: its controls and whatever stands alone on the left of an equation, brought to today. *)
Theorem C153_block_variables (b : Gcn_Model.block F) vs sh : ast_block_to_variables_and_shocks whole lit b = Ok (vs, sh) ->
  NoDup vs /\ NoDup sh /\
  (forall x, In x vs <-> exists n t, x = SDate n 0 /\
     (In (n, t) (Gcn_Model.controls b) \/ exists q, In q (block_equations b) /\ alone n t (Gcn_Model.lhs q))) /\
  (forall x, In x sh <-> exists n t, x = SDate n 0 /\ In (n, t) (Gcn_Model.shocks b)).
Proof.
  unfold ast_block_to_variables_and_shocks. intros H.
  destruct (map_ok _ (Gcn_Model.definitions b ++ Gcn_Model.identities b)) as [l1|] eqn:E1; [|discriminate H]. cbn [bind] in H.
  destruct (map_ok _ (Gcn_Model.objective b)) as [l2|] eqn:E2; [|discriminate H]. cbn [bind] in H.
  destruct (map_ok _ (Gcn_Model.constraints b)) as [l3|] eqn:E3; [|discriminate H]. cbn [bind] in H. injection H as <- <-.
  destruct (as_set_spec (flat_map today (map (fun v => Sy (convert_var v)) (Gcn_Model.controls b) ++ l1 ++ l2 ++ l3))) as (N1 & M1).
  destruct (as_set_spec (flat_map today (map (fun v => Sy (convert_var v)) (Gcn_Model.shocks b)))) as (N2 & M2).
  assert (T : forall x y, In x (today y) <-> exists n t, x = SDate n 0 /\ Ok y = convert whole lit (Var n t)).
  { intros x y. split.
    - destruct y as [z0|s|a0 a1|a0 a1|a0|f0 k0 a0]; try (intros []). destruct s as [n|n z|n]; (intros [<-|[]] || intros []).
      + exists n, (TI z). split; reflexivity.
      + exists n, TIss. split; reflexivity.
    - intros (n & [z|] & -> & E); cbn in E; injection E as ->; now left. }
  assert (V : forall n t n' t', Ok (Sy (convert_var (n, t))) = convert whole lit (Var n' t') <-> (n, t) = (n', t')).
  { intros n [z|] n' [z'|]; cbn; split; congruence. }
  assert (C : forall vars x, In x (flat_map today (map (fun v => Sy (convert_var v)) vars)) <-> exists n t, x = SDate n 0 /\ In (n, t) vars).
  { intros vars x. rewrite in_flat_map. split.
    - intros (y & Hy & Hx). apply in_map_iff in Hy as ([n t] & <- & Hv). apply T in Hx as (n' & t' & -> & E). apply V in E. injection E as -> ->. eauto.
    - intros (n & t & -> & Hv). exists (Sy (convert_var (n, t))). split; [apply in_map_iff; exists (n, t); auto|]. apply T. exists n, t. split; [reflexivity|now apply V]. }
  assert (L : forall qs l, map_ok (fun q => convert whole lit (Gcn_Model.lhs q)) qs = Ok l -> forall x, In x (flat_map today l) <->
      exists n t, x = SDate n 0 /\ exists q, In q qs /\ alone n t (Gcn_Model.lhs q)).
  { intros qs l E x. apply map_ok_F2 in E. rewrite in_flat_map. split.
    - intros (y & Hy & Hx). apply T in Hx as (n & t & -> & Hx). exists n, t. split; [reflexivity|].
      clear -E Hy Hx. induction E as [|q z qs l Hq E IH]; [destruct Hy|]. destruct Hy as [->|Hy].
      + exists q. split; [now left|]. apply (alone_iff whole lit). congruence.
      + destruct (IH Hy) as (q' & Hq' & K). exists q'. split; [now right|exact K].
    - intros (n & t & -> & q & Hq & K).
      assert (Y : exists y, In y l /\ convert whole lit (Gcn_Model.lhs q) = Ok y).
      { clear -E Hq. induction E as [|q0 z qs l H0 E IH]; [destruct Hq|]. destruct Hq as [->|Hq]; [exists z; split; [now left|exact H0]|].
        destruct (IH Hq) as (y & Hy & K). exists y. split; [now right|exact K]. }
      destruct Y as (y & Hy & K'). exists y. split; [exact Hy|]. apply T. exists n, t. split; [reflexivity|]. apply (alone_iff whole lit) in K. congruence. }
  refine (conj N1 (conj N2 (conj _ _))).
  - intros x. rewrite M1, !flat_map_app, !in_app_iff, C, (L _ _ E1), (L _ _ E2), (L _ _ E3). unfold block_equations. split.
    + intros [(n & t & -> & K)|[(n & t & -> & q & Hq & K)|[(n & t & -> & q & Hq & K)|(n & t & -> & q & Hq & K)]]]; exists n, t; (split; [reflexivity|]);
        [now left| | |]; right; exists q; (split; [|exact K]); rewrite ?in_app_iff in *; tauto.
    + intros (n & t & -> & [K|(q & Hq & K)]); [left; eauto|right]. rewrite !in_app_iff in Hq.
      destruct Hq as [Hq|[Hq|[Hq|Hq]]]; [left|right; left|right; right|left]; exists n, t; (split; [reflexivity|]); exists q; rewrite ?in_app_iff; auto.
  - intros x. rewrite M2. apply C.
Qed.
End T.

(* The calibration of a block: each parameter has the value of the last item that gives it one (an equation that is not calibrating, or a
   prior with an initial value); each calibrated parameter the sides of its last calibrating equation; each prior is the last one. *)
Section Cal.
Context {F : Type}.
Variables (whole : F -> result (option Z)) (lit : F -> chars) (show : sx -> chars).
Notation convert := (Load_Model.convert whole lit).
Inductive gives (n : chars) : Gcn_Model.item F -> pvalue -> Prop :=
| gives_eqn q l r : Gcn_Model.calibrating q = None -> convert (Gcn_Model.lhs q) = Ok l -> show l = n -> convert (Gcn_Model.rhs q) = Ok r ->
    gives n (Gcn_Model.IEqn q) (Expression r)
| gives_dist d v : Gcn_Model.d_par d = n -> Gcn_Model.d_init d = Some v -> gives n (Gcn_Model.IDist d) (Initial v).
Inductive calibrates (n : chars) : Gcn_Model.item F -> sx * sx -> Prop :=
| calibrates_eqn q l r : Gcn_Model.calibrating q = Some n -> convert (Gcn_Model.lhs q) = Ok l -> convert (Gcn_Model.rhs q) = Ok r ->
    calibrates n (Gcn_Model.IEqn q) (l, r).
Inductive prior_of (n : chars) : Gcn_Model.item F -> Gcn_Model.dist F -> Prop :=
| prior_dist d : Gcn_Model.d_par d = n -> prior_of n (Gcn_Model.IDist d) d.
(* the last item of l for which R holds gives v *)
Definition last_gives {V} (R : Gcn_Model.item F -> V -> Prop) (l : list (Gcn_Model.item F)) (v : V) : Prop :=
  exists i, last_such (fun x => exists w, R x w) l i /\ R i v.

Lemma last_gives_snoc {V} (R : Gcn_Model.item F -> V -> Prop) l i v : (forall w w', R i w -> R i w' -> w = w') ->
  (last_gives R (l ++ [i]) v <-> R i v \/ (last_gives R l v /\ forall w, ~ R i w)).
Proof.
  intros D. split.
  - intros (x & Hx & Hv). apply last_app_inv in Hx as [Hx|[Hx Hn]].
    + destruct Hx as ([|z a] & r & E & Hp & _); cbn [app] in E; injection E as -> E; [left; exact Hv|]. destruct a; discriminate E.
    + right. split; [exists x; auto|]. intros w K. apply (Hn i); [now left|eauto].
  - intros [H|[(x & Hx & Hv) Hn]].
    + exists i. split; [apply last_snoc; eauto|exact H].
    + exists x. split; [|exact Hv]. apply last_app_l; [exact Hx|]. intros y [<-|[]] (w & K). now apply (Hn w).
Qed.
Theorem C153_calibration (b : Gcn_Model.block F) params calibs dists : ast_block_to_calibration whole lit show b = Ok (params, calibs, dists) ->
  (forall n v, dget chars_eqb n params = Some v <-> last_gives (gives n) (Gcn_Model.calibration b) v) /\
  (forall n v, dget sym_eqb (SPar n) calibs = Some v <-> last_gives (calibrates n) (Gcn_Model.calibration b) v) /\
  (forall n v, dget chars_eqb n dists = Some v <-> last_gives (prior_of n) (Gcn_Model.calibration b) v).
Proof.
  unfold ast_block_to_calibration. generalize (Gcn_Model.calibration b) as l. intros l. revert params calibs dists.
  assert (Nil : forall V (R : Gcn_Model.item F -> V -> Prop) v, ~ last_gives R [] v).
  { intros V R v (i & ([|z a] & r & E & _) & _); discriminate E. }
  induction l as [|i l IH] using rev_ind; intros params calibs dists.
  - cbn [fold_left]. intros H. injection H as <- <- <-. cbn [dget]. refine (conj _ (conj _ _)); intros n v; (split; [discriminate|]); intros K; destruct (Nil _ _ _ K).
  - rewrite fold_left_app. cbn [fold_left]. intros H. unfold calibrate in H at 1.
    destruct (fold_left (calibrate whole lit show) l (Ok ([], [], []))) as [[[p c] d]|]; [|discriminate H]. cbn [bind] in H.
    destruct (IH _ _ _ eq_refl) as (I1 & I2 & I3). clear IH.
    destruct i as [x|q].
    + injection H as <- <- <-. refine (conj _ (conj _ _)); intros n v.
      * rewrite last_gives_snoc by (intros w w' A B; inversion A; inversion B; congruence). rewrite <- I1.
        destruct (Gcn_Model.d_init x) as [w|] eqn:Ew.
        -- rewrite (dget_dset chars_eqb chars_eqb_eq). destruct (chars_eqb n (Gcn_Model.d_par x)) eqn:E.
           ++ apply chars_eqb_eq in E. split; [intros K; injection K as <-; left; constructor; auto|].
              intros [K|[_ K]]; [inversion K; congruence|]. destruct (K (Initial w)). now constructor.
           ++ apply chars_eqb_neq in E. split; [intros K; right; split; [exact K|]|].
              ** intros w' G. inversion G. congruence.
              ** intros [G|[K _]]; [inversion G; congruence|exact K].
        -- split; [intros K; right; split; [exact K|]|].
           ++ intros w' G. inversion G. congruence.
           ++ intros [G|[K _]]; [inversion G; congruence|exact K].
      * rewrite last_gives_snoc by (intros w w' A B; inversion A; inversion B; congruence). rewrite <- I2.
        split; [intros K; right; split; [exact K|intros w' G; inversion G]|]. intros [G|[K _]]; [inversion G|exact K].
      * rewrite last_gives_snoc by (intros w w' A B; inversion A; inversion B; congruence). rewrite <- I3.
        rewrite (dget_dset chars_eqb chars_eqb_eq). destruct (chars_eqb n (Gcn_Model.d_par x)) eqn:E.
        -- apply chars_eqb_eq in E. split; [intros K; injection K as <-; left; constructor; auto|].
           intros [K|[_ K]]; [inversion K; congruence|]. destruct (K x). now constructor.
        -- apply chars_eqb_neq in E. split; [intros K; right; split; [exact K|intros w' G; inversion G; congruence]|].
           intros [G|[K _]]; [inversion G; congruence|exact K].
    + destruct (convert (Gcn_Model.lhs q)) as [a|] eqn:Ea; [|discriminate H]. cbn [bind] in H.
      destruct (convert (Gcn_Model.rhs q)) as [r|] eqn:Er; [|discriminate H]. cbn [bind] in H.
      destruct (Gcn_Model.calibrating q) as [k|] eqn:Ek; injection H as <- <- <-; refine (conj _ (conj _ _)); intros n v.
      * rewrite last_gives_snoc by (intros w w' A B; inversion A; inversion B; congruence). rewrite <- I1.
        split; [intros K; right; split; [exact K|intros w' G; inversion G; congruence]|]. intros [G|[K _]]; [inversion G; congruence|exact K].
      * rewrite last_gives_snoc by (intros w w' A B; inversion A; inversion B; congruence). rewrite <- I2.
        rewrite (dget_dset sym_eqb sym_eqb_eq). destruct (sym_eqb (SPar n) (SPar k)) eqn:E.
        -- apply sym_eqb_eq in E. injection E as ->. split; [intros K; injection K as <-; left; now constructor|].
           intros [K|[_ K]]; [inversion K; congruence|]. destruct (K (a, r)). now constructor.
        -- apply sym_eqb_neq in E. split; [intros K; right; split; [exact K|intros w' G; inversion G; congruence]|].
           intros [G|[K _]]; [inversion G; congruence|exact K].
      * rewrite last_gives_snoc by (intros w w' A B; inversion A; inversion B; congruence). rewrite <- I3.
        split; [intros K; right; split; [exact K|intros w' G; inversion G]|]. intros [G|[K _]]; [inversion G|exact K].
      * rewrite last_gives_snoc by (intros w w' A B; inversion A; inversion B; congruence). rewrite <- I1.
        rewrite (dget_dset chars_eqb chars_eqb_eq). destruct (chars_eqb n (show a)) eqn:E.
        -- apply chars_eqb_eq in E. split; [intros K; injection K as <-; left; econstructor; eauto|].
           intros [K|[_ K]]; [inversion K; congruence|]. destruct (K (Expression r)). econstructor; eauto.
        -- apply chars_eqb_neq in E. split; [intros K; right; split; [exact K|intros w' G; inversion G; congruence]|].
           intros [G|[K _]]; [inversion G; congruence|exact K].
      * rewrite last_gives_snoc by (intros w w' A B; inversion A; inversion B; congruence). rewrite <- I2.
        split; [intros K; right; split; [exact K|intros w' G; inversion G; congruence]|]. intros [G|[K _]]; [inversion G; congruence|exact K].
      * rewrite last_gives_snoc by (intros w w' A B; inversion A; inversion B; congruence). rewrite <- I3.
        split; [intros K; right; split; [exact K|intros w' G; inversion G]|]. intros [G|[K _]]; [inversion G|exact K].
Qed.
End Cal.

(* The three computed properties of a parse result. *)
Section CacheT.
Context {Ast Value : Type} (compute : attribute -> Ast -> result Value).
Lemma attribute_eqb_eq x y : attribute_eqb x y = true <-> x = y.
Proof. destruct x, y; cbn; split; congruence. Qed.
Lemma run_cached l : forall p os p', run compute p l = (os, p') -> forall x v, cached p x = Some v -> forall r, In (x, r) os -> r = Ok v.
Proof.
  induction l as [|c l IH]; intros p os p' H x v Hc r Hr; cbn [run] in H.
  - injection H as <- <-. destruct Hr.
  - destruct (act compute p c) as [o p1] eqn:Ea. destruct (run compute p1 l) as [os1 p2] eqn:El. injection H as <- <-.
    assert (C1 : cached p1 x = Some v /\ (forall r0, o = Some (x, r0) -> r0 = Ok v)).
    { destruct c as [y|a]; cbn [act] in Ea.
      - unfold read in Ea. destruct (cached p y) as [w|] eqn:Ey.
        + injection Ea as <- <-. split; [exact Hc|]. intros r0 K. injection K as -> <-. congruence.
        + destruct (compute y (ast p)) as [w|e]; injection Ea as <- <-.
          * cbn [cached]. destruct (attribute_eqb y x) eqn:E; [apply attribute_eqb_eq in E; congruence|]. split; [exact Hc|].
            intros r0 K. injection K as -> <-. congruence.
          * split; [exact Hc|]. intros r0 K. injection K as -> <-. congruence.
      - injection Ea as <- <-. split; [exact Hc|]. intros r0 K. discriminate K. }
    destruct C1 as (C1 & C2). destruct o as [[y r0]|].
    + destruct Hr as [E|Hr]; [injection E as -> ->; now apply C2|]. eapply IH; eauto.
    + eapply IH; eauto.
Qed.
(* Once a property has been read, every later reading gives the same, whatever has been changed in between. *)
Theorem C153_read_once l l' a os p x v : run compute (new a) l = (os, p) -> In (x, Ok v) os ->
  forall r, In (x, r) (fst (run compute p l')) -> r = Ok v.
Proof.
  intros H Hv r Hr. destruct (run compute p l') as [os' p'] eqn:E. cbn [fst] in Hr.
  assert (C : cached p x = Some v).
  { clear E Hr. revert a os p H Hv.
    assert (G : forall p0 os p, run compute p0 l = (os, p) -> In (x, Ok v) os \/ cached p0 x = Some v -> cached p x = Some v).
    { induction l as [|c l0 IH]; intros p0 os p H Hv; cbn [run] in H.
      - injection H as <- <-. destruct Hv as [[]|Hv]. exact Hv.
      - destruct (act compute p0 c) as [o p1] eqn:Ea. destruct (run compute p1 l0) as [os1 p2] eqn:El. injection H as <- <-.
        apply (IH p1 os1 p2 El).
        destruct c as [y|a0]; cbn [act] in Ea.
        + unfold read in Ea. destruct (cached p0 y) as [w|] eqn:Ey.
          * injection Ea as <- <-. destruct Hv as [[K|K]|K]; auto. injection K as -> ->. auto.
          * destruct (compute y (ast p0)) as [w|e]; injection Ea as <- <-; cbn [cached].
            -- destruct Hv as [[K|K]|K]; auto.
               ++ injection K as -> ->. right. destruct (attribute_eqb x x) eqn:Ex; [reflexivity|]. assert (attribute_eqb x x = true) by now apply attribute_eqb_eq. congruence.
               ++ right. destruct (attribute_eqb y x) eqn:Ex; [apply attribute_eqb_eq in Ex; congruence|exact K].
            -- destruct Hv as [[K|K]|K]; auto. discriminate K.
        + injection Ea as <- <-. cbn [cached]. exact Hv. }
    intros a os p H Hv. eapply G; eauto. }
  eapply run_cached; eauto.
Qed.
(* While the file is not changed, every reading is the computed value, or its exception, of the file parsed. *)
Theorem C153_read_fresh l a : (forall c, In c l -> exists x, c = Read x) ->
  forall x r, In (x, r) (fst (run compute (new a) l)) -> r = compute x a.
Proof.
  assert (G : forall p, ast p = a -> (forall y v, cached p y = Some v -> compute y a = Ok v) -> (forall c, In c l -> exists x, c = Read x) ->
    forall x r, In (x, r) (fst (run compute p l)) -> r = compute x a).
  { induction l as [|c l0 IH]; intros p Ha Hc Hl x r Hr; cbn [run] in Hr; [destruct Hr|].
    destruct (Hl c (or_introl eq_refl)) as (y & ->). cbn [act] in Hr. unfold read in Hr.
    destruct (cached p y) as [w|] eqn:Ey.
    - destruct (run compute p l0) as [os p2] eqn:El. cbn [fst] in Hr. destruct Hr as [K|K]; [injection K as <- <-; symmetry; auto|].
      apply (IH p Ha Hc); [intros c Hin; apply Hl; now right|]. rewrite El. exact K.
    - destruct (compute y (ast p)) as [w|e] eqn:Ec.
      + destruct (run compute _ l0) as [os p2] eqn:El. cbn [fst] in Hr. destruct Hr as [K|K]; [injection K as <- <-; congruence|].
        match type of El with run _ ?q _ = _ => refine (IH q Ha _ (fun c Hin => Hl c (or_intror Hin)) x r _); [|rewrite El; exact K] end.
        intros z v. cbn [cached].
        destruct (attribute_eqb y z) eqn:Ez; [apply attribute_eqb_eq in Ez; subst; congruence|apply Hc].
      + destruct (run compute p l0) as [os p2] eqn:El. cbn [fst] in Hr. destruct Hr as [K|K]; [injection K as <- <-; congruence|].
        apply (IH p Ha Hc); [intros c Hin; apply Hl; now right|]. rewrite El. exact K. }
  intros Hl x r. apply G; [reflexivity| |exact Hl]. intros y v K. discriminate K.
Qed.
End CacheT.

(* --- cases, and what is not true --- *)
Definition two_text : string := "
block FIRM {
  definitions { u[] = log(Y[]); };
  identities { Y[] = A[] * K[-1] ^ alpha; };
  shocks { epsilon[]; };
  calibration { beta = 0.99; beta = rho; Y[ss] / K[ss] = 3 -> alpha; delta ~ Beta(mean=0.5, sd=0.1) = 0.4; };
};
block FIRM { identities { X[] = gamma; }; };"%string.
Definition two_model : result (Gcn_Model.gmodel chars) := Gcn_Model.parse_gcn (fun x => x) demo_arith (str two_text).
Definition name_of (x : sx) : chars := match x with Sy (SPar n) => n | _ => [] end.

Theorem C153_case : exists m b1 b2 d c, two_model = Ok m /\ Gcn_Model.blocks m = [b1; b2] /\ model_to_sympy demo_whole demo_lit m = Ok d /\
  map fst d = [str "FIRM"] /\ dget chars_eqb (str "FIRM") d = Some c /\ block_to_sympy demo_whole demo_lit b2 = Ok c /\
  get_block (str "FIRM") (Gcn_Model.blocks m) = Some b1 /\ length (c_identities c) = 1%nat /\ length (Gcn_Model.calibration b1) = 4%nat /\
  all_variables m = [(str "u", TI 0); (str "Y", TI 0); (str "A", TI 0); (str "K", TI (-1)); (str "X", TI 0)] /\
  all_parameters m = [str "alpha"; str "gamma"] /\
  (exists p q x, ast_block_to_calibration demo_whole demo_lit name_of b1 = Ok (p, q, x) /\ map fst p = [str "beta"; str "delta"] /\
     dget chars_eqb (str "beta") p = Some (Expression (Sy (SPar (str "rho")))) /\ map fst q = [SPar (str "alpha")] /\ map fst x = [str "delta"]) /\
  ast_block_to_variables_and_shocks demo_whole demo_lit b1 = Ok ([SDate (str "u") 0; SDate (str "Y") 0], [SDate (str "epsilon") 0]).
Proof.
  destruct two_model as [m|] eqn:E; [|vm_compute in E; discriminate E].
  vm_compute in E. injection E as <-.
  eexists _, _, _, _, _. split; [reflexivity|]. split; [reflexivity|]. split; [vm_compute; reflexivity|].
  split; [reflexivity|]. split; [vm_compute; reflexivity|]. split; [vm_compute; reflexivity|]. split; [reflexivity|]. split; [reflexivity|].
  split; [reflexivity|]. split; [vm_compute; reflexivity|]. split; [vm_compute; reflexivity|].
  split; [|vm_compute; reflexivity]. eexists _, _, _. split; [vm_compute; reflexivity|]. vm_compute. auto.
Qed.
(* the equation shown for a calibrating equation does not follow from it *)
Theorem C153_calibrating_refuted :
  ~ (forall (q : Gcn_Model.equation chars) l r md, equation_to_sympy demo_whole demo_lit q = Ok ((l, r), md) ->
     forall G I p t, usual demo_whole demo_lit G I -> bases_ok demo_whole I p t (Gcn_Model.lhs q) -> bases_ok demo_whole I p t (Gcn_Model.rhs q) ->
       den I p t (Gcn_Model.lhs q) = den I p t (Gcn_Model.rhs q) -> ev (Ralg G) (at_date I p t) l = ev (Ralg G) (at_date I p t) r).
Proof.
  intros H.
  specialize (H (Gcn_Model.Eqn (Var (str "Y") TIss) (Var (str "K") TIss) None (Some (str "alpha")) []) _ _ _ eq_refl
    demo_smooth (demo_interp (fun _ => 1%R) (fun _ => 3%R)) (fun _ _ => 0%R) 0%Z (C133_usual_case _ _) I I eq_refl).
  cbn in H. lra.
Qed.
(* with two blocks of one name, get_block and the converted equations are about different blocks *)
Theorem C153_same_block_refuted :
  ~ (forall (m : Gcn_Model.gmodel chars) d k b c, model_to_sympy demo_whole demo_lit m = Ok d -> dget chars_eqb k d = Some c ->
     get_block k (Gcn_Model.blocks m) = Some b -> block_to_sympy demo_whole demo_lit b = Ok c).
Proof.
  intros H. destruct C153_case as (m & b1 & b2 & d & c & E & _ & Ed & _ & Ec & _ & Eb & _ & _ & V & _).
  pose proof (H m d (str "FIRM") b1 c Ed Ec Eb) as K. clear H.
  destruct two_model as [m'|] eqn:Em; [|discriminate E]. injection E as ->. vm_compute in Em. injection Em as <-.
  vm_compute in Eb. injection Eb as <-. vm_compute in Ed. injection Ed as <-. vm_compute in Ec. injection Ec as <-. vm_compute in K. discriminate K.
Qed.
(* parameters that occur in the calibration only are not among the file's parameters *)
Theorem C153_parameters_refuted :
  ~ (forall (m : Gcn_Model.gmodel chars) b q n, In b (Gcn_Model.blocks m) -> of_block b q ->
     written_parameter n (Gcn_Model.lhs q) \/ written_parameter n (Gcn_Model.rhs q) -> In n (all_parameters m)).
Proof.
  intros H.
  set (q := Gcn_Model.Eqn (Par (str "beta")) (Par (str "rho")) None None [] : Gcn_Model.equation chars).
  set (b := Gcn_Model.Block (str "B") [] [] [] [] [] [] [] [Gcn_Model.IEqn q] : Gcn_Model.block chars).
  specialize (H (Gcn_Model.Model [b] [] [] []) b q (str "rho") (or_introl eq_refl) (or_intror (or_introl eq_refl)) (or_intror (or_introl eq_refl))).
  exact H.
Qed.
(* a variable that is never a control nor alone on a left-hand side is not among a block's variables *)
Theorem C153_block_variables_refuted :
  ~ (forall (b : Gcn_Model.block chars) vs sh q n t, ast_block_to_variables_and_shocks demo_whole demo_lit b = Ok (vs, sh) ->
     In q (block_equations b) -> In (n, t) (occs (Gcn_Model.lhs q) ++ occs (Gcn_Model.rhs q)) -> ~ In (n, TI 0) (Gcn_Model.shocks b) -> In (SDate n 0) vs).
Proof.
  intros H.
  set (q := Gcn_Model.Eqn (Var (str "Y") (TI 0)) (Var (str "K") (TI (-1))) None None [] : Gcn_Model.equation chars).
  set (b := Gcn_Model.Block (str "B") [] [] [] [] [q] [] [] [] : Gcn_Model.block chars).
  specialize (H b _ _ q (str "K") (TI (-1)) eq_refl (or_introl eq_refl) (or_intror (or_introl eq_refl)) (fun x => x)).
  cbn in H. destruct H as [H|[]]. discriminate H.
Qed.
(* a change of the file after a property was read is not seen *)
Theorem C153_changes_refuted :
  ~ (forall (compute : attribute -> nat -> result nat) l a os p x r, run compute (new a) (l ++ [Read x]) = (os ++ [(x, r)], p) -> r = compute x (ast p)).
Proof.
  intros H.
  specialize (H (fun _ a => Ok a) [Read SympyEquations; Change 2] 1 [(SympyEquations, Ok 1)] _ SympyEquations (Ok 1) eq_refl).
  discriminate H.
Qed.
