From Verif Require Import Common Sym_Model Sym_Spec Sym_Proofs Sym_Flatten Sym_More SS_Model SS_Spec SS_Proofs SS_Filter SS_Driver.
From Coq Require Import Permutation Reals Lra.
Local Open Scope list_scope.

(* ---------- dictionaries of values ---------- *)
Lemma vget_In k d x : vget k d = Some x -> In (k, x) d.
Proof.
  unfold vget. destruct (find _ d) as [[k' x']|] eqn:E; [|discriminate]. intros [= <-].
  apply find_some in E as [H E]. cbn in E. apply sym_eqb_eq in E. now subst.
Qed.
Lemma vget_None k d : vget k d = None <-> ~ In k (map fst d).
Proof.
  unfold vget. split.
  - destruct (find _ d) as [?|] eqn:E; [discriminate|]. intros _ Hi. apply in_map_iff in Hi as ([k' x] & <- & Hi).
    apply (find_none _ _ E) in Hi. cbn in Hi. rewrite sym_eqb_refl in Hi. discriminate.
  - intro H. destruct (find _ d) as [[k' x]|] eqn:E; [|reflexivity]. exfalso. apply find_some in E as [Hi E].
    apply sym_eqb_eq in E. cbn in E. subst. apply H. apply in_map_iff. exists (k', x). auto.
Qed.
Lemma vget_NoDup k d x : NoDup (map fst d) -> In (k, x) d -> vget k d = Some x.
Proof.
  induction d as [|[k' x'] d IH]; cbn; intros Hn Hi; [destruct Hi|]. inversion_clear Hn as [|? ? N1 N2].
  unfold vget. cbn [find fst]. destruct (sym_eqb k k') eqn:E.
  - apply sym_eqb_eq in E. subst k'. destruct Hi as [Hi|Hi]; [injection Hi as <-; reflexivity|].
    exfalso. apply N1. apply in_map_iff. exists (k, x). auto.
  - apply sym_eqb_neq in E. destruct Hi as [Hi|Hi]; [injection Hi; congruence|]. apply IH; auto.
Qed.
Lemma vget_app k a b : vget k (a ++ b) = match vget k a with Some x => Some x | None => vget k b end.
Proof.
  unfold vget. induction a as [|[k' x] a IH]; cbn [app find fst]; [reflexivity|].
  destruct (sym_eqb k k'); [reflexivity|exact IH].
Qed.
Lemma vget_vset k k' x d : vget k (vset k' x d) = if sym_eqb k k' then Some x else vget k d.
Proof.
  unfold vget. induction d as [|[j y] d IH]; cbn [vset find fst].
  - destruct (sym_eqb k k'); reflexivity.
  - destruct (sym_eqb k' j) eqn:E.
    + apply sym_eqb_eq in E. subst j. cbn [find fst]. destruct (sym_eqb k k'); reflexivity.
    + cbn [find fst]. destruct (sym_eqb k j) eqn:E2.
      * apply sym_eqb_eq in E2. subst j. rewrite sym_eqb_neq in E. destruct (sym_eqb k k') eqn:E3; [|reflexivity].
        apply sym_eqb_eq in E3. congruence.
      * exact IH.
Qed.
Lemma vget_vupdate_notin k new : forall d, ~ In k (map fst new) -> vget k (vupdate d new) = vget k d.
Proof.
  unfold vupdate. induction new as [|[j y] new IH]; intros d Hn; cbn [fold_left fst snd]; [reflexivity|].
  rewrite IH; [|intro; apply Hn; right; assumption]. rewrite vget_vset.
  destruct (sym_eqb k j) eqn:E; [|reflexivity]. apply sym_eqb_eq in E. exfalso. apply Hn. left. auto.
Qed.
Lemma vget_vupdate_in k x new : forall d, NoDup (map fst new) -> In (k, x) new -> vget k (vupdate d new) = Some x.
Proof.
  unfold vupdate. induction new as [|[j y] new IH]; intros d Hn Hi; [destruct Hi|]. cbn [fold_left fst snd].
  inversion_clear Hn as [|? ? N1 N2]. destruct Hi as [Hi|Hi]; [|apply IH; auto].
  injection Hi as <- <-. change (vget j (vupdate (vset j y d) new) = Some y).
  rewrite vget_vupdate_notin by exact N1. rewrite vget_vset, sym_eqb_refl. reflexivity.
Qed.
Lemma vset_keys k x d j : In j (map fst (vset k x d)) <-> In j (map fst d) \/ j = k.
Proof.
  induction d as [|[i y] d IH]; cbn; [intuition congruence|]. destruct (sym_eqb k i) eqn:E; cbn.
  - apply sym_eqb_eq in E. subst i. intuition congruence.
  - rewrite IH. tauto.
Qed.

(* the valuation described by a dictionary *)
Definition env_of (kw : vals) (s : sym) : R := match vget s kw with Some x => x | None => 0%R end.

Section D.
Variable G : smooth.
Notation EV := (ev (Ralg G)).
Lemma call_spec kw e r : call G kw e = Ok r ->
  r = EV (env_of kw) e /\ (forall s, In s (atoms e) -> In s (map fst kw)).
Proof.
  unfold call, eval_graph. destruct (forallb _ (atoms e)) eqn:F; [|discriminate]. intros [= <-]. split.
  - apply ev_ext. intros s _. reflexivity.
  - intros s Hs. rewrite forallb_forall in F. specialize (F s Hs). destruct (vget s kw) as [x|] eqn:E; [|discriminate].
    apply vget_In in E. apply in_map_iff. exists (s, x). auto.
Qed.
Lemma call_total kw e : (forall s, In s (atoms e) -> In s (map fst kw)) -> call G kw e = Ok (EV (env_of kw) e).
Proof.
  intro H. unfold call, eval_graph. assert (F : forallb (fun s => match vget s kw with Some _ => true | None => false end) (atoms e) = true).
  { apply forallb_forall. intros s Hs. destruct (vget s kw) eqn:E; [reflexivity|]. apply vget_None in E. exfalso. auto. }
  rewrite F. f_equal.
Qed.
Lemma call_err kw e x : call G kw e = Err x -> x = TypeError.
Proof. unfold call. destruct (eval_graph _ _ _ _ _); congruence. Qed.
Lemma call_all_spec kw es : forall rs, call_all G kw es = Ok rs ->
  rs = map (EV (env_of kw)) es /\ (forall e s, In e es -> In s (atoms e) -> In s (map fst kw)).
Proof.
  induction es as [|e es IH]; cbn [call_all]; intros rs H.
  - injection H as <-. split; [reflexivity|]. intros ? ? [].
  - destruct (call G kw e) as [r|] eqn:E; [|discriminate]. cbn [bind] in H.
    destruct (call_all G kw es) as [rs'|] eqn:E'; [|discriminate]. cbn in H. injection H as <-.
    destruct (call_spec _ _ _ E) as [-> H1]. destruct (IH _ eq_refl) as [-> H2]. split; [reflexivity|].
    intros e' s [<-|He] Hs; eauto.
Qed.
Lemma call_all_err kw es x : call_all G kw es = Err x -> x = TypeError.
Proof.
  induction es as [|e es IH]; cbn [call_all]; [discriminate|].
  destruct (call G kw e) as [r|] eqn:E; cbn [bind].
  - destruct (call_all G kw es) as [rs|]; cbn; [discriminate|]. intros [= <-]. now apply IH.
  - intros [= <-]. now apply call_err in E.
Qed.
Lemma small_spec t r : small t r = true <-> (Rabs r <= t)%R.
Proof. unfold small. destruct (Rle_dec (Rabs r) t); split; (easy || (intro; contradiction)). Qed.
Lemma less_spec a b : less a b = true <-> (a < b)%R.
Proof. unfold less. destruct (Rlt_dec a b); split; (easy || (intro; contradiction)). Qed.
Lemma small_all t env es : forallb (small t) (map (EV env) es) = true <-> (forall e, In e es -> (Rabs (EV env e) <= t)%R).
Proof.
  rewrite forallb_forall. setoid_rewrite in_map_iff. split.
  - intros H e He. apply small_spec, H. exists e. auto.
  - intros H r (e & <- & He). apply small_spec. auto.
Qed.

Lemma f_ss_values_spec params d : forall ss, f_ss_values G params d = Ok ss ->
  map fst ss = map fst d /\ (forall k x, In (k, x) ss -> exists e, In (k, e) d /\ x = EV (env_of params) e /\
     forall s, In s (atoms e) -> In s (map fst params)).
Proof.
  induction d as [|[k e] d IH]; cbn [f_ss_values]; intros ss H.
  - injection H as <-. split; [reflexivity|]. intros ? ? [].
  - destruct (call G params e) as [r|] eqn:E; [|discriminate]. cbn [bind] in H.
    destruct (f_ss_values G params d) as [rest|] eqn:E'; [|discriminate]. cbn in H. injection H as <-.
    destruct (IH _ eq_refl) as [H1 H2]. destruct (call_spec _ _ _ E) as [-> H3]. split; [cbn; f_equal; auto|].
    intros k' x [Hi|Hi].
    + injection Hi as <- <-. exists e. split; [left; reflexivity|]. auto.
    + destruct (H2 _ _ Hi) as (e' & He & Hx). exists e'. split; [right; exact He|exact Hx].
Qed.
Lemma f_ss_values_err params d x : f_ss_values G params d = Err x -> x = TypeError.
Proof.
  induction d as [|[k e] d IH]; cbn [f_ss_values]; [discriminate|].
  destruct (call G params e) as [r|] eqn:E; cbn [bind].
  - destruct (f_ss_values G params d) as [rs|]; cbn; [discriminate|]. intros [= <-]. now apply IH.
  - intros [= <-]. now apply call_err in E.
Qed.

Section S.
Variable optimizer : list sx -> vals -> list sym -> list R * bool.
Variable grad_small : list sx -> vals -> bool.
Notation steady_state := (steady_state G optimizer grad_small).

(* --- the analytic path --- *)
Definition all_known (m : ssmodel) : Prop := m_variables m <> [] /\ forall v, In v (m_variables m) -> In (SSs v) (map fst (m_known m)).
Lemma analytic_unfold m params : all_known m -> try_analytic G m params =
  (ss <- f_ss G m params ;; rs <- call_all G (ss ++ params) (m_equations m) ;; Ok (Some (ss, forallb (small atol) rs))).
Proof.
  intros [Hne Hk]. unfold try_analytic. destruct (m_known m) as [|x k] eqn:E.
  - exfalso. destruct (m_variables m) as [|v vs]; [congruence|]. exact (Hk v (or_introl eq_refl)).
  - rewrite <- E in *. destruct (f_ss G m params) as [ss|] eqn:F; [|reflexivity]. cbn [bind].
    unfold f_ss in F. apply f_ss_values_spec in F as [F _]. unfold known_ss_dict in F. rewrite sorted_solution_full in F by exact Hk.
    apply (f_equal (@length _)) in F. rewrite !map_length in F. rewrite F, Nat.eqb_refl. reflexivity.
Qed.
Lemma analytic_ok m params h tol r b : m_linear m = false -> all_known m ->
  steady_state m params h None tol = Ok (r, b) ->
  map fst r = map SSs (m_variables m) /\
  (forall v x, In (SSs v, x) r -> exists e, slookup (SSs v) (m_known m) = Some e /\ x = EV (env_of params) e) /\
  (b = true <-> forall e, In e (m_equations m) -> (Rabs (EV (env_of (r ++ params)) e) <= atol)%R).
Proof.
  intros Hl Hk. unfold SS_Driver.steady_state. rewrite Hl, (analytic_unfold _ _ Hk).
  destruct (f_ss G m params) as [ss|] eqn:F; [|discriminate]. cbn [bind].
  destruct (call_all G (ss ++ params) (m_equations m)) as [rs|] eqn:C; [|discriminate]. cbn [bind]. intros [= <- <-].
  unfold f_ss in F. apply f_ss_values_spec in F as [F1 F2]. unfold known_ss_dict in *.
  rewrite sorted_solution_full in F1 by apply Hk. split; [exact F1|]. split.
  - intros v x Hi. destruct (F2 _ _ Hi) as (e & He & -> & _). apply sorted_solution_In in He as (v' & _ & E & L).
    injection E as <-. eauto.
  - apply call_all_spec in C as [-> _]. apply small_all.
Qed.
Lemma analytic_crash m params h tol e s : m_linear m = false -> all_known m ->
  In e (m_equations m) -> In s (atoms e) -> ~ In s (map fst params) -> ~ In s (map SSs (m_variables m)) ->
  steady_state m params h None tol = Err TypeError.
Proof.
  intros Hl Hk He Hs N1 N2. unfold SS_Driver.steady_state. rewrite Hl, (analytic_unfold _ _ Hk).
  destruct (f_ss G m params) as [ss|x] eqn:F; cbn [bind].
  - destruct (call_all G (ss ++ params) (m_equations m)) as [rs|x] eqn:C; cbn [bind].
    + exfalso. apply call_all_spec in C as [_ C]. specialize (C e s He Hs). rewrite map_app in C.
      apply in_app_or in C as [C|C]; [|contradiction]. unfold f_ss in F. apply f_ss_values_spec in F as [F _].
      unfold known_ss_dict in F. rewrite sorted_solution_full in F by apply Hk. rewrite F in C. contradiction.
    + apply call_all_err in C. now subst.
  - unfold f_ss in F. apply f_ss_values_err in F. now subst.
Qed.
Lemma linear_ok m params h fixed tol : m_linear m = true ->
  steady_state m params h fixed tol = Ok (map (fun v => (SSs v, 0%R)) (m_variables m), true).
Proof. intro H. unfold SS_Driver.steady_state. now rewrite H. Qed.

(* --- names --- *)
Lemma cmem_In x l : cmem x l = true <-> In x l.
Proof.
  unfold cmem. rewrite existsb_exists. split; [intros (y & Hy & E); apply chars_eqb_eq in E; now subst|].
  intro H. exists x. split; [exact H|apply chars_eqb_refl].
Qed.
Lemma has_dup_spec l : has_dup l = false <-> NoDup l.
Proof.
  induction l as [|x l IH]; cbn; [split; [constructor|reflexivity]|]. rewrite orb_false_iff, IH, <- not_true_iff_false, cmem_In.
  split; [intros [? ?]; constructor; assumption|intro H; inversion H; auto].
Qed.
Lemma validate_names_spec m names : validate_names m names = Ok tt <->
  NoDup (map removesuffix_ss names) /\ (forall n, In n names -> In (removesuffix_ss n) (m_variables m)).
Proof.
  unfold validate_names. cbv zeta. rewrite <- has_dup_spec. destruct (has_dup _); [split; [discriminate|intros [[=] _]]|].
  destruct (existsb _ _) eqn:E.
  - split; [discriminate|]. intros [_ H]. apply existsb_exists in E as (n & Hn & E). apply in_map_iff in Hn as (n0 & <- & Hn).
    apply H, cmem_In in Hn. rewrite Hn in E. discriminate.
  - split; [|reflexivity]. intros _. split; [reflexivity|]. intros n Hn.
    destruct (cmem (removesuffix_ss n) (m_variables m)) eqn:C; [now apply cmem_In|]. exfalso.
    rewrite <- not_true_iff_false in E. apply E, existsb_exists. exists (removesuffix_ss n). split; [now apply in_map|].
    now rewrite C.
Qed.
Lemma validate_names_err m names x : validate_names m names = Err x -> x = ValueError.
Proof. unfold validate_names. cbv zeta. destruct (has_dup _); [congruence|]. destruct (existsb _ _); congruence. Qed.
Lemma fixed_keys f : map fst (fixed_vals f) = map (fun n => SSs (removesuffix_ss n)) (map fst f).
Proof. unfold fixed_vals. rewrite !map_map. reflexivity. Qed.
Lemma fixed_nodup f : NoDup (map removesuffix_ss (map fst f)) -> NoDup (map fst (fixed_vals f)).
Proof.
  rewrite fixed_keys, <- (map_map removesuffix_ss SSs). apply FinFun.Injective_map_NoDup. intros a b [=]. auto.
Qed.

(* --- pick --- *)
Lemma pick_spec d keys : forall r, pick d keys = Ok r ->
  map fst r = keys /\ (forall k, In k keys -> exists x, vget k d = Some x) /\ (forall k x, In (k, x) r -> vget k d = Some x).
Proof.
  induction keys as [|k keys IH]; cbn [pick]; intros r H.
  - injection H as <-. split; [reflexivity|]. split; [intros ? []|intros ? ? []].
  - destruct (vget k d) as [v|] eqn:E; [|discriminate]. destruct (pick d keys) as [r'|] eqn:E'; [|discriminate].
    cbn in H. injection H as <-. destruct (IH _ eq_refl) as (H1 & H2 & H3). split; [cbn; f_equal; auto|].
    split; [intros j [<-|Hj]; eauto|]. intros j x [Hi|Hi]; [injection Hi as <- <-; exact E|auto].
Qed.
Lemma pick_get d keys r k : pick d keys = Ok r -> In k keys -> vget k r = vget k d.
Proof.
  intros H Hk. destruct (pick_spec _ _ _ H) as (H1 & H2 & H3). destruct (H2 k Hk) as (x & Hx). rewrite Hx.
  destruct (vget k r) as [y|] eqn:E.
  - apply vget_In, H3 in E. congruence.
  - apply vget_None in E. rewrite H1 in E. contradiction.
Qed.

(* what the run after the analytic attempt looks like when it succeeds *)
Definition fx_of (fixed : option (list (chars * R))) : vals := match fixed with None => [] | Some f => fixed_vals f end.
Lemma run_inv m params h fixed tol r b : m_linear m = false ->
  (fixed = None -> try_analytic G m params = Ok None) ->
  steady_state m params h fixed tol = Ok (r, b) ->
  (match fixed with None => True | Some f => validate_names m (map fst f) = Ok tt /\
       validate_fixed G m params (fixed_vals f) = Ok tt end) /\
  exists p, provided G m params fixed = Ok p /\
  ((vars_to_solve m (fx_of fixed) = [] /\ pick p (ss_variables m) = Ok r /\
    exists rs, call_all G (p ++ params) (m_equations m) = Ok rs /\ b = forallb (small atol) rs) \/
   (vars_to_solve m (fx_of fixed) <> [] /\ exists x ok,
      optimizer (remaining_equations m (fx_of fixed)) (fx_of fixed ++ params) (vars_to_solve m (fx_of fixed)) = (x, ok) /\
      pick (vupdate (combine (vars_to_solve m (fx_of fixed)) x) p) (ss_variables m) = Ok r /\
      postprocess G grad_small (remaining_equations m (fx_of fixed)) (r ++ params) ok tol = Ok b)).
Proof.
  intros Hl Ha. unfold SS_Driver.steady_state. rewrite Hl.
  assert (E1 : (match fixed with None => try_analytic G m params | Some _ => Ok None end) = Ok None).
  { destruct fixed; [reflexivity|auto]. }
  rewrite E1. cbn [bind].
  assert (E2 : forall (K : vals -> result (vals * bool)), (fx <- (match fixed with
               | None => Ok []
               | Some f => _ <- validate_names m (map fst f) ;;
                           _ <- validate_fixed G m params (fixed_vals f) ;;
                           Ok (fixed_vals f)
               end) ;; K fx) = Ok (r, b) ->
     (match fixed with None => True | Some f => validate_names m (map fst f) = Ok tt /\
       validate_fixed G m params (fixed_vals f) = Ok tt end) /\ K (fx_of fixed) = Ok (r, b)).
  { intros K. destruct fixed as [f|]; cbn [bind fx_of]; [|auto].
    destruct (validate_names m (map fst f)) as [[]|]; cbn [bind]; [|discriminate].
    destruct (validate_fixed G m params (fixed_vals f)) as [[]|]; cbn [bind]; [|discriminate]. auto. }
  intro H. apply E2 in H as [Hv H]. split; [exact Hv|]. clear E1 E2 Hv.
  cbv zeta in H. destruct (vars_to_solve m (fx_of fixed)) as [|v vs] eqn:Ev.
  - destruct (provided G m params fixed) as [p|]; [|discriminate]. cbn [bind] in H. exists p. split; [reflexivity|]. left.
    destruct (call_all G (p ++ params) (m_equations m)) as [rs|]; [|discriminate]. cbn [bind] in H.
    destruct (pick p (ss_variables m)) as [r'|]; [|discriminate]. cbn [bind] in H. injection H as <- <-. eauto 7.
  - assert (H' : (let (x, ok) := optimizer (remaining_equations m (fx_of fixed)) (fx_of fixed ++ params) (v :: vs) in
              p <- provided G m params fixed ;;
              r <- pick (vupdate (combine (v :: vs) x) p) (ss_variables m) ;;
              ok' <- postprocess G grad_small (remaining_equations m (fx_of fixed)) (r ++ params) ok tol ;;
              Ok (r, ok')) = Ok (r, b)).
    { destruct h; try exact H; [|discriminate]. destruct (negb _); [discriminate|exact H]. }
    clear H. destruct (optimizer _ _ _) as [x ok] eqn:Eo. destruct (provided G m params fixed) as [p|]; [|discriminate].
    cbn [bind] in H'. exists p. split; [reflexivity|]. right. split; [discriminate|]. exists x, ok. split; [reflexivity|].
    destruct (pick _ _) as [r'|]; [|discriminate]. cbn [bind] in H'.
    destruct (postprocess _ _ _ _ _ _) as [ok'|] eqn:Ep; [|discriminate]. cbn [bind] in H'. injection H' as <- <-. auto.
Qed.

Lemma vars_to_solve_in m fx s : In s (vars_to_solve m fx) <->
  In s (ss_variables m) /\ ~ In s (map fst (m_known m)) /\ ~ In s (map fst fx).
Proof.
  unfold vars_to_solve, merged_keys. rewrite filter_In, negb_true_iff, <- not_true_iff_false, smem_In, in_app_iff. tauto.
Qed.
Lemma combine_keys {A B} (l : list A) (x : list B) k : In k (map fst (combine l x)) -> In k l.
Proof. intro H. apply in_map_iff in H as ([a b] & <- & H). now apply in_combine_l in H. Qed.

Lemma vset_nodup k x d : NoDup (map fst d) -> NoDup (map fst (vset k x d)).
Proof.
  induction d as [|[j y] d IH]; cbn; intro H; [repeat constructor; easy|]. inversion_clear H as [|? ? N1 N2].
  destruct (sym_eqb k j) eqn:E; cbn.
  - apply sym_eqb_eq in E. subst j. constructor; assumption.
  - constructor; [|auto]. rewrite vset_keys. apply sym_eqb_neq in E. intros [Hi|Hi]; [contradiction|congruence].
Qed.
Lemma vupdate_nodup new : forall d, NoDup (map fst d) -> NoDup (map fst (vupdate d new)).
Proof.
  unfold vupdate. induction new as [|[k x] new IH]; intros d H; cbn [fold_left fst snd]; [exact H|].
  apply IH, vset_nodup, H.
Qed.
Lemma sorted_nodup ss vars : NoDup vars -> NoDup (map fst (sorted_solution ss vars)).
Proof.
  unfold sorted_solution. induction vars as [|v vars IH]; intro H; cbn; [constructor|]. inversion_clear H as [|? ? N1 N2].
  rewrite map_app. destruct (slookup (SSs v) ss); cbn; [|auto]. constructor; [|auto].
  intro Hi. apply in_map_iff in Hi as ([k e] & E & Hi). cbn in E. subst k.
  apply sorted_solution_In in Hi as (v' & Hv' & E & _). injection E as <-. contradiction.
Qed.
Lemma provided_spec m params fixed p : NoDup (m_variables m) -> provided G m params fixed = Ok p ->
  (forall f, fixed = Some f -> NoDup (map removesuffix_ss (map fst f))) ->
  NoDup (map fst p) /\
  (forall f, fixed = Some f -> forall n x, In (n, x) f -> vget (SSs (removesuffix_ss n)) p = Some x) /\
  (forall k x, ~ In k (map fst (fx_of fixed)) -> vget k p = Some x ->
     exists e, slookup k (m_known m) = Some e /\ x = EV (env_of params) e /\ forall s, In s (atoms e) -> In s (map fst params)).
Proof.
  intros Hn Hp Hf. unfold provided in Hp.
  set (base := match m_known m with [] => Ok [] | _ => f_ss G m params end) in Hp.
  destruct base as [b0|] eqn:Eb; [|discriminate]. cbn [bind] in Hp. injection Hp as Hp.
  assert (B : NoDup (map fst b0) /\ (forall k x, vget k b0 = Some x ->
     exists e, slookup k (m_known m) = Some e /\ x = EV (env_of params) e /\ forall s, In s (atoms e) -> In s (map fst params))).
  { subst base. destruct (m_known m) as [|y ys] eqn:Ek.
    - injection Eb as <-. split; [constructor|]. intros k x Hx. discriminate.
    - rewrite <- Ek in *. unfold f_ss in Eb. apply f_ss_values_spec in Eb as [B1 B2]. split.
      + rewrite B1. now apply sorted_nodup.
      + intros k x Hx. apply vget_In in Hx. destruct (B2 _ _ Hx) as (e & He & -> & Ha).
        apply sorted_solution_In in He as (v & _ & -> & L). eauto. }
  destruct B as [B1 B2]. destruct fixed as [f|]; subst p.
  - split; [now apply vupdate_nodup|]. split.
    + intros f' [= <-] n x Hi. apply vget_vupdate_in; [apply fixed_nodup; auto|].
      unfold fixed_vals. apply in_map_iff. exists (n, x). auto.
    + intros k x Hk Hx. cbn [fx_of] in Hk. rewrite vget_vupdate_notin in Hx by exact Hk. auto.
  - split; [exact B1|]. split; [discriminate|]. intros k x _. apply B2.
Qed.
(* the value every known or fixed variable receives *)
Lemma run_known m params h fixed tol r b : m_linear m = false -> NoDup (m_variables m) ->
  (fixed = None -> try_analytic G m params = Ok None) ->
  steady_state m params h fixed tol = Ok (r, b) ->
  map fst r = ss_variables m /\
  (forall f, fixed = Some f -> forall n x, In (n, x) f -> vget (SSs (removesuffix_ss n)) r = Some x) /\
  (forall k, In k (ss_variables m) -> In k (map fst (m_known m)) -> ~ In k (map fst (fx_of fixed)) ->
     exists e, slookup k (m_known m) = Some e /\ vget k r = Some (EV (env_of params) e) /\
       forall s, In s (atoms e) -> In s (map fst params)).
Proof.
  intros Hl Hn Ha H. destruct (run_inv _ _ _ _ _ _ _ Hl Ha H) as (Hv & p & Hp & Hr).
  assert (Hf : forall f, fixed = Some f -> NoDup (map removesuffix_ss (map fst f)) /\
     (forall n, In n (map fst f) -> In (removesuffix_ss n) (m_variables m))).
  { intros f ->. destruct Hv as [Hv _]. now apply validate_names_spec. }
  destruct (provided_spec m params fixed p Hn Hp (fun f E => proj1 (Hf f E))) as (P1 & P2 & P3).
  assert (Hpick : exists d, pick d (ss_variables m) = Ok r /\
     forall k, ~ In k (vars_to_solve m (fx_of fixed)) -> vget k d = vget k p).
  { destruct Hr as [(_ & Hr & _)|(_ & x & ok & _ & Hr & _)]; [eauto|].
    eexists. split; [exact Hr|]. intros k Hk.
    destruct (vget k p) as [z|] eqn:Ez.
    - apply vget_vupdate_in; [exact P1|]. now apply vget_In.
    - apply vget_None in Ez. rewrite vget_vupdate_notin by exact Ez. 
      apply vget_None. intro Hc. apply combine_keys in Hc. contradiction. }
  destruct Hpick as (d & Hd & Hdp). destruct (pick_spec _ _ _ Hd) as (D1 & D2 & D3). split; [exact D1|]. split.
  - intros f Ef n x Hi. destruct (Hf f Ef) as [_ Hin]. assert (Hi' : In n (map fst f)) by (apply in_map_iff; exists (n, x); auto).
    assert (Hss : In (SSs (removesuffix_ss n)) (ss_variables m)).
    { unfold ss_variables. apply in_or_app. left. apply in_map. auto. }
    rewrite (pick_get _ _ _ _ Hd Hss), Hdp; [eapply P2; eauto|]. rewrite vars_to_solve_in. intros (_ & _ & N). apply N.
    subst fixed. cbn [fx_of]. rewrite fixed_keys. apply in_map_iff. exists n. auto.
  - intros k Hk Hkn Hkf. destruct (D2 k Hk) as (x & Hx). rewrite (pick_get _ _ _ _ Hd Hk), Hx.
    rewrite Hdp in Hx; [|rewrite vars_to_solve_in; tauto]. destruct (P3 k x Hkf Hx) as (e & L & -> & Ha'). eauto.
Qed.

(* --- the checks --- *)
Lemma validate_fixed_spec m params fx : validate_fixed G m params fx = Ok tt ->
  forall e, In e (m_equations m) -> (forall s, In s (atoms e) -> In s (ss_variables m) -> In s (map fst fx)) ->
  (Rabs (EV (env_of (vupdate fx params)) e) <= atol)%R /\ (forall s, In s (atoms e) -> In s (map fst (vupdate fx params))).
Proof.
  unfold validate_fixed. destruct (call_all _ _ _) as [rs|] eqn:C; [|discriminate]. cbn [bind].
  destruct (forallb (small atol) rs) eqn:F; [|discriminate]. intros _ e He Hd. apply call_all_spec in C as [-> Hin].
  assert (Hfi : In e (filter (fixed_determined m fx) (m_equations m))).
  { apply filter_In. split; [exact He|]. unfold fixed_determined. apply negb_true_iff, not_true_iff_false. intro Hx.
    apply existsb_exists in Hx as (s & Hs & Hx). apply andb_true_iff in Hx as [H1 H2]. apply smem_In in H1.
    rewrite negb_true_iff, <- not_true_iff_false, smem_In in H2. auto. }
  split; [|eauto]. revert e Hfi He Hd. rewrite small_all in F. auto.
Qed.
Lemma env_agree m params fx r : map fst r = ss_variables m -> (forall k, In k (map fst params) -> ~ In k (ss_variables m)) ->
  (forall k x, In (k, x) fx -> In k (ss_variables m) /\ vget k r = Some x) -> NoDup (map fst fx) -> NoDup (map fst params) ->
  forall s, In s (map fst (vupdate fx params)) -> (In s (ss_variables m) -> In s (map fst fx)) ->
  env_of (vupdate fx params) s = env_of (r ++ params) s.
Proof.
  intros Hr Hdis Hfx Nf Np s Hs Hd. unfold env_of. rewrite vget_app.
  destruct (in_dec sym_eq_dec s (map fst params)) as [Hi|Hi].
  - assert (Er : vget s r = None) by (apply vget_None; rewrite Hr; auto). rewrite Er.
    apply in_map_iff in Hi as ([k x] & E & Hi). cbn in E. subst k.
    rewrite (vget_vupdate_in s x params fx Np Hi), (vget_NoDup _ _ _ Np Hi). reflexivity.
  - rewrite vget_vupdate_notin by exact Hi.
    destruct (in_dec sym_eq_dec s (map fst fx)) as [Hf|Hf].
    + apply in_map_iff in Hf as ([k x] & E & Hf). cbn in E. subst k. rewrite (vget_NoDup _ _ _ Nf Hf).
      destruct (Hfx _ _ Hf) as [_ ->]. reflexivity.
    + rewrite (proj2 (vget_None s fx) Hf). assert (Er : vget s r = None) by (apply vget_None; rewrite Hr; auto).
      rewrite Er, (proj2 (vget_None s params) Hi). reflexivity.
Qed.
Lemma fixed_checked m params h f tol r b : m_linear m = false -> NoDup (m_variables m) -> NoDup (map fst params) ->
  (forall k, In k (map fst params) -> ~ In k (ss_variables m)) ->
  steady_state m params h (Some f) tol = Ok (r, b) ->
  (NoDup (map removesuffix_ss (map fst f)) /\ (forall n, In n (map fst f) -> In (removesuffix_ss n) (m_variables m))) /\
  forall e, In e (m_equations m) ->
    (forall s, In s (atoms e) -> In s (ss_variables m) -> exists n, In n (map fst f) /\ s = SSs (removesuffix_ss n)) ->
    (Rabs (EV (env_of (r ++ params)) e) <= atol)%R.
Proof.
  intros Hl Hn Np Hdis H.
  assert (Nf : Some f = None -> try_analytic G m params = Ok None) by discriminate.
  destruct (run_known _ _ _ _ _ _ _ Hl Hn Nf H) as (K1 & K2 & _).
  destruct (run_inv _ _ _ _ _ _ _ Hl Nf H) as ((Hv & Hvf) & _).
  apply validate_names_spec in Hv as [V1 V2]. split; [auto|]. intros e He Hd.
  assert (Hd' : forall s, In s (atoms e) -> In s (ss_variables m) -> In s (map fst (fixed_vals f))).
  { intros s Hs Hv. destruct (Hd s Hs Hv) as (n & Hi & ->). rewrite fixed_keys. apply in_map_iff. eauto. }
  destruct (validate_fixed_spec _ _ _ Hvf e He Hd') as [B Hat].
  rewrite (ev_ext (Ralg G) (env_of (r ++ params)) (env_of (vupdate (fixed_vals f) params))); [exact B|].
  intros s Hs. symmetry. apply (env_agree m); auto.
  - intros k x Hi. unfold fixed_vals in Hi. apply in_map_iff in Hi as ([n y] & E & Hi). injection E as <- <-. split.
    + unfold ss_variables. apply in_or_app. left. apply in_map. apply V2. apply in_map_iff. exists (n, y). auto.
    + apply (K2 f eq_refl n y Hi).
  - now apply fixed_nodup.
Qed.

(* all values resolved: the flag is the residual test *)
Lemma resolved_exact m params h fixed tol r b : m_linear m = false -> NoDup (m_variables m) ->
  (fixed = None -> try_analytic G m params = Ok None) ->
  (forall k, In k (ss_variables m) -> In k (map fst (m_known m)) \/ In k (map fst (fx_of fixed))) ->
  steady_state m params h fixed tol = Ok (r, b) ->
  (b = true <-> forall e, In e (m_equations m) -> (Rabs (EV (env_of (r ++ params)) e) <= atol)%R).
Proof.
  intros Hl Hn Ha Hall H. destruct (run_inv _ _ _ _ _ _ _ Hl Ha H) as (Hv & p & Hp & Hr).
  assert (Hvs : vars_to_solve m (fx_of fixed) = []).
  { destruct (vars_to_solve m (fx_of fixed)) as [|s l] eqn:E; [reflexivity|exfalso].
    assert (Hs : In s (vars_to_solve m (fx_of fixed))) by (rewrite E; left; reflexivity).
    apply vars_to_solve_in in Hs as (H1 & H2 & H3). destruct (Hall s H1); contradiction. }
  destruct Hr as [(_ & Hpk & rs & Hc & ->)|(N & _)]; [|contradiction].
  apply call_all_spec in Hc as [-> Hin]. rewrite small_all.
  destruct (pick_spec _ _ _ Hpk) as (K1 & _ & _).
  assert (Hf : forall f, fixed = Some f -> NoDup (map removesuffix_ss (map fst f)) /\
     (forall n, In n (map fst f) -> In (removesuffix_ss n) (m_variables m))).
  { intros f ->. destruct Hv as [Hv _]. now apply validate_names_spec. }
  destruct (provided_spec m params fixed p Hn Hp (fun f E => proj1 (Hf f E))) as (P1 & P2 & P3).
  assert (Eq : forall s, vget s (p ++ params) = vget s (r ++ params)).
  { intro s. rewrite !vget_app. destruct (in_dec sym_eq_dec s (ss_variables m)) as [Hs|Hs].
    - now rewrite (pick_get _ _ _ _ Hpk Hs).
    - assert (E1 : vget s r = None) by (apply vget_None; now rewrite K1). rewrite E1.
      destruct (vget s p) as [x|] eqn:E2; [exfalso|reflexivity].
      destruct (in_dec sym_eq_dec s (map fst (fx_of fixed))) as [Hi|Hi].
      + destruct fixed as [f|]; [|destruct Hi]. cbn [fx_of] in Hi. rewrite fixed_keys in Hi.
        apply in_map_iff in Hi as (n & <- & Hi). apply Hs. unfold ss_variables. apply in_or_app. left. apply in_map.
        exact (proj2 (Hf f eq_refl) n Hi).
      + assert (Hk : In s (map fst p)) by (apply in_map_iff; exists (s, x); split; [reflexivity|now apply vget_In]).
        (* p contains only model variables and fixed ones *)
        unfold provided in Hp. destruct (match m_known m with [] => Ok [] | _ => f_ss G m params end) as [b0|] eqn:Eb; [|discriminate].
        cbn [bind] in Hp. injection Hp as Hp.
        assert (Eb0 : vget s b0 = Some x).
        { destruct fixed as [f|]; subst p; [|exact E2]. now rewrite vget_vupdate_notin in E2 by exact Hi. }
        destruct (m_known m) as [|y ys] eqn:Ek; [injection Eb as <-; discriminate|]. rewrite <- Ek in *.
        unfold f_ss in Eb. apply f_ss_values_spec in Eb as [_ B2]. apply vget_In in Eb0.
        destruct (B2 _ _ Eb0) as (e & He & _). apply sorted_solution_In in He as (v & Hvv & -> & _).
        apply Hs. unfold ss_variables. apply in_or_app. left. now apply in_map. }
  assert (Eenv : forall e, EV (env_of (p ++ params)) e = EV (env_of (r ++ params)) e).
  { intro e. apply ev_ext. intros s _. unfold env_of. now rewrite Eq. }
  split; intros X e He; [rewrite <- Eenv|rewrite Eenv]; auto.
Qed.

(* --- the numerical path --- *)
Lemma max_abs_bound l r : In r l -> (Rabs r <= max_abs l)%R.
Proof.
  induction l as [|x l IH]; intro Hr; [destruct Hr|]. destruct Hr as [->|Hi]; cbn; [apply Rmax_l|].
  eapply Rle_trans; [now apply IH|apply Rmax_r].
Qed.
Lemma postprocess_spec eqs kw ok tol b : postprocess G grad_small eqs kw ok tol = Ok b -> b = true -> ok = false ->
  forall e, In e eqs -> (Rabs (EV (env_of kw) e) < tol)%R.
Proof.
  unfold postprocess. destruct (call_all G kw eqs) as [rs|] eqn:C; [|discriminate]. cbn [bind].
  apply call_all_spec in C as [Hrs _]. intros H Hb Hok e He. subst ok.
  destruct rs as [|y ys]; [discriminate|].
  assert (Inj : forall a : bool, Ok a = Ok b -> a = b) by congruence. apply Inj in H. rewrite <- H, Hrs in Hb. clear Inj H.
  cbn [orb] in Hb. apply andb_true_iff in Hb as [Hb _]. apply andb_true_iff in Hb as [_ Hb]. apply less_spec in Hb.
  eapply Rle_lt_trans; [|exact Hb]. apply max_abs_bound. now apply in_map.
Qed.
Lemma numeric_partial m params h fixed tol r b : m_linear m = false -> NoDup (m_variables m) ->
  NoDup (map fst (m_known m)) -> closed_values (m_known m) (ss_variables m) ->
  (forall k, In k (map fst params) -> ~ In k (ss_variables m)) ->
  (fixed = None -> try_analytic G m params = Ok None) ->
  (forall x, optimizer (remaining_equations m (fx_of fixed)) (fx_of fixed ++ params) (vars_to_solve m (fx_of fixed)) <> (x, true)) ->
  steady_state m params h fixed tol = Ok (r, b) -> b = true ->
  forall e, In e (m_equations m) ->
    (exists s, In s (atoms e) /\ In s (vars_to_solve m (fx_of fixed))) ->
    (Rabs (EV (env_of (r ++ params)) e) < tol)%R.
Proof.
  intros Hl Hn Nk Hcl Hdis Ha Hopt H Hb e He (s & Hs & Hsv).
  destruct (run_known _ _ _ _ _ _ _ Hl Hn Ha H) as (K1 & _ & K3).
  destruct (run_inv _ _ _ _ _ _ _ Hl Ha H) as (_ & p & _ & Hr).
  destruct Hr as [(Ev & _)|(_ & x & ok & Ho & _ & Hpp)]; [rewrite Ev in Hsv; destruct Hsv|].
  assert (ok = false) by (destruct ok; [exfalso; eapply Hopt; eauto|reflexivity]).
  pose proof (postprocess_spec _ _ _ _ _ Hpp Hb H0) as Small. subst ok. clear Ho Hopt Hpp.
  apply vars_to_solve_in in Hsv as (S1 & S2 & S3).
  unfold remaining_equations in Small. cbv zeta in Small.
  set (fx := fx_of fixed) in *.
  set (sk := filter (fun kv => negb (smem (fst kv) (map fst fx))) (m_known m)) in Small.
  set (known := known_in sk (ss_variables m)) in Small.
  assert (Hk_in : forall k v, In (k, v) known -> In (k, v) (m_known m) /\ In k (ss_variables m) /\ ~ In k (map fst fx)).
  { intros k v Hi. apply known_in_In in Hi as [Hi Hv]. apply filter_In in Hi as [Hi Hf]. cbn [fst] in Hf.
    rewrite negb_true_iff, <- not_true_iff_false, smem_In in Hf. auto. }
  assert (Hm : model_of (Ralg G) (env_of (r ++ params)) known).
  { intros k v Hi. destruct (Hk_in _ _ Hi) as (H1 & H2 & H3).
    destruct (K3 k H2) as (e' & L & Hg & Hat); [apply in_map_iff; exists (k, v); auto|exact H3|].
    assert (e' = v) by (rewrite (slookup_NoDup _ _ _ Nk H1) in L; congruence). subst e'.
    unfold env_of at 1. rewrite vget_app, Hg. apply ev_ext. intros w Hw. unfold env_of. rewrite vget_app.
    assert (Er : vget w r = None) by (apply vget_None; rewrite K1; apply Hdis, Hat, Hw). now rewrite Er. }
  assert (Hrep : In s (atoms (replace_all known e))).
  { unfold replace_all. apply atoms_smap. exists s. split; [exact Hs|].
    destruct (slookup s known) as [w|] eqn:L; [|left; reflexivity]. apply slookup_In, Hk_in in L as (L & _).
    exfalso. apply S2. apply in_map_iff. exists (s, w). auto. }
  rewrite <- (replace_holds (Ralg G) (env_of (r ++ params)) known e Hm).
  assert (Hin : In (replace_all known e) (filter (fun e => existsb (fun s => smem s (ss_variables m) && negb (smem s (map fst known ++ map fst fx)))%bool
                               (atoms e)) (map (replace_all known) (m_equations m)))).
  { apply filter_In. split; [now apply in_map|]. apply existsb_exists. exists s. split; [exact Hrep|].
    apply andb_true_iff. split; [now apply smem_In|]. apply negb_true_iff, not_true_iff_false. rewrite smem_In, in_app_iff.
    intros [Hi|Hi]; [|contradiction]. apply in_map_iff in Hi as ([k v] & E & Hi). cbn in E. subst k. apply S2.
    apply Hk_in in Hi as [Hi _]. apply in_map_iff. exists (s, v). auto. }
  destruct known as [|z zs] eqn:Ez.
  - destruct fx as [|y ys] eqn:Ef.
    + rewrite <- (smap_id e) in Hin. apply Small.
      assert (Ex : replace_all [] e = e) by (unfold replace_all; cbn; apply smap_id). rewrite Ex. exact He.
    + apply Small. exact Hin.
  - apply Small. exact Hin.
Qed.
End S.
End D.

(* ---------- error functions ---------- *)
Lemma sse_cons r l : sse (r :: l) = (r * r + sse l)%R.
Proof. reflexivity. Qed.
Lemma sse_nonneg l : (0 <= sse l)%R.
Proof. induction l as [|r l IH]; [cbn; lra|]. rewrite sse_cons. pose proof (Rle_0_sqr r). unfold Rsqr in H. lra. Qed.
Lemma sse_zero l : sse l = 0%R <-> Forall (fun r => r = 0%R) l.
Proof.
  induction l as [|r l IH]; [split; [constructor|reflexivity]|]. rewrite sse_cons. pose proof (sse_nonneg l). pose proof (Rle_0_sqr r) as Hr.
  unfold Rsqr in Hr. split.
  - intro H0. assert (r * r = 0)%R by lra. constructor; [|apply IH; lra]. now apply Rsqr_0_uniq.
  - intro F. inversion_clear F as [|? ? -> F']. apply IH in F'. lra.
Qed.
Lemma error_zero f l : l <> [] -> (error_from_resid f l = 0%R <-> Forall (fun r => r = 0%R) l).
Proof.
  intro Hne. destruct f; cbn [error_from_resid].
  - apply sse_zero.
  - rewrite <- sse_zero. assert (INR (length l) <> 0%R) by (apply not_0_INR; destruct l; [congruence|cbn; lia]).
    split; intro Hz; [|rewrite Hz; field; assumption].
    apply (f_equal (Rmult (INR (length l)))) in Hz. rewrite Rmult_0_r in Hz. rewrite <- Hz. field. assumption.
  - clear Hne. assert (N : forall l, (0 <= fold_right (fun r acc => Rabs r + acc) 0 l)%R).
    { induction l0 as [|r l0 IH]; cbn; [lra|]. pose proof (Rabs_pos r). lra. }
    induction l as [|r l IH]; cbn; [split; [constructor|reflexivity]|]. specialize (N l). pose proof (Rabs_pos r). split.
    + intro Hz. constructor; [|apply IH; lra]. destruct (Req_dec r 0) as [E|E]; [exact E|]. apply Rabs_pos_lt in E. lra.
    + intro F. inversion_clear F as [|? ? -> F']. apply IH in F'. rewrite Rabs_R0. lra.
  - rewrite <- sse_zero. split; intro Hz; [now apply sqrt_eq_0 in Hz; [|apply sse_nonneg]|rewrite Hz; apply sqrt_0].
Qed.
Lemma error_nonneg f l : (0 <= error_from_resid f l)%R.
Proof.
  destruct f; cbn [error_from_resid].
  - apply sse_nonneg.
  - destruct l as [|r l]; [cbn; unfold Rdiv; rewrite Rmult_0_l; lra|]. apply Rmult_le_pos; [apply sse_nonneg|].
    apply Rlt_le, Rinv_0_lt_compat, lt_0_INR. cbn. lia.
  - induction l as [|r l IH]; cbn; [lra|]. pose proof (Rabs_pos r). lra.
  - apply sqrt_pos.
Qed.
