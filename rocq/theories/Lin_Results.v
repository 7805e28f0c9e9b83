(* The derivative theorem, flags, caches. *)
From Verif Require Import Common Sort_Lib Sym_Model Sym_Spec Sym_Proofs Sym_More Sym_Flatten Build_Model Build_Proofs Build_Order Lin_Model Lin_Spec Lin_Proofs Lin_Main.
From Coq Require Import Permutation Sorted Reals Lra.
Local Open Scope list_scope.

Section Deriv.
Variable G : smooth.
Notation evr := (ev (Ralg G)).
Lemma level_ok eq pt x : defined G pt eq -> level_derivative G eq pt x (evr pt (diff x eq)).
Proof. intro H. unfold level_derivative. now apply derivable_diff. Qed.
Lemma log_ok eq pt x : defined G pt eq -> (0 < pt x)%R -> log_derivative G eq pt x (evr pt (diff x eq) * pt x)%R.
Proof.
  intros H Hx. unfold log_derivative.
  pose proof (derivable_pt_lim_comp exp (fun y => evr (with_value pt x y) eq) (ln (pt x)) (exp (ln (pt x))) (evr pt (diff x eq))) as C.
  rewrite exp_ln in C by exact Hx. apply C.
  - rewrite <- (exp_ln (pt x)) at 2 by exact Hx. apply derivable_pt_lim_exp.
  - now apply derivable_diff.
Qed.
End Deriv.
Lemma entry_map2 {A B C} (f : A -> B -> C) (rows : list A) (cols : list B) i j a b :
  nth_error rows i = Some a -> nth_error cols j = Some b -> entry (map (fun a => map (f a) cols) rows) i j = Some (f a b).
Proof. intros H1 H2. unfold entry. rewrite nth_error_map, H1. cbn. rewrite nth_error_map, H2. reflexivity. Qed.
Lemma shape_map2 {A B C} (f : A -> B -> C) (rows : list A) (cols : list B) : has_shape (map (fun a => map (f a) cols) rows) (length rows) (length cols).
Proof. split; [apply map_length|]. intros row H. apply in_map_iff in H as (a & <- & _). apply map_length. Qed.

Section Main.
Variable G : smooth.
Variable ord : set_order.
Hypothesis Ho : set_order_ok ord.
Variable simp : sx -> sx.
Hypothesis Hs : simp_ok simp.
Variables f_ss solve_ss : list (chars * R) -> result (list (chars * R)).
Variable m : lmodel.
Hypothesis Hw : well_formed m.
Notation evr := (ev (Ralg G)).
Let shock_syms := map (fun s => SDate s 0) (l_shocks m).

Lemma linearize_inv a A B C D : linearize G ord simp f_ss solve_ss m a = Ok (A, B, C, D) ->
  exists ss flags gs, steady_of f_ss solve_ss m a = Ok ss /\ a_order a = 1%nat /\
    make_flags (l_vars m) (l_calibrated m) ss (a_log a && negb (l_linear m)) (not_ll a) (a_neg a) = Ok flags /\
    linearize_graphs ord simp (l_vars m) (l_shocks m) (l_eqs m) (eq_order (from_model (l_vars m) (l_eqs m))) (var_order (from_model (l_vars m) (l_eqs m))) = Ok gs /\
    (forall v, In v (l_vars m) -> rget v (strip_keys ss) <> None) /\
    (forall n, In n (param_names m gs) -> rget n (a_params a) <> None) /\
    A = jac G m ss (a_params a) (map (fun v => SDate v (-1)) (l_vars m)) (sc_of m (loglin_vars (l_vars m) flags) ss (a_params a)) /\
    B = jac G m ss (a_params a) (map (fun v => SDate v 0) (l_vars m)) (sc_of m (loglin_vars (l_vars m) flags) ss (a_params a)) /\
    C = jac G m ss (a_params a) (map (fun v => SDate v 1) (l_vars m)) (sc_of m (loglin_vars (l_vars m) flags) ss (a_params a)) /\
    D = map (fun eq => map (fun v => evr (ss_point m ss (a_params a)) (diff v eq)) shock_syms) (l_eqs m).
Proof.
  unfold linearize. destruct (Nat.eqb (a_order a) 1) eqn:Eo; [|discriminate]. cbn [negb]. apply Nat.eqb_eq in Eo.
  destruct (steady_of f_ss solve_ss m a) as [ss|e] eqn:Ess; [|discriminate]. cbn [bind].
  destruct (make_flags _ _ _ _ _ _) as [flags|e] eqn:Ef; [|discriminate]. cbn [bind].
  destruct (linearize_graphs _ _ _ _ _ _ _) as [gs|e] eqn:Eg; [|discriminate]. cbn [bind].
  rewrite (evaluate_spec G ord Ho simp Hs m (proj1 Hw) _ _ _ _ Eg).
  destruct (need (strip_keys ss) (l_vars m)) as [x|] eqn:N1; [|discriminate]. cbn [bind].
  destruct (need (a_params a) (param_names m gs)) as [y|] eqn:N2; [|discriminate]. cbn [bind].
  intros [= <- <- <- <-]. exists ss, flags, gs. repeat (split; [reflexivity || assumption|]).
  split; [exact (need_inv _ _ _ N1)|]. split; [exact (need_inv _ _ _ N2)|]. repeat split.
Qed.
Lemma graphs_contain gs eq t v : linearize_graphs ord simp (l_vars m) (l_shocks m) (l_eqs m) (eq_order (from_model (l_vars m) (l_eqs m))) (var_order (from_model (l_vars m) (l_eqs m))) = Ok gs ->
  In eq (l_eqs m) -> (In v (l_vars m) /\ (t = -1 \/ t = 0 \/ t = 1)%Z \/ In v (l_shocks m) /\ t = 0%Z) ->
  In (simp (eq_to_ss ord (diff (SDate v t) eq) shock_syms)) (concat (concat gs)).
Proof.
  intros Hg He Hv. destruct (graphs_spec ord simp m (proj1 Hw) _ eq_refl) as (eqs' & vs' & _ & _ & P1 & P2 & Hg').
  rewrite Hg in Hg'. injection Hg' as ->. cbn [map concat]. rewrite !concat_app.
  assert (X : forall wrt, In (SDate v t) wrt -> In (simp (eq_to_ss ord (diff (SDate v t) eq) shock_syms)) (concat (full ord simp shock_syms (eqs', wrt)))).
  { intros wrt Hi. apply in_concat. exists (map (fun v => simp (eq_to_ss ord (diff v eq) shock_syms)) wrt). split.
    - unfold full. cbn. apply in_map_iff. exists eq. split; [reflexivity|]. now apply (Permutation_in _ (Permutation_sym P1)).
    - apply in_map_iff. exists (SDate v t). auto. }
  rewrite !in_app_iff.
  destruct Hv as [[Hv Ht]|[Hv ->]].
  - assert (Hv' : In v vs') by now apply (Permutation_in _ (Permutation_sym P2)).
    destruct Ht as [->|[->| ->]]; [left|right; left|right; right; left]; apply X; apply in_map_iff; eauto.
  - do 3 right. left. apply X. unfold shock_syms. apply in_map_iff. eauto.
Qed.
Lemma cell_pt a gs ss pt eq v t :
  linearize_graphs ord simp (l_vars m) (l_shocks m) (l_eqs m) (eq_order (from_model (l_vars m) (l_eqs m))) (var_order (from_model (l_vars m) (l_eqs m))) = Ok gs ->
  (forall v, In v (l_vars m) -> rget v (strip_keys ss) <> None) ->
  (forall n, In n (param_names m gs) -> rget n (a_params a) <> None) ->
  at_rest m ss (a_params a) pt -> In eq (l_eqs m) ->
  (In v (l_vars m) /\ (t = -1 \/ t = 0 \/ t = 1)%Z \/ In v (l_shocks m) /\ t = 0%Z) ->
  evr (ss_point m ss (a_params a)) (diff (SDate v t) eq) = evr pt (diff (SDate v t) eq).
Proof.
  intros Hg H1 H2 Hp He Hv. apply (cell_at_rest G ord Ho simp Hs m Hw ss (a_params a) pt Hp eq (SDate v t) (concat (map atoms (concat (concat gs)))) He H1).
  - intros s Hi. apply in_concat. exists (atoms (simp (eq_to_ss ord (diff (SDate v t) eq) shock_syms))). split; [|exact Hi].
    apply in_map. now apply graphs_contain.
  - exact H2.
Qed.
Lemma in_strip_pt ss params pt v : at_rest m ss params pt -> In v (l_vars m) -> rget v (strip_keys ss) <> None -> value_at m (strip_keys ss) params (SSs v) = pt (SSs v).
Proof.
  intros Hp Hv Hr. cbn. rewrite (proj2 (existsb_chars v (l_vars m)) Hv). destruct (rget v (strip_keys ss)) as [x|] eqn:E; [|congruence].
  symmetry. eapply var_value; eassumption.
Qed.
Definition logged (ll : list chars) (pt : sym -> R) (v : chars) : Prop := In v ll /\ l_negative m v = false /\ (0 < pt (SSs v))%R.
Definition in_levels (ll : list chars) (pt : sym -> R) (v : chars) : Prop :=
  ~ In v ll \/ l_negative m v = true \/ l_positive m v = false /\ (pt (SSs v) <= 0)%R.
Lemma scale_logged ll ss params pt v t : at_rest m ss params pt -> In v (l_vars m) -> rget v (strip_keys ss) <> None ->
  (logged ll pt v -> sc_of m ll ss params (SDate v t) = pt (SSs v)) /\ (in_levels ll pt v -> sc_of m ll ss params (SDate v t) = 1%R).
Proof.
  intros Hp Hv Hr. unfold sc_of, column_scale. cbn [base]. rewrite (in_strip_pt ss params pt v Hp Hv Hr). split.
  - intros (H1 & H2 & H3). rewrite (proj2 (existsb_chars v ll) H1), H2. cbn. destruct (l_positive m v); [reflexivity|].
    destruct (Rlt_dec _ _); [reflexivity|contradiction].
  - intros H. destruct (existsb (chars_eqb v) ll) eqn:E1; cbn; [|reflexivity]. destruct (l_negative m v) eqn:E2; [reflexivity|].
    apply existsb_chars in E1. destruct H as [H|[H|[H1 H2]]]; [contradiction|congruence|]. rewrite H1. destruct (Rlt_dec _ _); [lra|reflexivity].
Qed.

Theorem linearize_derivatives a A B C D pt ss :
  linearize G ord simp f_ss solve_ss m a = Ok (A, B, C, D) -> steady_of f_ss solve_ss m a = Ok ss -> at_rest m ss (a_params a) pt ->
  exists flags,
    make_flags (l_vars m) (l_calibrated m) ss (a_log a && negb (l_linear m)) (not_ll a) (a_neg a) = Ok flags /\
    has_shape A (length (l_eqs m)) (length (l_vars m)) /\ has_shape B (length (l_eqs m)) (length (l_vars m)) /\
    has_shape C (length (l_eqs m)) (length (l_vars m)) /\ has_shape D (length (l_eqs m)) (length (l_shocks m)) /\
    forall i eq, nth_error (l_eqs m) i = Some eq -> defined G pt eq ->
      (forall j v, nth_error (l_vars m) j = Some v -> exists x y z,
         entry A i j = Some x /\ entry B i j = Some y /\ entry C i j = Some z /\
         (logged (loglin_vars (l_vars m) flags) pt v ->
            log_derivative G eq pt (SDate v (-1)) x /\ log_derivative G eq pt (SDate v 0) y /\ log_derivative G eq pt (SDate v 1) z) /\
         (in_levels (loglin_vars (l_vars m) flags) pt v ->
            level_derivative G eq pt (SDate v (-1)) x /\ level_derivative G eq pt (SDate v 0) y /\ level_derivative G eq pt (SDate v 1) z)) /\
      (forall j s, nth_error (l_shocks m) j = Some s -> exists d, entry D i j = Some d /\ level_derivative G eq pt (SDate s 0) d).
Proof.
  intros H Hss Hp. destruct (linearize_inv a A B C D H) as (ss' & flags & gs & H1 & _ & H2 & Hg & H3 & H4 & EA & EB & EC & ED).
  rewrite Hss in H1. injection H1 as <-. exists flags. split; [exact H2|].
  assert (Sh : forall t sc, has_shape (jac G m ss (a_params a) (map (fun v => SDate v t) (l_vars m)) sc) (length (l_eqs m)) (length (l_vars m))).
  { intros t sc. rewrite <- (map_length (fun v => SDate v t) (l_vars m)). apply (shape_map2 (fun eq v => (evr (ss_point m ss (a_params a)) (diff v eq) * sc v)%R)). }
  rewrite EA, EB, EC, ED. repeat (split; [apply Sh|]). split.
  { rewrite <- (map_length (fun s => SDate s 0) (l_shocks m)). apply (shape_map2 (fun eq v => evr (ss_point m ss (a_params a)) (diff v eq))). }
  intros i eq Hi Hd. assert (He : In eq (l_eqs m)) by (eapply nth_error_In; exact Hi). split.
  - intros j v Hj. assert (Hv : In v (l_vars m)) by (eapply nth_error_In; exact Hj).
    set (sc := sc_of m (loglin_vars (l_vars m) flags) ss (a_params a)).
    assert (E : forall t, (t = -1 \/ t = 0 \/ t = 1)%Z -> entry (jac G m ss (a_params a) (map (fun v => SDate v t) (l_vars m)) sc) i j = Some (evr pt (diff (SDate v t) eq) * sc (SDate v t))%R).
    { intros t Ht. unfold jac. rewrite (entry_map2 (fun eq v => (evr (ss_point m ss (a_params a)) (diff v eq) * sc v)%R) _ _ i j eq (SDate v t) Hi).
      - do 2 f_equal. eapply (cell_pt a gs ss pt eq v t); try eassumption. left. auto.
      - rewrite nth_error_map, Hj. reflexivity. }
    eexists _, _, _. rewrite !E by tauto. repeat (split; [reflexivity|]).
    assert (Pt : forall t, pt (SDate v t) = pt (SSs v)) by (intro t; apply (proj1 (proj2 Hp)); exact Hv).
    split; intro L.
    + assert (S : forall t, sc (SDate v t) = pt (SDate v t)) by (intro t; rewrite Pt; eapply scale_logged; eauto).
      rewrite !S. destruct L as (_ & _ & L). repeat split; apply log_ok; try exact Hd; rewrite Pt; exact L.
    + assert (S : forall t, sc (SDate v t) = 1%R) by (intro t; eapply scale_logged; eauto).
      rewrite !S, !Rmult_1_r. repeat split; apply level_ok; exact Hd.
  - intros j s Hj. assert (Hv : In s (l_shocks m)) by (eapply nth_error_In; exact Hj).
    exists (evr pt (diff (SDate s 0) eq)). split; [|apply level_ok; exact Hd].
    rewrite (entry_map2 (fun eq v => evr (ss_point m ss (a_params a)) (diff v eq)) _ shock_syms i j eq (SDate s 0) Hi).
    + f_equal. eapply (cell_pt a gs ss pt eq s 0); try eassumption. right. auto.
    + unfold shock_syms. rewrite nth_error_map, Hj. reflexivity.
Qed.

(* it succeeds when everything it needs is there *)
Lemma linearize_succeeds a ss flags : a_order a = 1%nat -> steady_of f_ss solve_ss m a = Ok ss ->
  make_flags (l_vars m) (l_calibrated m) ss (a_log a && negb (l_linear m)) (not_ll a) (a_neg a) = Ok flags ->
  (forall v, In v (l_vars m) -> exists k x, In (k, x) ss /\ removesuffix k = v) ->
  (forall eq n, In eq (l_eqs m) -> In (SPar n) (atoms eq) -> In n (map fst (a_params a))) ->
  exists r, linearize G ord simp f_ss solve_ss m a = Ok r.
Proof.
  intros H1 H2 H3 H4 H5. unfold linearize. rewrite H1, H2. cbn [Nat.eqb negb bind]. rewrite H3. cbn [bind].
  destruct (graphs_spec ord simp m (proj1 Hw) _ eq_refl) as (eqs' & vs' & _ & _ & P1 & P2 & Hg). rewrite Hg. cbn [bind].
  rewrite (evaluate_spec G ord Ho simp Hs m (proj1 Hw) _ _ _ _ Hg).
  destruct (need_ok (strip_keys ss) (l_vars m)) as (x & ->).
  { intros v Hv E. destruct (H4 v Hv) as (k & y & Hk & <-). apply (proj1 (strip_None _ _) E k y Hk eq_refl). }
  cbn [bind]. match goal with |- context [need ?p ?l] => destruct (need_ok p l) as (y & ->) end; [|cbn; eauto].
  intros n Hn. rewrite rget_None. unfold param_names in Hn. apply in_map_iff in Hn as (s & <- & Hn). apply filter_In in Hn as [Hn Hp].
  apply in_concat in Hn as (l & Hl & Hn). apply in_map_iff in Hl as (e & <- & He). apply in_concat in He as (row & Hrow & He).
  apply in_concat in Hrow as (M & HM & Hrow). intro X.
  assert (Y : forall wrt, In row (full ord simp (map (fun s => SDate s 0) (l_shocks m)) (eqs', wrt)) -> False); [|destruct HM as [<-|[<-|[<-|[<-|[]]]]]; eauto].
  intros wrt Hr. unfold full in Hr. cbn in Hr. apply in_map_iff in Hr as (eq & <- & Heq). apply in_map_iff in He as (v & <- & _).
  apply (Permutation_in _ P1) in Heq.
  apply (proj1 (Hs _)) in Hn. pose proof (cell_atoms ord Ho m Hw eq v s Heq Hn) as Ha.
  destruct s as [n|b t|b]; [|destruct Ha|].
  - apply X. cbn [node_name]. eapply H5; eassumption.
  - cbn in Hp. rewrite (proj2 (existsb_chars b (l_vars m)) Ha) in Hp. discriminate.
Qed.

(* a parameter that the Jacobian really depends on must be given *)
Lemma linearize_needs a ss flags eq v t n : a_order a = 1%nat -> steady_of f_ss solve_ss m a = Ok ss ->
  make_flags (l_vars m) (l_calibrated m) ss (a_log a && negb (l_linear m)) (not_ll a) (a_neg a) = Ok flags ->
  (forall v, In v (l_vars m) -> rget v (strip_keys ss) <> None) ->
  In eq (l_eqs m) -> (In v (l_vars m) /\ (t = -1 \/ t = 0 \/ t = 1)%Z \/ In v (l_shocks m) /\ t = 0%Z) ->
  (exists env env', (forall s, s <> SPar n -> env s = env' s) /\ (forall b t, env (SDate b t) = env (SSs b)) /\
     (forall b, In b (l_shocks m) -> env (SSs b) = 0%R) /\ evr env (diff (SDate v t) eq) <> evr env' (diff (SDate v t) eq)) ->
  ~ In n (map fst (a_params a)) -> linearize G ord simp f_ss solve_ss m a = Err KeyError.
Proof.
  intros H1 H2 H3 H4 He Hv (env & env' & Q1 & Q2 & Q3 & Q4) Hn. unfold linearize. rewrite H1, H2. cbn [Nat.eqb negb bind]. rewrite H3. cbn [bind].
  destruct (graphs_spec ord simp m (proj1 Hw) _ eq_refl) as (eqs' & vs' & _ & _ & P1 & P2 & Hg). rewrite Hg. cbn [bind].
  rewrite (evaluate_spec G ord Ho simp Hs m (proj1 Hw) _ _ _ _ Hg). destruct (need_ok (strip_keys ss) (l_vars m) H4) as (x & ->). cbn [bind].
  erewrite (need_err _ _ n); [reflexivity| |now apply rget_None]. unfold param_names. apply in_map_iff. exists (SPar n). split; [reflexivity|].
  apply filter_In. split; [|reflexivity]. apply in_concat. exists (atoms (simp (eq_to_ss ord (diff (SDate v t) eq) shock_syms))). split.
  - apply in_map. now apply graphs_contain.
  - destruct (in_dec sym_eq_dec (SPar n) (atoms (simp (eq_to_ss ord (diff (SDate v t) eq) shock_syms)))) as [Y|N]; [exact Y|exfalso].
    apply Q4. assert (R : forall env, (forall b t, env (SDate b t) = env (SSs b)) -> (forall b, In b (l_shocks m) -> env (SSs b) = 0%R) ->
      evr env (simp (eq_to_ss ord (diff (SDate v t) eq) shock_syms)) = evr env (diff (SDate v t) eq)).
    { intros e E1 E2. rewrite (proj2 (Hs _)), (eq_to_ss_means ord Ho).
      - apply ev_ext. intros s _. unfold rest_env. destruct s as [k|b q|b]; [reflexivity| |].
        1,2: destruct (in_dec sym_eq_dec (SSs b) (map to_ss_sym shock_syms)) as [F|F].
        1,3: apply shock_syms_ss in F; cbn; rewrite ?E1, (E2 b F); reflexivity.
        + now rewrite E1.
        + reflexivity.
      - unfold shock_syms. intros s H. apply in_map_iff in H as (b & <- & _). eauto. }
    rewrite <- (R env Q2 Q3). rewrite <- (R env').
    + apply ev_ext. intros s Hi. apply Q1. intros ->. contradiction.
    + intros b q. rewrite <- !Q1 by discriminate. apply Q2.
    + intros b Hb. rewrite <- Q1 by discriminate. now apply Q3.
Qed.

(* ---------- caches ---------- *)
Definition caches_ok (c : caches) : Prop :=
  (forall key id gs, In (key, (id, gs)) (c_graphs c) -> (id < c_next c)%nat /\
     linearize_graphs ord simp (l_vars m) (l_shocks m) (l_eqs m) (eq_order (from_model (l_vars m) (l_eqs m))) (var_order (from_model (l_vars m) (l_eqs m))) = Ok gs) /\
  NoDup (map (fun kg => fst (snd kg)) (c_graphs c)) /\
  (forall id ll gs, In (id, (ll, gs)) (c_funs c) -> exists key, In (key, (id, gs)) (c_graphs c) /\ set_eqb ll key = true).
Lemma set_eqb_iff a b : set_eqb a b = true <-> forall x, In x a <-> In x b.
Proof.
  unfold set_eqb. rewrite andb_true_iff, !forallb_forall. split.
  - intros [H1 H2] x. split; intro H; apply existsb_chars; auto.
  - intro H. split; intros x Hx; apply existsb_chars, H; exact Hx.
Qed.
Lemma scale_set_ext ll ll' p n sv v : (forall x, In x ll <-> In x ll') -> column_scale p n ll sv v = column_scale p n ll' sv v.
Proof.
  intro H. unfold column_scale. replace (existsb (chars_eqb v) ll') with (existsb (chars_eqb v) ll); [reflexivity|].
  apply eq_true_iff_eq. rewrite !existsb_chars. apply H.
Qed.
Lemma evaluate_set_ext ll ll' gs eo vo ss params : (forall x, In x ll <-> In x ll') -> evaluate G m ll gs eo vo ss params = evaluate G m ll' gs eo vo ss params.
Proof.
  intro H. unfold evaluate. destruct (need (strip_keys ss) (l_vars m)); cbn [bind]; [|reflexivity].
  destruct (need params _); cbn [bind]; [|reflexivity]. destruct (take (l_vars m) vo) as [vs|]; cbn [bind]; [|reflexivity].
  rewrite (map_ext _ _ (fun v => scale_set_ext ll ll' (l_positive m) (l_negative m) (fun v => value_at m (strip_keys ss) params (SSs v)) v H)). reflexivity.
Qed.
Lemma nodup_id (l : list (list chars * (nat * list (matrix sx)))) k1 k2 id g1 g2 : NoDup (map (fun kg => fst (snd kg)) l) -> In (k1, (id, g1)) l -> In (k2, (id, g2)) l -> k1 = k2.
Proof.
  induction l as [|x l IH]; cbn; intros H H1 H2; [destruct H1|]. inversion H; subst.
  assert (N : forall k g, In (k, (id, g)) l -> fst (snd x) <> id).
  { intros k g Hi E. apply H4. rewrite E. apply in_map_iff. exists (k, (id, g)). auto. }
  destruct H1 as [->|H1], H2 as [E|H2]; [congruence| | |eauto].
  - exfalso. exact (N _ _ H2 eq_refl).
  - subst x. exfalso. exact (N _ _ H1 eq_refl).
Qed.
Lemma run_call_ok c a : caches_ok c -> caches_ok (fst (run_call G ord simp f_ss solve_ss m c a)) /\ snd (run_call G ord simp f_ss solve_ss m c a) = linearize G ord simp f_ss solve_ss m a.
Proof.
  intro Hc. pose proof Hc as (K1 & K2 & K3). unfold run_call, linearize. destruct (Nat.eqb (a_order a) 1); cbn [negb]; [|split; [exact Hc|reflexivity]].
  destruct (steady_of f_ss solve_ss m a) as [ss|e]; cbn [bind]; [|split; [exact Hc|reflexivity]].
  destruct (make_flags _ _ _ _ _ _) as [flags|e]; cbn [bind]; [|split; [exact Hc|reflexivity]].
  set (ll := loglin_vars (l_vars m) flags).
  destruct (find (fun kg => set_eqb ll (fst kg)) (c_graphs c)) as [[key [id gs]]|] eqn:F1.
  - apply find_some in F1 as [F1 F2]. cbn in F2. destruct (K1 _ _ _ F1) as [_ Hg]. rewrite Hg. cbn [bind snd].
    destruct (find (fun kf => Nat.eqb id (fst kf)) (c_funs c)) as [[id' [ll' gs']]|] eqn:F3; cbn [fst snd].
    + apply find_some in F3 as [F3 F4]. cbn in F4. apply Nat.eqb_eq in F4. subst id'. destruct (K3 _ _ _ F3) as (key' & F5 & F6).
      destruct (K1 _ _ _ F5) as [_ Hg']. rewrite Hg in Hg'. injection Hg' as <-. pose proof (nodup_id _ _ _ _ _ _ K2 F1 F5) as E. subst key'.
      split; [exact Hc|]. apply evaluate_set_ext. intro x. rewrite (proj1 (set_eqb_iff _ _) F6 x). symmetry. now apply set_eqb_iff.
    + split; [|reflexivity]. split; [exact K1|]. split; [exact K2|]. cbn. intros id' ll' gs' Hi. apply in_app_or in Hi as [Hi|[[= <- <- <-]|[]]]; [eauto|].
      exists key. auto.
  - destruct (linearize_graphs ord simp _ _ _ _ _) as [gs|e] eqn:Hg; cbn [bind]; [|split; [exact Hc|reflexivity]]. cbn [c_funs].
    assert (KK : caches_ok (Caches (S (c_next c)) (c_graphs c ++ [(ll, (c_next c, gs))]) (c_funs c))).
    { split; [|split].
      - cbn [c_graphs c_next]. intros key id gs' Hi. apply in_app_or in Hi as [Hi|[[= <- <- <-]|[]]]; [destruct (K1 _ _ _ Hi) as [X Y]; split; [lia|exact (eq_trans Hg Y)]|]. split; [lia|exact Hg].
      - cbn [c_graphs]. rewrite map_app. apply NoDup_app_intro; [exact K2|repeat constructor; intros []|]. intros x Hx [<-|[]].
        apply in_map_iff in Hx as ([k [i g]] & E & Hx). cbn in E. destruct (K1 _ _ _ Hx). lia.
      - cbn. intros id ll' gs' Hi. destruct (K3 _ _ _ Hi) as (key & X & Y). exists key. split; [apply in_or_app; now left|exact Y]. }
    destruct (find (fun kf => Nat.eqb (c_next c) (fst kf)) (c_funs c)) as [[id' [ll' gs']]|] eqn:F3.
    + exfalso. apply find_some in F3 as [F3 F4]. cbn in F4. apply Nat.eqb_eq in F4. subst id'. destruct (K3 _ _ _ F3) as (key' & F5 & _).
      destruct (K1 _ _ _ F5). lia.
    + cbn [fst snd]. split; [|reflexivity]. destruct KK as (L1 & L2 & L3). split; [exact L1|]. split; [exact L2|]. cbn. intros id ll' gs' Hi.
      apply in_app_or in Hi as [Hi|[[= <- <- <-]|[]]]; [exact (L3 _ _ _ Hi)|]. exists ll. split; [apply in_or_app; right; left; reflexivity|].
      apply set_eqb_iff. tauto.
Qed.
Lemma run_calls_ok l : forall c, caches_ok c -> snd (run_calls G ord simp f_ss solve_ss m c l) = map (linearize G ord simp f_ss solve_ss m) l.
Proof.
  induction l as [|a l IH]; intros c Hc; [reflexivity|]. cbn [run_calls map]. destruct (run_call_ok c a Hc) as [K1 K2].
  destruct (run_call G ord simp f_ss solve_ss m c a) as [c1 r]. cbn in K1, K2. specialize (IH c1 K1).
  destruct (run_calls G ord simp f_ss solve_ss m c1 l) as [c2 rs]. cbn in *. congruence.
Qed.
Lemma fresh_ok : caches_ok fresh.
Proof. repeat split; cbn; try easy. constructor. Qed.
End Main.

(* ---------- flags ---------- *)
Lemma set_mask_spec f msk : length f = length msk -> set_mask f msk = Ok (map2 orb f msk).
Proof.
  intro L. unfold set_mask. rewrite L, Nat.eqb_refl. destruct (existsb (fun b => b) msk) eqn:E; [reflexivity|]. f_equal.
  revert msk L E. induction f as [|b f IH]; intros [|c msk] L E; cbn in *; try discriminate; [reflexivity|].
  apply orb_false_iff in E as [-> E]. rewrite orb_false_r. f_equal. apply IH; [lia|exact E].
Qed.
Definition flag_of (not_loglin : list chars) (neg_ok : bool) (n : chars) (x : R) : bool :=
  (existsb (chars_eqb n) not_loglin || near_zero x || (negb neg_ok && is_neg x))%bool.
Lemma flags_aligned names not_loglin : forall (ss : list (chars * R)), length names = length ss ->
  map2 orb (map (fun n => existsb (chars_eqb n) not_loglin) names) (map (fun kv => near_zero (snd kv)) ss) =
  map2 (fun n kv => (existsb (chars_eqb n) not_loglin || near_zero (snd kv))%bool) names ss.
Proof. induction names as [|n names IH]; intros [|kv ss] H; cbn in *; try discriminate; [reflexivity|]. f_equal. apply IH. lia. Qed.
Lemma flags_spec vars calib ss not_loglin neg_ok : length ss = length (vars ++ calib) ->
  make_flags vars calib ss true not_loglin neg_ok =
  if existsb (fun n => negb (existsb (chars_eqb n) (vars ++ calib))) not_loglin then Err ValueError
  else Ok (map2 (fun n kv => flag_of not_loglin neg_ok n (snd kv)) (vars ++ calib) ss).
Proof.
  intro L. unfold make_flags. cbn [negb]. destruct (existsb _ not_loglin); [reflexivity|].
  rewrite set_mask_spec by (rewrite !map_length; symmetry; exact L). cbn [bind]. rewrite flags_aligned by (symmetry; exact L).
  destruct neg_ok.
  - f_equal. clear. revert ss. induction (vars ++ calib) as [|n l IH]; intros [|kv ss]; cbn; try reflexivity. unfold flag_of. cbn. rewrite orb_false_r. f_equal. apply IH.
  - rewrite set_mask_spec by (rewrite map2_length, map_length; lia). f_equal. clear. revert ss.
    induction (vars ++ calib) as [|n l IH]; intros [|kv ss]; cbn; try reflexivity. f_equal. apply IH.
Qed.
(* the result seen per variable *)
Lemma combine_map2 (f : chars -> chars * R -> bool) : forall (vars calib : list chars) ss,
  map fst (filter (fun vf => negb (snd vf)) (combine vars (map2 f (vars ++ calib) ss))) =
  map fst (filter (fun vk => negb (f (fst vk) (snd vk))) (combine vars ss)).
Proof.
  induction vars as [|v vars IH]; intros calib [|kv ss]; cbn; try reflexivity.
  destruct (f v kv); cbn; rewrite IH; reflexivity.
Qed.
(* ---------- the orders, position by position ---------- *)
Lemma nth_app_cases {A} (l1 l2 : list A) k i : nth_error (l1 ++ l2) k = Some i ->
  ((k < length l1)%nat -> In i l1) /\ ((length l1 <= k)%nat -> nth_error l2 (k - length l1) = Some i).
Proof.
  intro H. split; intro L.
  - rewrite nth_error_app1 in H by exact L. eapply nth_error_In; exact H.
  - now rewrite nth_error_app2 in H by exact L.
Qed.
Lemma four_blocks (a b : list bool) second k i x y : nth_error (four a b second) k = Some i -> nth_error a i = Some x -> nth_error b i = Some y ->
  let n1 := length (np_where (mask_and (mask_not a) (mask_not b))) in
  let n2 := length (np_where (mask_and a (mask_not b))) in
  let n3 := length (np_where (mask_and a b)) in
  let n4 := length (np_where (mask_and (mask_not a) b)) in
  let n := if second then n4 else n3 in
  ((k < n1)%nat -> x = false /\ y = false) /\ ((n1 <= k < n1 + n2)%nat -> x = true /\ y = false) /\
  ((n1 + n2 <= k < n1 + n2 + n)%nat -> x = negb second /\ y = true) /\ ((n1 + n2 + n <= k)%nat -> x = second /\ y = true).
Proof.
  intros H Hx Hy n1 n2 n3 n4 n. set (id1 := fun b : bool => b).
  assert (I : forall l : list bool, l = map id1 l) by (intro l; symmetry; apply map_id).
  assert (C : forall p q, In i (np_where (mask_and (map p a) (map q b))) -> p x = true /\ q y = true).
  { intros p q Hi. apply class_In in Hi as (x' & y' & E1 & E2 & E3 & E4). split; congruence. }
  assert (C1 := C negb negb). assert (C2 := C id1 negb). assert (C3 := C id1 id1). assert (C4 := C negb id1).
  rewrite <- (I a) in *. rewrite <- (I b) in *.
  unfold four in H. apply nth_app_cases in H as [H1 H]. fold n1 in H, H1.
  assert (HB : (n1 <= k)%nat -> ((k - n1 < n2)%nat -> In i (np_where (mask_and a (mask_not b)))) /\ ((n2 <= k - n1)%nat ->
    nth_error (if second then np_where (mask_and (mask_not a) b) ++ np_where (mask_and a b) else np_where (mask_and a b) ++ np_where (mask_and (mask_not a) b)) (k - n1 - n2) = Some i)).
  { intro L. specialize (H L). apply nth_app_cases in H. exact H. }
  split; [|split; [|split]].
  - intro L. destruct (C1 (H1 L)) as [P Q]. destruct x, y; try discriminate. auto.
  - intro L. destruct (HB ltac:(lia)) as [H2 _]. destruct (C2 (H2 ltac:(lia))) as [P Q]. destruct x, y; try discriminate. auto.
  - intro L. destruct (HB ltac:(lia)) as [_ H2]. specialize (H2 ltac:(lia)). destruct second; apply nth_app_cases in H2 as [H2 _].
    + destruct (C4 (H2 ltac:(unfold n, n4 in *; lia))) as [P Q]. destruct x, y; try discriminate. auto.
    + destruct (C3 (H2 ltac:(unfold n, n3 in *; lia))) as [P Q]. destruct x, y; try discriminate. auto.
  - intro L. destruct (HB ltac:(lia)) as [_ H2]. specialize (H2 ltac:(lia)). destruct second; apply nth_app_cases in H2 as [_ H2].
    + specialize (H2 ltac:(unfold n, n4 in *; lia)). apply nth_error_In in H2. destruct (C3 H2) as [P Q]. destruct x, y; try discriminate. auto.
    + specialize (H2 ltac:(unfold n, n3 in *; lia)). apply nth_error_In in H2. destruct (C4 H2) as [P Q]. destruct x, y; try discriminate. auto.
Qed.
Lemma occurs_at_iff t eq v : occurs_at t eq v = true <-> In (SDate v t) (atoms eq).
Proof. unfold occurs_at. apply smem_In. Qed.
Lemma v_at t vars eqs i v : nth_error vars i = Some v ->
  exists b, nth_error (map (fun v => existsb (fun eq => occurs_at t eq v) eqs) vars) i = Some b /\ (b = true <-> appears eqs v t).
Proof.
  intro H. rewrite nth_error_map, H. cbn. eexists. split; [reflexivity|]. rewrite existsb_exists. unfold appears.
  split; intros (e & H1 & H2); exists e; (split; [exact H1|]); apply occurs_at_iff; exact H2.
Qed.
Lemma e_at t vars eqs i eq : nth_error eqs i = Some eq ->
  exists b, nth_error (map (fun eq => existsb (occurs_at t eq) vars) eqs) i = Some b /\ (b = true <-> uses_date vars eq t).
Proof.
  intro H. rewrite nth_error_map, H. cbn. eexists. split; [reflexivity|]. rewrite existsb_exists. unfold uses_date.
  split; intros (e & H1 & H2); exists e; (split; [exact H1|]); apply occurs_at_iff; exact H2.
Qed.
Lemma four_counts (a b : list bool) : length a = length b ->
  (length (np_where (mask_and (mask_not a) (mask_not b))) + length (np_where (mask_and a (mask_not b))) +
   length (np_where (mask_and a b)) + length (np_where (mask_and (mask_not a) b)))%nat = length a.
Proof.
  intro L. pose proof (Permutation_length (four_perm a b true L)) as P. rewrite seq_length in P. unfold four in P.
  rewrite !app_length in P. lia.
Qed.

(* ---------- who is logged ---------- *)
Lemma loglin_true vars calib ss nl neg flags : map (fun kv => removesuffix (fst kv)) ss = vars ++ calib ->
  make_flags vars calib ss true nl neg = Ok flags ->
  forall v, In v (loglin_vars vars flags) <-> exists kv, In kv ss /\ In (v, kv) (combine vars ss) /\ flag_of nl neg v (snd kv) = false.
Proof.
  intros Hm H v. assert (L : length ss = length (vars ++ calib)) by (rewrite <- Hm; symmetry; apply map_length).
  rewrite (flags_spec vars calib ss nl neg L) in H. destruct (existsb _ nl); [discriminate|]. injection H as <-.
  unfold loglin_vars. rewrite (combine_map2 (fun n kv => flag_of nl neg n (snd kv))).
  rewrite in_map_iff. split.
  - intros ([v' kv] & <- & Hi). apply filter_In in Hi as [Hi Hf]. cbn in *. exists kv. split; [eapply in_combine_r; exact Hi|]. split; [exact Hi|]. now apply negb_true_iff.
  - intros (kv & _ & Hi & Hf). exists (v, kv). split; [reflexivity|]. apply filter_In. split; [exact Hi|]. cbn. now rewrite Hf.
Qed.
Lemma combine_prefix (vars calib : list chars) (ss : list (chars * R)) v kv : map (fun kv => removesuffix (fst kv)) ss = vars ++ calib ->
  In (v, kv) (combine vars ss) -> In kv ss /\ removesuffix (fst kv) = v.
Proof.
  revert ss. induction vars as [|w vars IH]; intros [|kv' ss] H Hi; cbn in *; try discriminate; try (now destruct Hi).
  injection H as E H. destruct Hi as [Hi|Hi]; [injection Hi as <- <-; auto|]. destruct (IH ss H Hi). auto.
Qed.
Lemma combine_exists (vars calib : list chars) (ss : list (chars * R)) v : map (fun kv => removesuffix (fst kv)) ss = vars ++ calib -> In v vars ->
  exists kv, In (v, kv) (combine vars ss).
Proof.
  revert ss. induction vars as [|w vars IH]; intros [|kv' ss] H Hi; cbn in *; try discriminate; [destruct Hi|destruct Hi|].
  injection H as E H. destruct Hi as [<-|Hi]; [eauto|]. destruct (IH ss H Hi) as (kv & X). eauto.
Qed.
Lemma loglin_off vars b : loglin_vars vars (repeat true b) = [].
Proof. unfold loglin_vars. revert b. induction vars as [|v vars IH]; intros [|b]; cbn; try reflexivity. apply IH. Qed.
Lemma loglin_iff m a ss pt flags v : model_ordered m ss -> at_rest m ss (a_params a) pt ->
  make_flags (l_vars m) (l_calibrated m) ss (a_log a && negb (l_linear m)) (not_ll a) (a_neg a) = Ok flags -> In v (l_vars m) ->
  In v (loglin_vars (l_vars m) flags) <-> a_log a = true /\ l_linear m = false /\ ~ In v (not_ll a) /\ ~ tiny (pt (SSs v)) /\ (a_neg a = true \/ 0 <= pt (SSs v))%R.
Proof.
  intros Hm Hp H Hv. destruct (a_log a && negb (l_linear m))%bool eqn:E.
  - apply andb_true_iff in E as [E1 E2]. apply negb_true_iff in E2. rewrite (loglin_true _ _ _ _ _ _ Hm H v).
    assert (K : forall kv, In (v, kv) (combine (l_vars m) ss) -> pt (SSs v) = snd kv).
    { intros [k x] Hi. destruct (combine_prefix _ _ _ _ _ Hm Hi) as [X Y]. cbn in *. rewrite <- Y. apply (proj1 Hp) with (1 := X). now rewrite Y. }
    assert (F : forall x, flag_of (not_ll a) (a_neg a) v x = false <-> ~ In v (not_ll a) /\ ~ tiny x /\ (a_neg a = true \/ 0 <= x)%R).
    { intro x. unfold flag_of, near_zero, is_neg, tiny. rewrite !orb_false_iff, andb_false_iff, <- not_true_iff_false, existsb_chars, negb_false_iff.
      destruct (Rlt_dec (Rabs x) (1 / 100000000)), (Rlt_dec x 0); intuition (try discriminate; try lra). }
    split.
    + intros (kv & _ & Hi & Hf). rewrite (K kv Hi). apply F in Hf. tauto.
    + intros (_ & _ & Hr). destruct (combine_exists _ _ _ _ Hm Hv) as (kv & Hi). exists kv. split; [now apply (in_combine_r _ _ _ _ Hi)|]. split; [exact Hi|].
      apply F. now rewrite <- (K kv Hi).
  - unfold make_flags in H. cbn in H. injection H as <-. rewrite loglin_off. split; [intros []|]. intros (E1 & E2 & _). rewrite E1, E2 in E. discriminate.
Qed.
