(* What linearize_model returns. *)
From Verif Require Import Common Sort_Lib Sym_Model Sym_Spec Sym_Proofs Sym_More Sym_Flatten Build_Model Build_Proofs Build_Order Lin_Model Lin_Spec Lin_Proofs.
From Coq Require Import Permutation Sorted Reals Lra.
Local Open Scope list_scope.

Lemma dedup_nodup l : NoDup l -> dedup l = l.
Proof.
  unfold dedup. assert (X : forall q acc, NoDup (acc ++ q) -> fold_left (fun acc x => if smem x acc then acc else acc ++ [x]) q acc = acc ++ q).
  { induction q as [|x l0 IH]; intros acc H; cbn [fold_left]; [symmetry; apply app_nil_r|].
    destruct (smem x acc) eqn:E.
    - exfalso. apply smem_In in E. apply NoDup_remove_2 in H. apply H. apply in_or_app. now left.
    - rewrite IH; rewrite <- app_assoc; [reflexivity|exact H]. }
  intro H. exact (X l [] H).
Qed.
Lemma combinations_nodup vars : NoDup vars ->
  all_time_combinations (map (fun v => SDate v 0) vars) = (map (fun v => SDate v (-1)) vars, map (fun v => SDate v 0) vars, map (fun v => SDate v 1) vars).
Proof.
  intro H. unfold all_time_combinations. rewrite map_map. cbn [at0]. 
  rewrite dedup_nodup.
  - rewrite !map_map. reflexivity.
  - apply FinFun.Injective_map_NoDup; [|exact H]. intros x y E. congruence.
Qed.
Lemma need_ok d names : (forall n, In n names -> rget n d <> None) -> exists r, need d names = Ok r.
Proof.
  induction names as [|n names IH]; intro H; cbn; [eauto|]. destruct (rget n d) as [x|] eqn:E; [|exfalso; apply (H n); [now left|exact E]].
  destruct IH as (r & ->); [intros k Hk; apply H; now right|]. cbn. eauto.
Qed.
Lemma need_inv d names r : need d names = Ok r -> forall n, In n names -> rget n d <> None.
Proof.
  revert r. induction names as [|n names IH]; cbn; intros r H k Hk; [destruct Hk|]. destruct (rget n d) as [x|] eqn:E; [|discriminate].
  destruct (need d names) as [q|]; [|discriminate]. destruct Hk as [<-|Hk]; [congruence|]. eapply IH; [reflexivity|exact Hk].
Qed.
Lemma need_err d names n : In n names -> rget n d = None -> need d names = Err KeyError.
Proof.
  induction names as [|k names IH]; cbn; [easy|]. intros H E. destruct (rget k d) as [x|] eqn:Ek; [|reflexivity].
  destruct H as [->|H]; [congruence|]. rewrite IH by assumption. reflexivity.
Qed.
Lemma map2_map {A B C D} (f : B -> C -> D) (g : A -> B) (h : A -> C) l : map2 f (map g l) (map h l) = map (fun a => f (g a) (h a)) l.
Proof. induction l as [|a l IH]; cbn; [reflexivity|]. now rewrite IH. Qed.

Section Main.
Variable G : smooth.
Variable ord : set_order.
Hypothesis Ho : set_order_ok ord.
Variable simp : sx -> sx.
Hypothesis Hs : simp_ok simp.
Variable m : lmodel.
Hypothesis Hn : NoDup (l_vars m).
Notation evr := (ev (Ralg G)).

(* all variables at rest, shocks zero *)
Definition ss_point (ss params : list (chars * R)) (s : sym) : R :=
  match s with
  | SPar n => value_at m (strip_keys ss) params (SPar n)
  | SDate b _ | SSs b => if in_dec (list_eq_dec ascii_dec) b (l_shocks m) then 0%R else value_at m (strip_keys ss) params (SSs b)
  end.
Let shock_syms := map (fun s => SDate s 0) (l_shocks m).
Lemma shock_syms_ss b : In (SSs b) (map to_ss_sym shock_syms) <-> In b (l_shocks m).
Proof.
  unfold shock_syms. rewrite map_map. cbn. rewrite in_map_iff. split.
  - intros (x & [= ->] & H). exact H.
  - intro H. eauto.
Qed.
Lemma cell_value ss params eq v :
  evr (value_at m (strip_keys ss) params) (simp (eq_to_ss ord (diff v eq) shock_syms)) = evr (ss_point ss params) (diff v eq).
Proof.
  rewrite (proj2 (Hs _)). rewrite (eq_to_ss_means ord Ho).
  - apply ev_ext. intros s _. unfold ss_point. destruct s as [n|b t|b]; [reflexivity| |].
    1,2: unfold rest_env; destruct (in_dec sym_eq_dec (SSs b) (map to_ss_sym shock_syms)) as [H|H];
         destruct (in_dec (list_eq_dec ascii_dec) b (l_shocks m)) as [H'|H']; try reflexivity; exfalso.
    1,3: apply H', shock_syms_ss; exact H.
    all: apply H, shock_syms_ss; exact H'.
  - unfold shock_syms. intros s H. apply in_map_iff in H as (b & <- & _). eauto.
Qed.
Definition jac (ss params : list (chars * R)) (wrt : list sym) (sc : sym -> R) : matrix R :=
  map (fun eq => map (fun v => (evr (ss_point ss params) (diff v eq) * sc v)%R) wrt) (l_eqs m).
Definition base (s : sym) : chars := match s with SDate b _ | SSs b | SPar b => b end.
Definition sc_of (loglin : list chars) (ss params : list (chars * R)) (s : sym) : R :=
  column_scale (l_positive m) (l_negative m) loglin (fun v => value_at m (strip_keys ss) params (SSs v)) (base s).

Lemma graphs_spec o : o = from_model (l_vars m) (l_eqs m) ->
  exists eqs' vs', take (l_eqs m) (eq_order o) = Ok eqs' /\ take (l_vars m) (var_order o) = Ok vs' /\
    Permutation eqs' (l_eqs m) /\ Permutation vs' (l_vars m) /\
    linearize_graphs ord simp (l_vars m) (l_shocks m) (l_eqs m) (eq_order o) (var_order o) =
      Ok (map (full ord simp shock_syms) [(eqs', map (fun v => SDate v (-1)) vs'); (eqs', map (fun v => SDate v 0) vs');
          (eqs', map (fun v => SDate v 1) vs'); (eqs', shock_syms)]).
Proof.
  intros ->. destruct (take_order (l_eqs m) _ (eq_order_perm (l_vars m) (l_eqs m))) as (eqs' & E1 & P1 & _).
  destruct (take_order (l_vars m) _ (var_order_perm (l_vars m) (l_eqs m))) as (vs' & E2 & P2 & _).
  exists eqs', vs'. repeat (split; [assumption|]). unfold linearize_graphs. rewrite combinations_nodup by exact Hn.
  rewrite E1. cbn [bind]. rewrite !take_map, E2. cbn [bind]. f_equal. apply build_jacobians_spec.
Qed.
Lemma ev_full ss params spec :
  ev_matrix G (value_at m (strip_keys ss) params) (full ord simp shock_syms spec) =
  map (fun eq => map (fun v => evr (ss_point ss params) (diff v eq)) (snd spec)) (fst spec).
Proof.
  unfold ev_matrix, full. rewrite map_map. apply map_ext. intro eq. rewrite map_map. apply map_ext. intro v. apply cell_value.
Qed.
Lemma undo_rows (F : sx -> list R) eqs' : take (l_eqs m) (eq_order (from_model (l_vars m) (l_eqs m))) = Ok eqs' ->
  (if nat_list_eqb (eq_order (from_model (l_vars m) (l_eqs m))) (seq 0 (length (eq_order (from_model (l_vars m) (l_eqs m)))))
   then Ok (map F eqs') else take (map F eqs') (inv_eq_order (from_model (l_vars m) (l_eqs m)))) = Ok (map F (l_eqs m)).
Proof.
  intro H. destruct (take_order (l_eqs m) _ (eq_order_perm (l_vars m) (l_eqs m))) as (r & Hr & _ & U). rewrite H in Hr. injection Hr as <-.
  rewrite take_map. change (inv_eq_order (from_model (l_vars m) (l_eqs m))) with (argsort (eq_order (from_model (l_vars m) (l_eqs m)))).
  destruct (nat_list_eqb _ _); [injection U as ->; reflexivity|]. rewrite U. reflexivity.
Qed.
Lemma undo_cols (F : sx -> sym -> R) t vs' : take (l_vars m) (var_order (from_model (l_vars m) (l_eqs m))) = Ok vs' ->
  (if nat_list_eqb (var_order (from_model (l_vars m) (l_eqs m))) (seq 0 (length (var_order (from_model (l_vars m) (l_eqs m)))))
   then Ok (map (fun eq => map (F eq) (map (fun v => SDate v t) vs')) (l_eqs m))
   else take_cols (map (fun eq => map (F eq) (map (fun v => SDate v t) vs')) (l_eqs m)) (inv_var_order (from_model (l_vars m) (l_eqs m)))) =
  Ok (map (fun eq => map (F eq) (map (fun v => SDate v t) (l_vars m))) (l_eqs m)).
Proof.
  intro H. destruct (take_order (l_vars m) _ (var_order_perm (l_vars m) (l_eqs m))) as (r & Hr & _ & U). rewrite H in Hr. injection Hr as <-.
  change (inv_var_order (from_model (l_vars m) (l_eqs m))) with (argsort (var_order (from_model (l_vars m) (l_eqs m)))).
  destruct (nat_list_eqb _ _); [injection U as ->; reflexivity|]. unfold take_cols.
  apply (mapM_map (fun row => take row _) (fun eq => map (F eq) (map (fun v => SDate v t) vs'))). intros eq _.
  rewrite !take_map, U. reflexivity.
Qed.
Lemma scaled loglin ss params eqs' vs' t :
  scale_cols (map (column_scale (l_positive m) (l_negative m) loglin (fun v => value_at m (strip_keys ss) params (SSs v))) vs')
    (map (fun eq => map (fun v => evr (ss_point ss params) (diff v eq)) (map (fun v => SDate v t) vs')) eqs') =
  map (fun eq => map (fun s => (evr (ss_point ss params) (diff s eq) * sc_of loglin ss params s)%R) (map (fun v => SDate v t) vs')) eqs'.
Proof.
  unfold scale_cols. rewrite map_map. apply map_ext. intro eq. rewrite !map_map, map2_map. reflexivity.
Qed.
Definition param_names (gs : list (matrix sx)) : list chars := map node_name (filter (is_param m) (concat (map atoms (concat (concat gs))))).
Lemma evaluate_spec loglin gs ss params :
  linearize_graphs ord simp (l_vars m) (l_shocks m) (l_eqs m) (eq_order (from_model (l_vars m) (l_eqs m))) (var_order (from_model (l_vars m) (l_eqs m))) = Ok gs ->
  evaluate G m loglin gs (eq_order (from_model (l_vars m) (l_eqs m))) (var_order (from_model (l_vars m) (l_eqs m))) ss params =
  (_ <- need (strip_keys ss) (l_vars m) ;; _ <- need params (param_names gs) ;;
   Ok (jac ss params (map (fun v => SDate v (-1)) (l_vars m)) (sc_of loglin ss params),
       jac ss params (map (fun v => SDate v 0) (l_vars m)) (sc_of loglin ss params),
       jac ss params (map (fun v => SDate v 1) (l_vars m)) (sc_of loglin ss params),
       map (fun eq => map (fun v => evr (ss_point ss params) (diff v eq)) shock_syms) (l_eqs m))).
Proof.
  intro Hg. destruct (graphs_spec _ eq_refl) as (eqs' & vs' & E1 & E2 & _ & _ & Hg'). rewrite Hg in Hg'. injection Hg' as ->.
  unfold evaluate, param_names. destruct (need (strip_keys ss) (l_vars m)) as [x|]; cbn [bind]; [|reflexivity].
  destruct (need params (map node_name _)) as [y|]; cbn [bind]; [|reflexivity].
  rewrite E2. cbn [bind]. cbn [map]. rewrite !ev_full. cbn [fst snd]. rewrite !scaled.
  rewrite (undo_rows (fun eq => map _ (map (fun v => SDate v (-1)) vs')) eqs' E1). cbn [bind].
  rewrite (undo_rows (fun eq => map _ (map (fun v => SDate v 0) vs')) eqs' E1). cbn [bind].
  rewrite (undo_rows (fun eq => map _ (map (fun v => SDate v 1) vs')) eqs' E1). cbn [bind].
  rewrite (undo_rows (fun eq => map _ shock_syms) eqs' E1). cbn [bind].
  match goal with |- bind ?X ?k = ?rhs => refine (eq_trans (f_equal (fun r => bind r k) (undo_cols (fun eq s => (evr (ss_point ss params) (diff s eq) * sc_of loglin ss params s)%R) (-1) vs' E2 : X = _)) _) end. cbn [bind].
  match goal with |- bind ?X ?k = ?rhs => refine (eq_trans (f_equal (fun r => bind r k) (undo_cols (fun eq s => (evr (ss_point ss params) (diff s eq) * sc_of loglin ss params s)%R) 0 vs' E2 : X = _)) _) end. cbn [bind].
  match goal with |- bind ?X ?k = ?rhs => refine (eq_trans (f_equal (fun r => bind r k) (undo_cols (fun eq s => (evr (ss_point ss params) (diff s eq) * sc_of loglin ss params s)%R) 1 vs' E2 : X = _)) _) end. cbn [bind].
  reflexivity.
Qed.

(* parameters of the graphs come from the equations *)
Lemma atoms_diff v e : incl (atoms (diff v e)) (atoms e).
Proof.
  induction e as [z|s|a IHa b IHb|a IHa b IHb|a IHa|f k a IHa]; cbn; intros s' H.
  - exact H.
  - destruct (sym_eqb s v); destruct H.
  - apply in_app_iff in H as [H|H]; apply in_app_iff; [left; now apply IHa|right; now apply IHb].
  - rewrite !in_app_iff in H. apply in_app_iff. destruct H as [[H|H]|[H|H]]; auto.
  - now apply IHa.
  - apply in_app_iff in H as [H|H]; [exact H|now apply IHa].
Qed.
Lemma atoms_eq_to_ss e sh : forall s, In s (atoms (eq_to_ss ord e sh)) -> exists s', In s' (atoms e) /\ s = to_ss_sym s'.
Proof.
  intros s H. unfold eq_to_ss in H.
  assert (X : forall l e s, In s (atoms (subs_seq (map (fun s => (to_ss_sym s, Cst 0)) l) e)) -> In s (atoms e)).
  { clear. induction l as [|x l IH]; intros e s H; cbn in *; [exact H|]. apply IH in H. clear IH.
    induction e as [z|q|a IHa b IHb|a IHa b IHb|a IHa|f k a IHa]; cbn in *; auto.
    - destruct (sym_eqb q (to_ss_sym x)); [destruct H|exact H].
    - apply in_app_iff in H as [H|H]; apply in_app_iff; auto.
    - apply in_app_iff in H as [H|H]; apply in_app_iff; auto. }
  apply X in H. clear X.
  assert (Y : forall l e s, In s (atoms (subs_seq (map (fun s => (s, Sy (to_ss_sym s))) l) e)) -> In s (atoms e) \/ exists s', In s' (atoms e) /\ s = to_ss_sym s').
  { clear. induction l as [|x l IH]; intros e s H; cbn in *; [now left|]. apply IH in H. clear IH.
    assert (Z : forall s, In s (atoms (subs1 x (Sy (to_ss_sym x)) e)) -> In s (atoms e) \/ exists s', In s' (atoms e) /\ s = to_ss_sym s').
    { clear. induction e as [z|q|a IHa b IHb|a IHa b IHb|a IHa|f k a IHa]; cbn; intros s H; auto.
      - destruct (sym_eqb q x) eqn:E; cbn in H; [|auto]. destruct H as [<-|[]]. apply sym_eqb_eq in E. subst. right. eauto.
      - apply in_app_iff in H as [H|H]; [apply IHa in H|apply IHb in H]; destruct H as [H|(w & H & ->)]; rewrite ?in_app_iff; eauto;
          right; exists w; rewrite in_app_iff; auto.
      - apply in_app_iff in H as [H|H]; [apply IHa in H|apply IHb in H]; destruct H as [H|(w & H & ->)]; rewrite ?in_app_iff; eauto;
          right; exists w; rewrite in_app_iff; auto. }
    destruct H as [H|(w & H & ->)].
    - apply Z in H. exact H.
    - apply Z in H as [H|(w' & H & ->)]; right; eauto. exists w'. split; [exact H|]. destruct w'; reflexivity. }
  assert (N : forall b t, In (SDate b t) (atoms e) -> ~ In (SDate b t) (atoms (subs_seq (map (fun s => (s, Sy (to_ss_sym s))) (filter time_aware (ord (atoms e)))) e))).
  { intros b t _ Hi. revert Hi. rewrite subs_seq_smap. intro Hi. apply atoms_smap in Hi as (q & Hq & Hi).
    rewrite run_to_ss in Hi. destruct (in_dec sym_eq_dec q (filter time_aware (ord (atoms e)))) as [F|F].
    - cbn in Hi. destruct Hi as [E|[]]. destruct q; discriminate.
    - cbn in Hi. destruct Hi as [->|[]]. apply F. apply filter_In. split; [|reflexivity]. apply (ord_in ord Ho). exact Hq. }
  destruct (Y _ _ _ H) as [H1|H1]; [|exact H1]. destruct s as [n|b t|b].
  - exists (SPar n). auto.
  - exfalso. now apply (N b t).
  - exists (SSs b). auto.
Qed.
End Main.

Lemma rget_In n d x : rget n d = Some x -> In (n, x) d.
Proof.
  unfold rget. destruct (find _ d) as [kv|] eqn:E; [|discriminate]. intros [= <-]. apply find_some in E as [E1 E2].
  apply chars_eqb_eq in E2. subst. now destruct kv.
Qed.
Lemma rget_None n d : rget n d = None <-> ~ In n (map fst d).
Proof.
  unfold rget. destruct (find _ d) as [kv|] eqn:E; split; try discriminate; try tauto.
  - apply find_some in E as [E1 E2]. apply chars_eqb_eq in E2. subst. intro H. exfalso. apply H. now apply in_map.
  - intros _ H. apply in_map_iff in H as (kv & <- & H). eapply find_none in E; [|exact H]. rewrite chars_eqb_refl in E. discriminate.
Qed.
Lemma strip_In n ss x : rget n (strip_keys ss) = Some x -> exists k, In (k, x) ss /\ removesuffix k = n.
Proof.
  intro H. apply rget_In in H. unfold strip_keys in H. apply in_rev, in_map_iff in H as ([k y] & [= <- <-] & H). eauto.
Qed.
Lemma strip_None n ss : rget n (strip_keys ss) = None <-> forall k x, In (k, x) ss -> removesuffix k <> n.
Proof.
  rewrite rget_None. unfold strip_keys. split.
  - intros H k x Hi E. apply H. rewrite map_rev, <- in_rev, map_map. apply in_map_iff. exists (k, x). auto.
  - intros H Hi. rewrite map_rev, <- in_rev, map_map in Hi. apply in_map_iff in Hi as ([k x] & E & Hi). exact (H k x Hi E).
Qed.

Section Point.
Variable G : smooth.
Variable ord : set_order.
Hypothesis Ho : set_order_ok ord.
Variable simp : sx -> sx.
Hypothesis Hs : simp_ok simp.
Variable m : lmodel.
Hypothesis Hw : well_formed m.
Variables ss params : list (chars * R).
Variable pt : sym -> R.
Hypothesis Hp : at_rest m ss params pt.
Notation evr := (ev (Ralg G)).
Let shock_syms := map (fun s => SDate s 0) (l_shocks m).

Lemma existsb_chars b l : existsb (chars_eqb b) l = true <-> In b l.
Proof.
  rewrite existsb_exists. split; [intros (x & H & E); apply chars_eqb_eq in E; now subst|]. intro H. exists b. split; [exact H|apply chars_eqb_refl].
Qed.
(* atoms of a Jacobian cell: parameters and steady-state symbols of variables *)
Lemma cell_atoms eq v s : In eq (l_eqs m) -> In s (atoms (eq_to_ss ord (diff v eq) shock_syms)) ->
  match s with SPar _ => In s (atoms eq) | SSs b => In b (l_vars m) | SDate _ _ => False end.
Proof.
  intros He H. destruct (atoms_eq_to_ss ord Ho _ _ _ H) as (s' & H1 & ->). apply (atoms_diff v) in H1.
  pose proof (proj2 (proj2 Hw) eq s' He H1) as W.
  assert (NS : forall b, In (SSs b) (atoms (eq_to_ss ord (diff v eq) shock_syms)) -> ~ In b (l_shocks m)).
  { intros b Hb Hi. unfold eq_to_ss in Hb. rewrite subs_seq_smap in Hb. apply atoms_smap in Hb as (q & _ & Hb). rewrite run_zero in Hb.
    destruct (in_dec sym_eq_dec q (map to_ss_sym shock_syms)) as [F|F]; [destruct Hb|]. destruct Hb as [->|[]]. apply F.
    apply shock_syms_ss. exact Hi. }
  destruct s' as [n|b t|b]; cbn [to_ss_sym] in *; [exact H1| |]; specialize (NS b H); tauto.
Qed.
Lemma var_value v x : In v (l_vars m) -> rget v (strip_keys ss) = Some x -> pt (SSs v) = x.
Proof. intros Hv H. apply strip_In in H as (k & Hk & <-). now apply (proj1 Hp). Qed.
Lemma value_at_pt s : In s (map SSs (l_vars m)) \/ (exists n, s = SPar n /\ rget n params <> None) ->
  (forall v, In v (l_vars m) -> rget v (strip_keys ss) <> None) -> value_at m (strip_keys ss) params s = pt s.
Proof.
  intros [H|(n & -> & H)] Hv; cbn.
  - apply in_map_iff in H as (v & <- & H). cbn. rewrite (proj2 (existsb_chars v (l_vars m)) H).
    destruct (rget v (strip_keys ss)) as [x|] eqn:E; [|exfalso; now apply (Hv v)]. symmetry. now apply var_value.
  - destruct (rget n params) as [x|] eqn:E; [|congruence]. symmetry. apply rget_In in E. now apply (proj2 (proj2 (proj2 Hp))).
Qed.
(* the value of a cell at any such point *)
Lemma cell_at_rest eq v gs : In eq (l_eqs m) ->
  (forall v, In v (l_vars m) -> rget v (strip_keys ss) <> None) ->
  (forall s, In s (atoms (simp (eq_to_ss ord (diff v eq) shock_syms))) -> In s gs) ->
  (forall n, In n (map node_name (filter (is_param m) gs)) -> rget n params <> None) ->
  evr (ss_point m ss params) (diff v eq) = evr pt (diff v eq).
Proof.
  intros He Hv Hg Hn. unfold shock_syms in *. rewrite <- (cell_value G ord Ho simp Hs m ss params eq v).
  transitivity (evr pt (simp (eq_to_ss ord (diff v eq) shock_syms))).
  - apply ev_ext. intros s Hi. apply value_at_pt; [|exact Hv].
    pose proof (cell_atoms eq v s He (proj1 (Hs _) s Hi)) as Ha.
    destruct s as [n|b t|b]; [right|destruct Ha|left; apply in_map; exact Ha].
    exists n. split; [reflexivity|]. apply Hn. apply in_map_iff. exists (SPar n). split; [reflexivity|]. apply filter_In. split; [now apply Hg|reflexivity].
  - rewrite (proj2 (Hs _)). rewrite (eq_to_ss_means ord Ho).
    + apply ev_ext. intros s Hi. apply atoms_diff in Hi. pose proof (proj2 (proj2 Hw) eq s He Hi) as W.
      destruct Hp as (P1 & P2 & P3 & P4). unfold rest_env. destruct s as [n|b t|b]; [reflexivity| |].
      1,2: destruct (in_dec sym_eq_dec (SSs b) (map to_ss_sym shock_syms)) as [F|F].
      1,3: apply shock_syms_ss in F; cbn; symmetry; now apply (P3 b 0%Z) || (destruct (P3 b t F); assumption).
      1,2: assert (~ In b (l_shocks m)) by (intro Hi'; apply F, shock_syms_ss; exact Hi').
      1: symmetry; apply P2; tauto. reflexivity.
    + unfold shock_syms. intros s H. apply in_map_iff in H as (b & <- & _). eauto.
Qed.
End Point.
