(* C159: what the eigenvalue, autocorrelation, Kalman filter, prior and estimated matrix figures show *)
From Verif Require Import Common Panel_Model Panel_Props Fig_Model Fig_Props Cls_Model Sens_Model Eplot_Model Eplot_Props Plots_Model.
From Coq Require Import Reals QArith Lia Lqa Lra.
Local Open Scope list_scope.
Local Open Scope nat_scope.

(* ---- lemmas ---- *)
Lemma map_ok_pure {A B} (f : A -> result B) (h : A -> B) l : (forall x, In x l -> f x = Ok (h x)) -> map_ok f l = Ok (map h l).
Proof.
  induction l as [|a l IH]; intro H; [reflexivity|]. cbn [map_ok map]. rewrite H by (now left). cbn [bind]. rewrite IH; [reflexivity|]. intros x Hx. apply H. now right.
Qed.
Lemma map_ok_each {A B} (f : A -> result B) l : forall ys, map_ok f l = Ok ys -> forall x, In x l -> exists y, f x = Ok y.
Proof.
  induction l as [|a l IH]; intros ys H x Hx; [destruct Hx|]. cbn [map_ok] in H. destruct (f a) as [y|] eqn:E; [|discriminate H]. cbn [bind] in H.
  destruct (map_ok f l) as [t|]; [|discriminate H]. destruct Hx as [<-|Hx]; [now exists y|]. exact (IH t eq_refl x Hx).
Qed.
Lemma prepared c n : 0 < c -> 0 < n -> exists g locs, prepare_gridspec_figure c n = Ok (g, locs) /\ length locs = n.
Proof.
  intros Hc Hn. destruct (proj2 (C138_refused c n) (conj Hc Hn)) as (g & locs & H). exists g, locs. split; [exact H|]. now destruct (C138_panels _ _ _ _ H).
Qed.
Lemma lookup_in {A} k (v : A) d : NoDup (map fst d) -> In (k, v) d -> lookup k d = Ok v.
Proof.
  induction d as [|[n w] d IH]; intros N H; [destruct H|]. cbn [map fst] in N. inversion N; subst. cbn [lookup]. destruct H as [E|H].
  - injection E as <- <-. now rewrite chars_eqb_refl.
  - destruct (chars_eqb k n) eqn:E; [|now apply IH]. apply chars_eqb_eq in E. subst. destruct H2. now apply (in_map fst) in H.
Qed.
Lemma lookup_found {A} k (d : list (chars * A)) v : lookup k d = Ok v -> In (k, v) d.
Proof.
  induction d as [|[n w] d IH]; cbn [lookup]; [discriminate|]. destruct (chars_eqb k n) eqn:E; intro H.
  - apply chars_eqb_eq in E. injection H as <-. subst. now left.
  - right. now apply IH.
Qed.
Lemma lookup_absent {A} k (d : list (chars * A)) : ~ In k (map fst d) <-> lookup k d = Err KeyError.
Proof.
  induction d as [|[n w] d IH]; cbn [lookup map fst In]; [tauto|]. destruct (chars_eqb k n) eqn:E.
  - apply chars_eqb_eq in E. subst. split; [tauto|discriminate].
  - rewrite <- IH. assert (n <> k) by (intros ->; rewrite chars_eqb_refl in E; discriminate E). tauto.
Qed.
Lemma lookup_put {A} q k (v : A) d : lookup q (put k v d) = if chars_eqb q k then Ok v else lookup q d.
Proof.
  induction d as [|[n w] d IH]; cbn [put lookup]; [reflexivity|]. destruct (chars_eqb k n) eqn:E.
  - apply chars_eqb_eq in E. subst n. cbn [lookup]. now destruct (chars_eqb q k).
  - cbn [lookup]. rewrite IH. destruct (chars_eqb q n) eqn:E1; [|reflexivity]. apply chars_eqb_eq in E1. subst q.
    destruct (chars_eqb n k) eqn:E2; [|reflexivity]. apply chars_eqb_eq in E2. subst. rewrite chars_eqb_refl in E. discriminate E.
Qed.
Lemma keys_put {A} k (v : A) d : map fst (put k v d) = if mem k (map fst d) then map fst d else map fst d ++ [k].
Proof.
  induction d as [|[n w] d IH]; [reflexivity|]. cbn [put map fst mem existsb]. destruct (chars_eqb k n) eqn:E; cbn [orb map fst]; [reflexivity|]. rewrite IH.
  unfold mem. now destruct (existsb (chars_eqb k) (map fst d)).
Qed.
(* the last value under a key *)
Lemma lookup_union {A} q (e : list (chars * A)) : forall d, lookup q (union d e) = match lookup q (rev e) with Ok v => Ok v | Err _ => lookup q d end.
Proof.
  assert (forall a b : list (chars * A), lookup q (a ++ b) = match lookup q a with Ok v => Ok v | Err _ => lookup q b end) as App.
  { induction a as [|[k v] a IH]; intro b; cbn [app lookup]; [reflexivity|]. destruct (chars_eqb q k); [reflexivity|apply IH]. }
  induction e as [|[k v] e IH]; intro d; [reflexivity|]. unfold union in *. cbn [fold_left rev fst snd]. rewrite IH, App, lookup_put. cbn [lookup].
  destruct (lookup q (rev e)); [reflexivity|]. now destruct (chars_eqb q k).
Qed.
Lemma lookup_unique_rev {A} q (e : list (chars * A)) : NoDup (map fst e) -> lookup q (rev e) = lookup q e.
Proof.
  intro N. destruct (lookup q e) as [v|x] eqn:E.
  - apply lookup_in; [rewrite map_rev; now apply NoDup_rev|]. apply -> in_rev. now apply lookup_found.
  - assert (x = KeyError) as ->. { clear -E. induction e as [|[k v] e IH]; cbn [lookup] in E; [congruence|]. destruct (chars_eqb q k); [discriminate E|auto]. }
    apply lookup_absent in E. apply lookup_absent. rewrite map_rev. now rewrite <- in_rev.
Qed.
Lemma NoDup_end {A} (x : A) l : NoDup l -> ~ In x l -> NoDup (l ++ [x]).
Proof.
  induction l as [|a l IH]; intros N H; [constructor; [easy|constructor]|]. inversion N; subst. cbn [app]. constructor.
  - intro X. apply in_app_or in X. destruct X as [X|[->|[]]]; [auto|]. apply H. now left.
  - apply IH; [exact H3|]. intro X. apply H. now right.
Qed.
Lemma union_nodup {A} (e : list (chars * A)) : forall d, NoDup (map fst d) -> NoDup (map fst (union d e)).
Proof.
  induction e as [|[k v] e IH]; intros d N; [exact N|]. unfold union in *. cbn [fold_left fst snd]. apply IH. rewrite keys_put. destruct (mem k (map fst d)) eqn:E; [exact N|].
  apply NoDup_end; [exact N|]. intro H. apply mem_iff in H. congruence.
Qed.
Lemma union_fresh {A} (e : list (chars * A)) : forall d, NoDup (map fst (d ++ e)) -> union d e = d ++ e.
Proof.
  induction e as [|[k v] e IH]; intros d N; [now rewrite app_nil_r|]. unfold union in *. cbn [fold_left fst snd].
  assert (put k v d = d ++ [(k, v)]) as ->.
  { assert (~ In k (map fst d)) as H. { rewrite map_app in N. cbn [map fst] in N. apply NoDup_remove_2 in N. intro X. apply N. apply in_or_app. now left. }
    clear -H. induction d as [|[n w] d IH]; [reflexivity|]. cbn [put app map fst In] in *. destruct (chars_eqb k n) eqn:E; [apply chars_eqb_eq in E; subst; tauto|]. rewrite IH; tauto. }
  rewrite IH by (rewrite <- app_assoc; exact N). now rewrite <- app_assoc.
Qed.
Lemma keys_union {A} (e : list (chars * A)) x : forall d, In x (map fst (union d e)) <-> In x (map fst d) \/ In x (map fst e).
Proof.
  induction e as [|[k v] e IH]; intro d; [cbn; tauto|]. unfold union in *. cbn [fold_left fst snd map In]. rewrite IH, keys_put. destruct (mem k (map fst d)) eqn:E.
  - apply mem_iff in E. split; [tauto|]. intros [H|[<-|H]]; tauto.
  - rewrite in_app_iff. cbn [In]. tauto.
Qed.

(* ---- plot_eigenvalues ---- *)
Lemma Rgtb_iff a b : Rgtb a b = true <-> (b < a)%R.
Proof. unfold Rgtb. destruct (Rlt_dec b a); split; intros; try easy. Qed.
Definition inside (x : eigenvalue) (b : R) : Prop := exists m, eig_size x = Finite m /\ (m < b)%R.
Definition beyond (x : eigenvalue) (b : R) : Prop := eig_size x = Infinite \/ exists m, eig_size x = Finite m /\ (b < m)%R.
Lemma size_lt_iff x b : size_lt (eig_size x) b = true <-> inside x b.
Proof.
  unfold inside. destruct (eig_size x) as [m|]; cbn [size_lt].
  - rewrite Rgtb_iff. split; [intro H; now exists m|]. intros (m' & E & H). injection E as ->. exact H.
  - split; [discriminate|]. intros (m & E & _). discriminate E.
Qed.
Lemma size_gt_iff x b : size_gt (eig_size x) b = true <-> beyond x b.
Proof.
  unfold beyond. destruct (eig_size x) as [m|]; cbn [size_gt].
  - rewrite Rgtb_iff. split; [intro H; right; now exists m|]. intros [E|(m' & E & H)]; [discriminate E|]. injection E as ->. exact H.
  - split; auto.
Qed.
(* exactly the eigenvalues of modulus below 10 are drawn, in their order, each at its real and imaginary part, red if its modulus is above 1 and
   blue otherwise; the number in the title is that of the moduli above 10 *)
Theorem C159_eigenvalues {V} check (kwargs : option (list (chars * V))) updates data :
  check (union (match kwargs with None => [] | Some d => d end) updates) = Ok data ->
  exists fig shown, fst (plot_eigenvalues check kwargs updates) = Ok fig /\
    (exists p, shown = filter p data) /\ (forall x, In x shown <-> In x data /\ inside x 10) /\
    Forall2 (fun x d => fst d = (eig_real x, eig_imag x) /\ (beyond x 1 -> snd d = str "tab:red") /\ (~ beyond x 1 -> snd d = str "tab:blue")) shown (dots fig) /\
    (exists far, (exists p, far = filter p data) /\ (forall x, In x far <-> In x data /\ beyond x 10) /\ not_shown fig = length far) /\
    ((forall x, In x data -> eig_size x <> Finite 10) -> length (dots fig) + not_shown fig = length data).
Proof.
  intro H. unfold plot_eigenvalues. rewrite H. cbn [bind fst]. eexists. exists (filter (fun x => size_lt (eig_size x) 10) data).
  refine (conj eq_refl (conj (ex_intro _ _ eq_refl) (conj _ (conj _ (conj _ _))))).
  - intro x. now rewrite filter_In, size_lt_iff.
  - cbn [dots]. set (l := filter (fun x => size_lt (eig_size x) 10) data). clearbody l. clear H. induction l as [|x l IH]; cbn [map]; constructor; [|exact IH]. cbn [fst snd].
    refine (conj eq_refl (conj _ _)); intro X.
    + apply size_gt_iff in X. now rewrite X.
    + destruct (size_gt (eig_size x) 1) eqn:E; [|reflexivity]. destruct X. now apply size_gt_iff.
  - exists (filter (fun x => size_gt (eig_size x) 10) data). refine (conj (ex_intro _ _ eq_refl) (conj _ eq_refl)). intro x. now rewrite filter_In, size_gt_iff.
  - intro N. cbn [dots not_shown]. rewrite map_length. clear H. induction data as [|x l IH]; [reflexivity|]. cbn [filter].
    assert (forall y, In y l -> eig_size y <> Finite 10) as N' by (intros y Hy; apply N; now right). specialize (IH N').
    assert (eig_size x <> Finite 10) as Nx by (apply N; now left).
    destruct (size_lt (eig_size x) 10) eqn:E1, (size_gt (eig_size x) 10) eqn:E2; cbn [length]; try lia; exfalso.
    + apply size_lt_iff in E1. apply size_gt_iff in E2. destruct E1 as (m & E & L). destruct E2 as [E2|(m' & E2 & L2)]; [congruence|]. rewrite E in E2. injection E2 as ->. lra.
    + destruct (eig_size x) as [m|] eqn:E; [|discriminate E2]. cbn [size_lt size_gt] in *. apply Nx. f_equal.
      unfold Rgtb in E1, E2. destruct (Rlt_dec m 10); [discriminate|]. destruct (Rlt_dec 10 m); [discriminate|]. lra.
Qed.
(* an eigenvalue of modulus exactly 10 is neither drawn nor counted *)
Theorem C159_eigenvalues_ten_refuted {V} (updates : list (chars * V)) re im :
  fst (plot_eigenvalues (fun _ => Ok [Eig (Finite 10) re im]) None updates) = Ok (EigFigure [] 0).
Proof.
  unfold plot_eigenvalues. cbn [bind fst filter size_gt size_lt eig_size]. assert (Rgtb 10 10 = false) as -> by (unfold Rgtb; destruct (Rlt_dec 10 10); [lra|reflexivity]). reflexivity.
Qed.
(* the parameters given as keywords go to the linearisation and override those in linearize_model_kwargs, whose other entries stay *)
Theorem C159_eigenvalues_arguments {V} (kwargs : option (list (chars * V))) updates : NoDup (map fst updates) ->
  exists passed, (forall q, lookup q passed = match lookup q updates with Ok v => Ok v | Err _ => lookup q (match kwargs with None => [] | Some d => d end) end) /\
    (forall check e, check passed = Err e -> fst (plot_eigenvalues check kwargs updates) = Err e) /\
    (forall check check', check passed = check' passed -> fst (plot_eigenvalues check kwargs updates) = fst (plot_eigenvalues check' kwargs updates)).
Proof.
  intro N. exists (union (match kwargs with None => [] | Some d => d end) updates). refine (conj _ (conj _ _)).
  - intro q. rewrite lookup_union. now rewrite lookup_unique_rev.
  - intros check e H. unfold plot_eigenvalues. now rewrite H.
  - intros check check' H. unfold plot_eigenvalues. now rewrite H.
Qed.
(* the caller's dictionary is changed: it keeps the overrides for the next call *)
Theorem C159_eigenvalues_kwargs_refuted {V} check (d updates : list (chars * V)) q v : NoDup (map fst updates) -> lookup q updates = Ok v ->
  exists after, snd (plot_eigenvalues check (Some d) updates) = Some after /\ lookup q after = Ok v.
Proof.
  intros N H. unfold plot_eigenvalues. cbn [snd]. eexists. split; [reflexivity|]. now rewrite lookup_union, lookup_unique_rev, H.
Qed.

(* ---- plot_eigenvalue_sensitivity ---- *)
(* the tolerance above which an eigenvalue counts as infinite *)
Definition tolerance (o : options) (ds : dataset) : R := match o_inf_tol o with Some t => t | None => default_inf_tol (map e_mod (rows_of ds)) end.
(* the eigenvalues shown, in their order *)
Definition kept_of (o : options) (ds : dataset) (kept : list erow) : Prop :=
  (exists p, kept = filter p (rows_of ds)) /\
  forall r, In r kept <-> In r (rows_of ds) /\ shown (o_zeros o) (o_infinite o) (o_zero_tol o) (tolerance o ds) r.
(* the largest change of an eigenvalue with the parameter; changes below 1e-12 do not count *)
Definition largest (kept : list erow) (i : nat) (m : R) : Prop :=
  ((exists r, In r kept /\ magnitude (gradient r i) = m) /\ forall r, In r kept -> (magnitude (gradient r i) <= m)%R) /\ (/ 10 ^ 12 < m)%R \/
  (forall r, In r kept -> (magnitude (gradient r i) <= / 10 ^ 12)%R) /\ m = 1%R.
(* one panel: the parameter with its value now and after the change, the eigenvalues inside and outside of the unit circle, and an arrow at exactly those
   that move by enough, from the eigenvalue to where the derivative takes it *)
Definition panel_shows (o : options) (kept : list erow) (name : chars) (place : loc) (i : nat) (value : R) (p : sens_panel) : Prop :=
  s_param p = name /\ s_place p = place /\ s_value p = value /\ s_perturbed p = (value * (1 + o_perturbation o))%R /\
  (forall z, In z (s_stable p) <-> exists r, In r kept /\ (e_mod r <= 1)%R /\ z = (e_re r, e_im r)) /\
  (forall z, In z (s_unstable p) <-> exists r, In r kept /\ (1 < e_mod r)%R /\ z = (e_re r, e_im r)) /\
  length (s_stable p) + length (s_unstable p) = length kept /\
  (forall m, largest kept i m -> forall a b, In (a, b) (s_arrows p) <-> exists r, In r kept /\ (m * o_min_arrow o < magnitude (gradient r i))%R /\ a = (e_re r, e_im r) /\
      b = (e_re r + fst (gradient r i) * (value * o_perturbation o), e_im r + snd (gradient r i) * (value * o_perturbation o))%R) /\
  (forall r, In r kept -> (fst (s_xlim p) < e_re r < snd (s_xlim p) /\ fst (s_ylim p) < e_im r < snd (s_ylim p))%R).

Lemma combine_maps {A B C} (f : A -> B) (g : A -> C) l : combine (map f l) (map g l) = map (fun x => (f x, g x)) l.
Proof. induction l as [|x l IH]; [reflexivity|]. cbn. now rewrite IH. Qed.
Lemma split_filter {A} (p : A -> bool) l : length (filter p l) + length (filter (fun x => negb (p x)) l) = length l.
Proof. induction l as [|x l IH]; [reflexivity|]. cbn [filter]. destruct (p x); cbn [negb length]; lia. Qed.
Lemma not_gt a b : negb (Rgtb a b) = true <-> (a <= b)%R.
Proof. unfold Rgtb. destruct (Rlt_dec b a); cbn; split; intros; try easy; lra. Qed.
Lemma draw_panel_shows o kept name place i value lg : 
  let '(xl, yl, _) := axis_limits (map e_re kept) (map e_im kept) in
  panel_shows o kept name place i value (draw_panel (map e_re kept) (map e_im kept) (map e_mod kept) (map (fun r => gradient r i) kept) name place value (o_perturbation o) xl yl lg (o_min_arrow o)).
Proof.
  pose proof (C139_axes (map e_re kept) (map e_im kept)) as AX. destruct (axis_limits (map e_re kept) (map e_im kept)) as [[xl yl] half].
  destruct AX as (_ & _ & _ & AX). destruct AX as [AX AY]; [now rewrite !map_length|].
  unfold panel_shows, draw_panel. cbn [s_param s_place s_value s_perturbed s_stable s_unstable s_arrows s_xlim s_ylim].
  rewrite !combine_maps.
  refine (conj eq_refl (conj eq_refl (conj eq_refl (conj eq_refl (conj _ (conj _ (conj _ (conj _ _)))))))).
  - intro z. rewrite in_map_iff. split.
    + intros (x & <- & H). apply filter_In in H. destruct H as [H E]. apply in_map_iff in H. destruct H as (r & <- & Hr). exists r. cbn [fst snd] in *. apply not_gt in E. auto.
    + intros (r & Hr & E & ->). exists ((e_re r, e_im r), e_mod r). split; [reflexivity|]. apply filter_In. split; [apply in_map_iff; now exists r|]. now apply not_gt.
  - intro z. rewrite in_map_iff. split.
    + intros (x & <- & H). apply filter_In in H. destruct H as [H E]. apply in_map_iff in H. destruct H as (r & <- & Hr). exists r. cbn [fst snd] in *.
      rewrite negb_involutive in E. apply Rgtb_iff in E. auto.
    + intros (r & Hr & E & ->). exists ((e_re r, e_im r), e_mod r). split; [reflexivity|]. apply filter_In. split; [apply in_map_iff; now exists r|].
      rewrite negb_involutive. now apply Rgtb_iff.
  - rewrite !map_length. rewrite (split_filter (fun x : R * R * R => negb (Rgtb (snd x) 1))). apply map_length.
  - intros m L a b.
    assert (match map magnitude (map (fun r => gradient r i) kept) with [] => 1%R | x :: t => if Rgtb (maximum x t) (/ 10 ^ 12) then maximum x t else 1%R end = m) as ->.
    { rewrite map_map. destruct L as [[[(r & Hr & Er) Hall] Hm]|[Hall ->]].
      - destruct (map (fun r => magnitude (gradient r i)) kept) as [|x t] eqn:E; [destruct kept; [destruct Hr|discriminate E]|].
        assert (In m (x :: t)) as Hin by (rewrite <- E; apply in_map_iff; now exists r).
        assert (maximum x t = m) as ->.
        { apply Rle_antisym.
          - destruct (maximum_in t x) as [X|X]; [|assert (In (maximum x t) (x :: t)) as Y by (now right)].
            + assert (In (maximum x t) (x :: t)) as Y by (rewrite X; now left). rewrite <- E in Y. apply in_map_iff in Y. destruct Y as (r' & <- & Hr'). now apply Hall.
            + rewrite <- E in Y. apply in_map_iff in Y. destruct Y as (r' & <- & Hr'). now apply Hall.
          - apply maximum_ub. destruct Hin as [->|Hin]; auto. }
        assert (Rgtb m (/ 10 ^ 12) = true) as -> by (now apply Rgtb_iff). reflexivity.
      - destruct (map (fun r => magnitude (gradient r i)) kept) as [|x t] eqn:E; [reflexivity|].
        assert (In (maximum x t) (x :: t)) as Hin by (destruct (maximum_in t x) as [X|X]; [left; congruence|now right]).
        rewrite <- E in Hin. apply in_map_iff in Hin. destruct Hin as (r & Er & Hr). specialize (Hall r Hr). rewrite Er in Hall. unfold Rgtb.
        destruct (Rlt_dec (/ 10 ^ 12) (maximum x t)); [lra|reflexivity]. }
    rewrite in_flat_map. split.
    + intros (x & Hx & H). apply in_map_iff in Hx. destruct Hx as (r & <- & Hr). cbv beta iota in H.
      destruct (Rgtb (magnitude (gradient r i)) (m * o_min_arrow o)) eqn:E; [|destruct H]. apply Rgtb_iff in E. destruct H as [H|[]]. injection H as <- <-. exists r. auto.
    + intros (r & Hr & E & -> & ->). exists ((e_re r, e_im r), gradient r i). split; [apply in_map_iff; now exists r|]. cbv beta iota. apply Rgtb_iff in E. rewrite E. now left.
  - intros r Hr. split; [apply AX|apply AY]; apply in_map_iff; now exists r.
Qed.
Lemma validate_ok requested all params : validate requested all = Ok params <->
  match requested with None => params = all | Some l => params = l /\ forall p, In p l -> In p all end.
Proof.
  unfold validate. destruct requested as [l|]; [|split; [intro H; now injection H|now intros ->]].
  destruct (forallb (fun p => mem p all) l) eqn:E.
  - rewrite forallb_forall in E. split; [intro H; injection H as <-; split; [reflexivity|]; intros p Hp; apply mem_iff; auto|now intros [-> _]].
  - split; [discriminate|]. intros [-> H]. rewrite <- not_true_iff_false in E. destruct E. apply forallb_forall. intros p Hp. apply mem_iff. auto.
Qed.
Lemma filter_with_tolerance o ds : filter_eigenvalues (rows_of ds) (o_zeros o) (o_infinite o) (o_zero_tol o) (o_inf_tol o) =
  filter_eigenvalues (rows_of ds) (o_zeros o) (o_infinite o) (o_zero_tol o) (Some (tolerance o ds)).
Proof. unfold filter_eigenvalues, tolerance. reflexivity. Qed.
(* one panel for each parameter asked for (all of the data's by default), in this order; all show the same eigenvalues; the value of a parameter is that of the
   model with the keyword arguments, 1 if it has none; the number in the title is that of the eigenvalues left out *)
Theorem C159_sensitivity m data requested o steady_state updates ds params values :
  (match data with Some d => Ok d | None => eigenvalue_sensitivity m steady_state updates end) = Ok ds ->
  match requested with None => params = d_params ds | Some l => params = l /\ forall p, In p l -> In p (d_params ds) end -> params <> [] ->
  parameters m (filter (fun kv => mem (fst kv) (map fst (s_defaults m))) updates) = Ok values ->
  exists g locs kept panels left_out, prepare_gridspec_figure (match o_n_cols o with None | Some 0 => Nat.min 4 (length params) | Some c => c end) (length params) = Ok (g, locs) /\
    plot_eigenvalue_sensitivity m data requested o steady_state updates = Ok (panels, left_out) /\
    kept_of o ds kept /\ length kept + left_out = length (rows_of ds) /\ length panels = length params /\
    forall k name, nth_error params k = Some name -> exists p i, nth_error panels k = Some p /\ nth_error (d_params ds) i = Some name /\
      panel_shows o kept name (nth k locs ((0, 0), (0, 0))) i (match lookup name values with Ok v => v | Err _ => 1%R end) p /\
      (s_legend p = true <-> k = 0).
Proof.
  intros Hds Hreq Hne Hval. assert (0 < length params) as Hn by (destruct params; [easy|cbn; lia]).
  destruct (prepared (match o_n_cols o with None | Some 0 => Nat.min 4 (length params) | Some c => c end) (length params)) as (g & locs & Hg & Hl); [destruct (o_n_cols o) as [[|c]|]; lia|exact Hn|].
  pose proof (C139_filter (rows_of ds) (o_zeros o) (o_infinite o) (o_zero_tol o) (tolerance o ds) (C139_labels ds)) as HF. rewrite <- filter_with_tolerance in HF.
  destruct (filter_eigenvalues (rows_of ds) (o_zeros o) (o_infinite o) (o_zero_tol o) (o_inf_tol o)) as [[[[re im] md] sub] dropped] eqn:EF.
  destruct HF as (kept & -> & -> & -> & -> & Hk & Hp & Hc).
  pose proof (fun name place i value lg => draw_panel_shows o kept name place i value lg) as DP.
  destruct (axis_limits (map e_re kept) (map e_im kept)) as [[xl yl] half] eqn:EA.
  unfold plot_eigenvalue_sensitivity. rewrite Hds. cbn [bind]. rewrite EF.
  rewrite (proj2 (validate_ok requested (d_params ds) params) Hreq). cbn [bind].
  destruct (length params =? 0) eqn:E0; [apply Nat.eqb_eq in E0; lia|]. rewrite Hg. cbn [bind]. rewrite EA. rewrite Hval. cbn [bind snd].
  assert (forall p, In p params -> In p (d_params ds)) as Hin by (destruct requested as [l|]; [now destruct Hreq as [-> ?]|now subst]).
  match goal with |- context [map_ok ?f ?l] => destruct (map_ok_nth f l) as (panels & HP & HL & HN) end.
  { intros [[param place] idx] Hx. assert (In param params) as Hpar by (apply in_combine_l in Hx; now apply in_combine_l in Hx).
    destruct (position_spec param (d_params ds) (Hin _ Hpar)) as (i & Hi & _). rewrite Hi. cbn [bind]. eauto. }
  exists g, locs, kept, panels, dropped. rewrite HP. cbn [bind]. refine (conj eq_refl (conj eq_refl (conj (conj Hp Hk) (conj Hc (conj _ _))))).
  - rewrite HL. rewrite !combine_length, seq_length. lia.
  - intros k name Hname. assert (k < length params) as Hlt by (apply nth_error_Some; congruence).
    assert (nth_error (combine (combine params locs) (seq 0 (length params))) k = Some ((name, nth k locs ((0, 0), (0, 0))), k)) as Hk3.
    { assert (forall {A B} (a : list A) (b : list B) j x y, nth_error a j = Some x -> nth_error b j = Some y -> nth_error (combine a b) j = Some (x, y)) as NC.
      { intros A B a. induction a as [|u a IH]; intros b [|j] x y H1 H2; try discriminate; destruct b as [|w b]; try discriminate; cbn in *; [congruence|eauto]. }
      apply NC; [apply NC; [exact Hname|]|now apply nth_seq]. apply nth_error_nth'. lia. }
    destruct (HN k _ Hk3) as (p & Hpn & Hpe). cbv beta iota in Hpe.
    assert (In name (d_params ds)) as Hd by (apply Hin; eapply nth_error_In; exact Hname).
    destruct (position_spec name (d_params ds) Hd) as (i & Hi & Hnth). rewrite Hi in Hpe. cbn [bind] in Hpe. injection Hpe as <-.
    eexists. exists i. split; [exact Hpn|]. refine (conj Hnth (conj _ _)).
    + apply DP.
    + unfold draw_panel. cbn [s_legend]. apply Nat.eqb_eq.
Qed.
(* no parameter to plot, or one that is not in the data: ValueError *)
Theorem C159_sensitivity_refused m data requested o steady_state updates ds :
  (match data with Some d => Ok d | None => eigenvalue_sensitivity m steady_state updates end) = Ok ds ->
  requested = Some [] \/ (exists l p, requested = Some l /\ In p l /\ ~ In p (d_params ds)) \/ requested = None /\ d_params ds = [] ->
  plot_eigenvalue_sensitivity m data requested o steady_state updates = Err ValueError.
Proof.
  intros Hds H. unfold plot_eigenvalue_sensitivity. rewrite Hds. cbn [bind].
  destruct (filter_eigenvalues _ _ _ _ _) as [[[[re im] md] sub] dropped]. destruct H as [->|[(l & p & -> & Hp & Hn)|[-> Hd]]].
  - reflexivity.
  - unfold validate. destruct (forallb (fun q => mem q (d_params ds)) l) eqn:E; [|reflexivity]. rewrite forallb_forall in E. apply E, mem_iff in Hp. contradiction.
  - unfold validate. cbn [bind]. rewrite Hd. reflexivity.
Qed.
(* data computed at other parameters is shown with the model's own values: the values shown do not depend on the data *)
Theorem C159_sensitivity_values_refuted m ds1 ds2 requested o updates p1 p2 n1 n2 : d_params ds1 = d_params ds2 ->
  plot_eigenvalue_sensitivity m (Some ds1) requested o None updates = Ok (p1, n1) -> plot_eigenvalue_sensitivity m (Some ds2) requested o None updates = Ok (p2, n2) ->
  map s_value p1 = map s_value p2.
Proof.
  intros Hd H1 H2. unfold plot_eigenvalue_sensitivity in H1, H2. cbn [bind] in H1, H2.
  destruct (filter_eigenvalues (rows_of ds1) _ _ _ _) as [[[[re im] md] sub] dropped]. destruct (filter_eigenvalues (rows_of ds2) _ _ _ _) as [[[[re' im'] md'] sub'] dropped'].
  rewrite Hd in H1. destruct (validate requested (d_params ds2)) as [params|]; [|discriminate H1]. cbn [bind] in H1, H2.
  destruct (length params =? 0); [discriminate H1|]. destruct (prepare_gridspec_figure _ _) as [g|]; [|discriminate H1]. cbn [bind] in H1, H2.
  destruct (axis_limits re im) as [[xl yl] h]. destruct (axis_limits re' im') as [[xl' yl'] h'].
  destruct (parameters m _) as [values|]; [|discriminate H1]. cbn [bind] in H1, H2.
  match type of H1 with (bind (map_ok ?f ?l) _ = _) => set (l1 := l) in *; destruct (map_ok f l1) as [q1|] eqn:E1; [|discriminate H1] end.
  match type of H2 with (bind (map_ok ?f _) _ = _) => destruct (map_ok f l1) as [q2|] eqn:E2; [|discriminate H2] end.
  cbn [bind] in H1, H2. injection H1 as <- _. injection H2 as <- _. revert q1 q2 E1 E2. induction l1 as [|[[param place] idx] l IH]; intros q1 q2 E1 E2; cbn [map_ok] in E1, E2.
  - injection E1 as <-. injection E2 as <-. reflexivity.
  - destruct (position param (d_params ds2)) as [i|]; [|discriminate E1]. cbn [bind] in E1, E2.
    match type of E1 with (bind (map_ok ?f ?l) _ = _) => destruct (map_ok f l) as [t1|] eqn:F1; [|discriminate E1] end.
    match type of E2 with (bind (map_ok ?f ?l) _ = _) => destruct (map_ok f l) as [t2|] eqn:F2; [|discriminate E2] end.
    cbn [bind] in E1, E2. injection E1 as <-. injection E2 as <-. cbn [map]. f_equal. now apply IH.
Qed.

(* ---- plot_acf ---- *)
Section AcfSpec.
Variable V : Type.
Notation tensor := (tensor V).
(* the dimensions of a tensor that are neither the lag nor a sample dimension *)
Definition variable_dims (sample : list chars) (t : tensor) : list chars :=
  filter (fun d => negb (chars_eqb d (str "lag")) && negb (mem d sample)) (t_dims V t).
Definition sampled (sample : list chars) (t : tensor) : bool := existsb (fun d => mem d (t_dims V t)) sample.
(* all models have two variable dimensions, the first of them is [dim] *)
Definition over (sample : list chars) (dim : chars) (models : list (chars * tensor)) : Prop :=
  forall l t, In (l, t) models -> exists other, variable_dims sample t = [dim; other].
(* what is drawn of the i-th model: its own autocorrelations of the variable, moved by the model's offset; a forest if it has samples, else a stem *)
Definition series_of (sample : list chars) (lags : list Q) (n : nat) (dodge : Q) (v : chars) (x : nat * (chars * tensor)) : list (drawn_series V) :=
  let '(i, (_, t)) := x in
  if mem v (t_variables V t) then
    let at_ := map (fun lag => (lag + offset_of n dodge i)%Q) lags in
    [if sampled sample t then Forest V i at_ (t_own V t v) else Stem V i at_ (t_own V t v)]
  else [].
(* what is drawn of the reference: at its own lags *)
Definition data_of (r : option (reference V)) (v : chars) : list (drawn_series V) :=
  match r with
  | Some r => if existsb (fun d => negb (chars_eqb d (str "lag"))) (r_dims V r) && mem v (r_variables V r) then [Data V (r_lags V r) (r_own V r v)] else []
  | None => []
  end.
(* the values of the variables to plot are as many as the first model's lags *)
Definition fitting (lags : list Q) (vars : list chars) (models : list (chars * tensor)) (r : option (reference V)) : Prop :=
  (forall l t v, In (l, t) models -> In v vars -> In v (t_variables V t) -> length (t_own V t v) = length lags) /\
  (forall r', r = Some r' -> forall v, In v (r_variables V r') -> length (r_own V r' v) = length (r_lags V r')).

Lemma collected sample dim (models : list (chars * tensor)) : over sample dim models ->
  collect V sample models = Ok (map (fun lt => (fst lt, snd lt, filter (fun d => mem d (t_dims V (snd lt))) sample, dim)) models, match models with [] => None | _ => Some dim end).
Proof.
  intro H. unfold collect. rewrite (map_ok_pure _ (fun lt => (fst lt, snd lt, filter (fun d => mem d (t_dims V (snd lt))) sample, dim))).
  - cbn [bind]. do 2 f_equal. rewrite <- map_rev. destruct models as [|a l] using rev_ind; [reflexivity|]. rewrite rev_app_distr. cbn [rev app map]. now destruct l.
  - intros [l t] Hlt. cbn [fst snd]. destruct (H l t Hlt) as [other E]. unfold variable_dims in E.
    assert (filter (fun d => negb (chars_eqb d (str "lag")) && negb (mem d (filter (fun d => mem d (t_dims V t)) sample))) (t_dims V t) = [dim; other]) as E'.
    { rewrite <- E. apply filter_ext_in. intros d Hd. f_equal. f_equal. apply eq_true_iff_eq. rewrite !mem_iff, filter_In, mem_iff. tauto. }
    cbv zeta. rewrite E'. reflexivity.
Qed.
Lemma sampled_present sample (t : tensor) : sampled sample t = match filter (fun d => mem d (t_dims V t)) sample with [] => false | _ => true end.
Proof. unfold sampled. induction sample as [|d l IH]; [reflexivity|]. cbn [existsb filter]. destruct (mem d (t_dims V t)); [reflexivity|exact IH]. Qed.
Lemma drawn_models sample lags dodge n dim v (models : list (chars * tensor)) : forall a,
  (forall l t, In (l, t) models -> In v (t_variables V t) -> length (t_own V t v) = length lags) ->
  map_ok (draw_model V dim v lags) (combine (map (fun lt => (fst lt, snd lt, filter (fun d => mem d (t_dims V (snd lt))) sample, dim)) models) (map (fun i => (offset_of n dodge i, i)) (seq a (length models)))) =
  Ok (map (series_of sample lags n dodge v) (combine (seq a (length models)) models)).
Proof.
  induction models as [|[l t] models IH]; intros a H; [reflexivity|]. cbn [length seq map combine map_ok fst snd].
  assert (draw_model V dim v lags ((l, t, filter (fun d => mem d (t_dims V t)) sample, dim), (offset_of n dodge a, a)) = Ok (series_of sample lags n dodge v (a, (l, t)))) as ->.
  { unfold draw_model, coords_of. rewrite chars_eqb_refl. cbn [bind]. unfold series_of. destruct (mem v (t_variables V t)) eqn:E; cbn [negb]; [|reflexivity].
    rewrite sampled_present. assert (length (shift lags (offset_of n dodge a)) =? length (t_own V t v) = true) as L.
    { apply Nat.eqb_eq. unfold shift. rewrite map_length. symmetry. apply (H l t); [now left|]. now apply mem_iff. }
    unfold plotted. rewrite L. now destruct (filter (fun d => mem d (t_dims V t)) sample). }
  cbn [bind]. rewrite IH; [reflexivity|]. intros l' t' H'. apply (H l' t'). now right.
Qed.
Lemma drawn_reference r v : (forall r', r = Some r' -> forall v, In v (r_variables V r') -> length (r_own V r' v) = length (r_lags V r')) ->
  reference_series V r v = Ok (data_of r v).
Proof.
  intro H. unfold reference_series, data_of. destruct r as [r|]; [|reflexivity].
  assert (existsb (fun d => negb (chars_eqb d (str "lag"))) (r_dims V r) = match filter (fun d => negb (chars_eqb d (str "lag"))) (r_dims V r) with [] => false | _ => true end) as ->.
  { induction (r_dims V r) as [|d l IH]; [reflexivity|]. cbn [existsb filter]. destruct (negb _); [reflexivity|exact IH]. }
  destruct (filter _ _); [reflexivity|]. cbn [andb]. destruct (mem v (r_variables V r)) eqn:E; [|reflexivity]. unfold plotted.
  rewrite (H r eq_refl v) by (now apply mem_iff). now rewrite Nat.eqb_refl.
Qed.
(* one panel for each variable (by default all of the first model), in order; in it every model that has the variable, in order, at the first model's lags moved by
   its offset, and last the reference; the legend names the models if there are several, and "data" if there is a reference *)
Theorem C159_acf label first rest vars_to_plot sample r dodge n_cols dim vars : let models := (label, first) :: rest in
  over sample dim models ->
  match vars_to_plot with None => vars = t_variables V first | Some l => vars = l /\ forall v, In v l -> In v (t_variables V first) end ->
  vars <> [] -> 0 < n_cols -> fitting (t_lags V first) vars models r ->
  exists g locs, prepare_gridspec_figure (Nat.min n_cols (length vars)) (length vars) = Ok (g, locs) /\
    plot_acf V models vars_to_plot sample r dodge n_cols =
    Ok (map (fun vp => AcfPanel V (fst vp) (snd vp)
               (concat (map (series_of sample (t_lags V first) (length models) dodge (fst vp)) (combine (seq 0 (length models)) models)) ++ data_of r (fst vp))) (combine vars locs),
        (if 1 <? length models then map fst models else []) ++ match r with None => [] | Some _ => [str "data"] end).
Proof.
  cbv zeta. intros Ho Hv Hne Hc [Hf Hr]. assert (0 < length vars) as Hn by (destruct vars; [easy|cbn; lia]).
  destruct (prepared (Nat.min n_cols (length vars)) (length vars)) as (g & locs & Hg & Hl); [lia|exact Hn|]. exists g, locs. split; [exact Hg|].
  unfold plot_acf. rewrite (collected sample dim _ Ho). cbn [bind fst snd]. cbn [map fst snd].
  unfold coords_of at 1. rewrite chars_eqb_refl. cbn [bind].
  assert ((match vars_to_plot with None => Ok (t_variables V first) | Some l => if forallb (fun v => mem v (t_variables V first)) l then Ok l else Err ValueError end) = Ok vars) as ->.
  { destruct vars_to_plot as [l|]; [|now rewrite Hv]. destruct Hv as [-> Hv].
    assert (forallb (fun v => mem v (t_variables V first)) l = true) as -> by (apply forallb_forall; intros v H; apply mem_iff; auto). reflexivity. }
  cbn [bind]. rewrite Hg. cbn [bind snd].
  match goal with |- context [map_ok ?f ?l] => rewrite (map_ok_pure f (fun vp => AcfPanel V (fst vp) (snd vp)
    (concat (map (series_of sample (t_lags V first) (length ((label, first) :: rest)) dodge (fst vp)) (combine (seq 0 (length ((label, first) :: rest))) ((label, first) :: rest))) ++ data_of r (fst vp))) l) end.
  - reflexivity.
  - intros [v place] Hvp. cbn [fst snd]. assert (In v vars) as Hin by (now apply in_combine_l in Hvp).
    pose proof (drawn_models sample (t_lags V first) dodge (length ((label, first) :: rest)) dim v ((label, first) :: rest) 0) as D. cbn [map fst snd] in D.
    rewrite D by (intros l t H1 H2; now apply (Hf l t)). cbn [bind]. rewrite (drawn_reference r v Hr). reflexivity.
Qed.
(* the offsets of the models are [dodge] apart and centred at the lag; a single model has none *)
Theorem C159_acf_offsets n dodge i :
  (1 < n -> (offset_of n dodge (S i) - offset_of n dodge i == dodge)%Q) /\
  (i < n -> (offset_of n dodge i + offset_of n dodge (n - 1 - i) == 0)%Q) /\ (offset_of 1 dodge i == 0)%Q.
Proof.
  unfold offset_of. refine (conj _ (conj _ _)).
  - intro H. assert (1 <? n = true) as -> by (now apply Nat.ltb_lt). rewrite Nat2Z.inj_succ. unfold Z.succ. rewrite inject_Z_plus. change (inject_Z 1) with 1%Q. field.
  - intro H. assert (inject_Z (Z.of_nat (n - 1 - i)) == inject_Z (Z.of_nat n) - 1 - inject_Z (Z.of_nat i))%Q as ->.
    { replace (Z.of_nat (n - 1 - i)) with (Z.of_nat n - 1 - Z.of_nat i)%Z by lia. unfold Z.sub. now rewrite !inject_Z_plus, !inject_Z_opp. }
    field.
  - cbn [Nat.ltb Nat.leb]. change (inject_Z (Z.of_nat 1)) with 1%Q. field.
Qed.
(* refusals: no model; a tensor without exactly two variable dimensions; a name the first model does not have *)
Theorem C159_acf_refused sample r dodge n_cols :
  (forall vars, plot_acf V [] vars sample r dodge n_cols = Err StopIteration) /\
  (forall models vars, (exists l t, In (l, t) models /\ length (variable_dims sample t) <> 2) -> plot_acf V models vars sample r dodge n_cols = Err ValueError) /\
  (forall label first rest dim l, over sample dim ((label, first) :: rest) -> (exists v, In v l /\ ~ In v (t_variables V first)) ->
     plot_acf V ((label, first) :: rest) (Some l) sample r dodge n_cols = Err ValueError).
Proof.
  refine (conj _ (conj _ _)).
  - intro vars. reflexivity.
  - intros models vars (l & t & Hin & Hlen). unfold plot_acf, collect. erewrite map_ok_err with (e := ValueError); [reflexivity| |].
    + exists (l, t). split; [exact Hin|]. cbn [snd fst]. cbv zeta.
      assert (filter (fun d => negb (chars_eqb d (str "lag")) && negb (mem d (filter (fun d => mem d (t_dims V t)) sample))) (t_dims V t) = variable_dims sample t) as ->.
      { unfold variable_dims. apply filter_ext_in. intros d Hd. f_equal. f_equal. apply eq_true_iff_eq. rewrite !mem_iff, filter_In, mem_iff. tauto. }
      destruct (variable_dims sample t) as [|a [|b [|c q]]]; cbn in Hlen; try reflexivity; lia.
    + intros [l' t'] _. cbn [snd fst]. cbv zeta. destruct (filter _ (t_dims V t')) as [|a [|b [|c q]]]; eauto.
  - intros label first rest dim l Ho (v & Hv & Hnv). unfold plot_acf. rewrite (collected sample dim _ Ho). cbn [bind fst snd map]. unfold coords_of at 1. rewrite chars_eqb_refl. cbn [bind].
    destruct (forallb (fun v => mem v (t_variables V first)) l) eqn:E; [|reflexivity]. rewrite forallb_forall in E. apply E, mem_iff in Hv. contradiction.
Qed.
Definition collected_as (sample : list chars) (lt : chars * tensor) (x : chars * tensor * list chars * chars) : Prop :=
  exists a b present, variable_dims sample (snd lt) = [a; b] /\ x = (fst lt, snd lt, present, a).
Lemma collect_inv sample (models : list (chars * tensor)) c vd : collect V sample models = Ok (c, vd) -> Forall2 (collected_as sample) models c.
Proof.
  unfold collect. match goal with |- bind (map_ok ?f _) _ = _ -> _ => set (g := f) end. destruct (map_ok g models) as [c0|] eqn:E; [|discriminate]. cbn [bind]. intro H. injection H as -> _.
  revert c E. induction models as [|[l t] models IH]; intros c E; cbn [map_ok] in E; [injection E as <-; constructor|].
  destruct (g (l, t)) as [x|] eqn:G; [|discriminate E]. cbn [bind] in E. destruct (map_ok g models) as [c1|]; [|discriminate E]. injection E as <-. constructor; [|now apply IH].
  unfold g in G. cbv zeta in G. cbn [fst snd] in G.
  assert (filter (fun d => negb (chars_eqb d (str "lag")) && negb (mem d (filter (fun d => mem d (t_dims V t)) sample))) (t_dims V t) = variable_dims sample t) as Q.
  { unfold variable_dims. apply filter_ext_in. intros d Hd. f_equal. f_equal. apply eq_true_iff_eq. rewrite !mem_iff, filter_In, mem_iff. tauto. }
  rewrite Q in G. unfold collected_as. cbn [fst snd]. destruct (variable_dims sample t) as [|a [|b [|c2 q]]]; try discriminate G. injection G as <-. now exists a, b, (filter (fun d => mem d (t_dims V t)) sample).
Qed.
Lemma nth_combine {A B} (a : list A) : forall (b : list B) j x y, nth_error a j = Some x -> nth_error b j = Some y -> nth_error (combine a b) j = Some (x, y).
Proof. induction a as [|u a IH]; intros b [|j] x y H1 H2; try discriminate; destruct b as [|w b]; try discriminate; cbn in *; [congruence|eauto]. Qed.
(* in every figure all models that are drawn share the name of the variable dimension, and every model's values are as many as the first model's lags: others cannot be overlaid *)
Theorem C159_acf_overlay_refuted label first rest vars_to_plot sample r dodge n_cols fig :
  plot_acf V ((label, first) :: rest) vars_to_plot sample r dodge n_cols = Ok fig ->
  forall l t, In (l, t) rest -> hd_error (variable_dims sample t) = hd_error (variable_dims sample first) /\
    forall v, In v (map (a_variable V) (fst fig)) -> In v (t_variables V t) -> length (t_own V t v) = length (t_lags V first).
Proof.
  intro E. unfold plot_acf in E. destruct (collect V sample ((label, first) :: rest)) as [[c vd]|] eqn:EC; [|discriminate E]. cbn [bind fst snd] in E.
  pose proof (collect_inv _ _ _ _ EC) as F. inversion F as [|lt1 x1 m' c' Hx Hr E1 E2]. subst. cbn [map] in E. destruct vd as [var_dim|]; [|discriminate E].
  destruct Hx as (a & b & present & Hd & ->). cbn [fst snd] in *. unfold coords_of at 1 in E. destruct (chars_eqb var_dim a) eqn:Ea; [|discriminate E]. apply chars_eqb_eq in Ea. subst a. cbn [bind] in E.
  match type of E with (bind ?m _ = _) => destruct m as [vars|] eqn:EV; [|discriminate E] end. cbn [bind] in E.
  destruct (prepare_gridspec_figure (Nat.min n_cols (length vars)) (length vars)) as [[g locs]|] eqn:Eg; [|discriminate E]. cbn [bind snd] in E.
  assert (0 < Nat.min n_cols (length vars) /\ 0 < length vars) as [_ Hn] by (apply C138_refused; now exists g, locs).
  destruct (C138_panels _ _ _ _ Eg) as (Hl & _).
  match type of E with (bind (map_ok ?f ?l) _ = _) => destruct (map_ok f l) as [panels|] eqn:EP; [|discriminate E]; set (body := f) in *; set (arg := l) in * end. cbn [bind] in E. injection E as <-. cbn [fst].
  pose proof (map_ok_each _ _ _ EP) as Each.
  assert (forall l t v place, In (l, t) rest -> In (v, place) arg -> hd_error (variable_dims sample t) = Some var_dim /\ (In v (t_variables V t) -> length (t_own V t v) = length (t_lags V first))) as Key.
  { intros l t v place Hin Hv. destruct (Each _ Hv) as [y Hy]. unfold body in Hy. cbn [fst snd] in Hy.
    match type of Hy with (bind (map_ok ?f ?l) _ = _) => destruct (map_ok f l) as [s|] eqn:ES; [|discriminate Hy] end.
    destruct (In_nth_error _ _ Hin) as [j Hj].
    assert (exists x, nth_error c' j = Some x /\ collected_as sample (l, t) x) as (x & Hxj & (a & b2 & pr & Hd2 & ->)).
    { clear -Hr Hj. revert j Hj. induction Hr as [|lt x m c H _ IH]; intros [|j] Hj; try discriminate; cbn in Hj; [injection Hj as ->; now exists x|now apply IH]. }
    cbn [fst snd] in *.
    assert (In ((l, t, pr, a), (offset_of (length ((label, first) :: rest)) dodge (S j), S j)) (combine ((label, first, present, var_dim) :: c') (map (fun i => (offset_of (length ((label, first) :: rest)) dodge i, i)) (seq 0 (length ((label, first) :: rest)))))) as Hc.
    { eapply nth_error_In with (n := S j). apply nth_combine; [exact Hxj|]. rewrite nth_error_map, nth_seq; [reflexivity|]. cbn [length]. assert (j < length rest) by (apply nth_error_Some; congruence). lia. }
    destruct (map_ok_each _ _ _ ES _ Hc) as [d Hdm]. unfold draw_model, coords_of in Hdm. destruct (chars_eqb var_dim a) eqn:Ea; [|discriminate Hdm]. apply chars_eqb_eq in Ea. subst a.
    rewrite Hd2. split; [reflexivity|]. intro Hm. apply mem_iff in Hm. cbn [bind] in Hdm. rewrite Hm in Hdm. cbn [negb] in Hdm.
    assert (exists s', plotted V (shift (t_lags V first) (offset_of (length ((label, first) :: rest)) dodge (S j))) (t_own V t v) s' = Ok d) as (s' & Hs) by (destruct pr; eauto).
    unfold plotted in Hs. destruct (_ =? _) eqn:El in Hs; [|discriminate Hs]. apply Nat.eqb_eq in El. unfold shift in El. rewrite map_length in El. now symmetry. }
  intros l t Hin. assert (exists v place, In (v, place) arg) as (v0 & p0 & H0).
  { unfold arg. destruct vars as [|v vs]; [cbn in Hn; lia|]. destruct locs as [|q qs]; [cbn in Hl; lia|]. exists v, q. now left. }
  split; [rewrite Hd; exact (proj1 (Key l t v0 p0 Hin H0))|]. intros v Hv Ht.
  assert (exists place, In (v, place) arg) as (place & Hp).
  { clear -EP Hv. revert panels EP Hv. induction arg as [|[v' p'] arg IH]; intros panels EP Hv; cbn [map_ok] in EP; [injection EP as <-; destruct Hv|].
    destruct (body (v', p')) as [y|] eqn:B; [|discriminate EP]. cbn [bind] in EP. destruct (map_ok body arg) as [t|]; [|discriminate EP]. injection EP as <-. cbn [map] in Hv. destruct Hv as [Hv|Hv].
    - exists p'. left. unfold body in B. cbn [fst snd] in B. destruct (map_ok _ _) in B; [|discriminate B]. cbn [bind] in B. destruct (reference_series V r v') in B; [|discriminate B]. injection B as <-. cbn [a_variable] in Hv. now subst.
    - destruct (IH t eq_refl Hv) as [q Hq]. exists q. now right. }
  exact (proj2 (Key l t v place Hin Hp) Ht).
Qed.
End AcfSpec.

(* ---- plot_kalman_filter ---- *)
Section KalmanSpec.
Variables S N : Type.
(* one panel for each variable, in order: its draws in the output asked for, and the data's column of its name if there is one *)
Theorem C159_kalman (t : kalman_tree S) (data : list (chars * list N)) kalman_output group n_cols vars_to_plot (observed : bool) out vars :
  In (lower kalman_output) [str "filtered"; str "predicted"; str "smoothed"] ->
  NoDup (map fst (k_groups S t)) -> In (kalman_output ++ str "_" ++ group ++ (if observed then str "_observed" else str ""), out) (k_groups S t) ->
  NoDup (map fst out) -> NoDup (map fst data) -> (forall n d, In (n, d) data -> length d = k_time S t) ->
  vars = match vars_to_plot with Some l => l | None => if observed then k_observed S t else k_states S t end ->
  vars <> [] -> (forall v, In v vars -> In v (map fst out)) -> n_cols <> Some 0 ->
  exists g locs panels, prepare_gridspec_figure (match n_cols with None => Nat.min 4 (length vars) | Some c => c end) (length vars) = Ok (g, locs) /\
    plot_kalman_filter S N t data kalman_output group n_cols vars_to_plot observed = Ok panels /\ length panels = length vars /\
    forall k v, nth_error vars k = Some v -> exists p, nth_error panels k = Some p /\ k_variable S N p = v /\ k_place S N p = nth k locs ((0, 0), (0, 0)) /\
      In (v, k_draws S N p) out /\ (forall d, k_data S N p = Some d <-> In (v, d) data).
Proof.
  intros Hk Ng Hg No Nd Hlen Hv Hne Hin Hc. assert (0 < length vars) as Hn by (destruct vars; [easy|cbn; lia]).
  destruct (prepared (match n_cols with None => Nat.min 4 (length vars) | Some c => c end) (length vars)) as (g & locs & Hgr & Hl); [destruct n_cols as [[|c]|]; [congruence|lia|lia]|exact Hn|].
  unfold plot_kalman_filter. apply mem_iff in Hk. rewrite Hk. cbn [negb]. rewrite <- Hv. rewrite Hgr. cbn [bind snd].
  assert (output_name kalman_output group observed = kalman_output ++ str "_" ++ group ++ (if observed then str "_observed" else str "")) as -> by (unfold output_name; destruct observed; [reflexivity|change (str "") with (@nil ascii); now rewrite app_nil_r]).
  rewrite (lookup_in _ _ _ Ng Hg). cbn [bind].
  destruct (map_ok_nth (fun v => lookup v out) vars) as (draws & Hd & Ld & Nth).
  { intros v H. apply Hin in H. apply in_map_iff in H. destruct H as ([n s] & <- & H). exists s. now apply lookup_in. }
  rewrite Hd. cbn [bind].
  match goal with |- context [map_ok ?f ?l] => destruct (map_ok_nth f l) as (panels & HP & HL & HN) end.
  { intros [[v place] s] _. destruct (lookup v data) as [d|] eqn:E; [|eauto]. rewrite (Hlen v d) by (now apply lookup_found). rewrite Nat.eqb_refl. eauto. }
  exists g, locs, panels. rewrite HP. refine (conj eq_refl (conj eq_refl (conj _ _))).
  - rewrite HL, !combine_length. lia.
  - intros k v Hkv. assert (k < length vars) as Hlt by (apply nth_error_Some; congruence). destruct (Nth k v Hkv) as (s & Hs & Hls).
    destruct (HN k (v, nth k locs ((0, 0), (0, 0)), s)) as (p & Hp & Hpe).
    { apply nth_combine; [apply nth_combine; [exact Hkv|]|exact Hs]. apply nth_error_nth'. lia. }
    cbv beta iota in Hpe. exists p. split; [exact Hp|]. destruct (lookup v data) as [d|] eqn:E.
    + rewrite (Hlen v d) in Hpe by (now apply lookup_found). rewrite Nat.eqb_refl in Hpe. injection Hpe as <-. cbn [k_variable k_place k_draws k_data].
      refine (conj eq_refl (conj eq_refl (conj (lookup_found _ _ _ Hls) _))). intro d'. split; [intro X; injection X as <-; now apply lookup_found|].
      intro X. rewrite (lookup_in _ _ _ Nd X) in E. congruence.
    + injection Hpe as <-. cbn [k_variable k_place k_draws k_data]. refine (conj eq_refl (conj eq_refl (conj (lookup_found _ _ _ Hls) _))). intro d'. split; [discriminate|].
      intro X. rewrite (lookup_in _ _ _ Nd X) in E. discriminate E.
Qed.
(* another output is refused *)
Theorem C159_kalman_refused (t : kalman_tree S) (data : list (chars * list N)) kalman_output group n_cols vars observed :
  ~ In (lower kalman_output) [str "filtered"; str "predicted"; str "smoothed"] -> plot_kalman_filter S N t data kalman_output group n_cols vars observed = Err ValueError.
Proof. intro H. unfold plot_kalman_filter. destruct (mem _ _) eqn:E; [apply mem_iff in E; contradiction|reflexivity]. Qed.
(* "Predicted" passes the check of the output's name, but is then looked up as it is written *)
Theorem C159_kalman_case_refuted (t : kalman_tree S) (data : list (chars * list N)) group vars :
  (forall n, In n (map fst (k_groups S t)) -> exists o, In o [str "filtered"; str "predicted"; str "smoothed"] /\ exists rest, n = o ++ rest) -> vars <> [] ->
  plot_kalman_filter S N t data (str "Predicted") group None (Some vars) false = Err KeyError.
Proof.
  intros H Hv. unfold plot_kalman_filter. change (negb (mem (lower (str "Predicted")) [str "filtered"; str "predicted"; str "smoothed"])) with false. cbv iota.
  assert (0 < length vars) as Hn by (destruct vars; [easy|cbn; lia]). destruct (prepared (Nat.min 4 (length vars)) (length vars)) as (g & locs & -> & _); [lia|exact Hn|]. cbn [bind].
  assert (lookup (output_name (str "Predicted") group false) (k_groups S t) = Err KeyError) as ->; [|reflexivity].
  apply lookup_absent. intro X. destruct (H _ X) as (o & Ho & rest & E). cbn [In] in Ho. destruct Ho as [Ho|[Ho|[Ho|[]]]]; subst o; discriminate E.
Qed.
End KalmanSpec.

(* ---- plot_priors ---- *)
Section PriorSpec.
Variables P N : Type.
Variable is_zero : N -> bool.
(* with all the priors: one panel for each parameter and each shock's parameter, in order, with its own prior, and its value marked if it is known and not zero *)
Theorem C159_priors (priors hyper : list (chars * P)) (values : list (chars * N)) n_cols mark : NoDup (map fst (priors ++ hyper)) -> NoDup (map fst values) ->
  priors ++ hyper <> [] -> 0 < n_cols ->
  exists g locs panels, prepare_gridspec_figure n_cols (length (priors ++ hyper)) = Ok (g, locs) /\
    plot_priors P N is_zero priors hyper values None n_cols mark = Ok (panels, 2 * (length (priors ++ hyper) / n_cols)) /\
    length panels = length (priors ++ hyper) /\
    forall k name prior, nth_error (priors ++ hyper) k = Some (name, prior) -> exists p, nth_error panels k = Some p /\
      p_name P N p = name /\ p_prior P N p = prior /\ p_place P N p = nth k locs ((0, 0), (0, 0)) /\
      forall v, p_mark P N p = Some v <-> In (name, v) values /\ is_zero v = false /\ mark = true.
Proof.
  intros Nd Nv Hne Hc. set (all := priors ++ hyper) in *. assert (0 < length all) as Hn by (destruct all; [easy|cbn; lia]).
  destruct (prepared n_cols (length all) Hc Hn) as (g & locs & Hg & Hl).
  assert (union priors (union [] hyper) = all) as HA.
  { assert (union [] hyper = hyper) as ->. { rewrite union_fresh; [reflexivity|]. unfold all in Nd. rewrite map_app in Nd. cbn [app]. clear -Nd. induction (map fst priors) as [|x l IH]; [exact Nd|]. cbn [app] in Nd. inversion Nd; subst. auto. }
    now apply union_fresh. }
  unfold plot_priors. rewrite HA.
  assert (map_ok (fun k => v <- lookup k all ;; Ok (k, v)) (map fst all) = Ok all) as ->.
  { assert (forall l, (forall x, In x l -> In x all) -> map_ok (fun k => v <- lookup k all ;; Ok (k, v)) (map fst l) = Ok l) as Q.
    { induction l as [|[k v] l IH]; intro H; [reflexivity|]. cbn [map map_ok fst]. rewrite (lookup_in k v all Nd) by (apply H; now left). cbn [bind]. rewrite IH; [reflexivity|]. intros x Hx. apply H. now right. }
    apply Q. auto. }
  cbn [bind]. rewrite (union_fresh all []) by exact Nd. cbn [app]. destruct (n_cols =? 0) eqn:E0; [apply Nat.eqb_eq in E0; lia|]. rewrite Hg. cbn [bind snd].
  eexists g, locs, _. refine (conj eq_refl (conj eq_refl (conj _ _))).
  - rewrite map_length, combine_length. lia.
  - intros k name prior Hk. assert (k < length all) as Hlt by (apply nth_error_Some; congruence). eexists. split.
    { rewrite nth_error_map. rewrite (nth_combine all locs k (name, prior) (nth k locs ((0, 0), (0, 0)))); [reflexivity|exact Hk|]. apply nth_error_nth'. lia. }
    cbn [p_name p_prior p_place p_mark]. refine (conj eq_refl (conj eq_refl (conj eq_refl _))). intro v. destruct (lookup name values) as [w|] eqn:E.
    + apply lookup_found in E. split.
      * destruct mark; cbn [andb]; [|discriminate]. destruct (is_zero w) eqn:Z; cbn [negb]; [discriminate|]. intro X. injection X as <-. auto.
      * intros (Hv & Z & ->). pose proof (lookup_in _ _ _ Nv E) as L1. rewrite (lookup_in _ _ _ Nv Hv) in L1. injection L1 as ->. now rewrite Z.
    + split; [discriminate|]. intros (Hv & _). rewrite (lookup_in _ _ _ Nv Hv) in E. discriminate E.
Qed.
(* asked for some of the priors, it draws as many, but always the first ones *)
Theorem C159_priors_requested_refuted (priors hyper : list (chars * P)) (values : list (chars * N)) names n_cols mark : NoDup (map fst (priors ++ hyper)) ->
  NoDup names -> (forall n, In n names -> In n (map fst (priors ++ hyper))) -> names <> [] -> 0 < n_cols ->
  exists panels height, plot_priors P N is_zero priors hyper values (Some names) n_cols mark = Ok (panels, height) /\
    map (p_name P N) panels = firstn (length names) (map fst (priors ++ hyper)).
Proof.
  intros Nd Nn Hin Hne Hc. set (all := priors ++ hyper) in *. assert (0 < length names) as Hn by (destruct names; [easy|cbn; lia]).
  destruct (prepared n_cols (length names) Hc Hn) as (g & locs & Hg & Hl).
  assert (union priors (union [] hyper) = all) as HA.
  { assert (union [] hyper = hyper) as ->. { rewrite union_fresh; [reflexivity|]. unfold all in Nd. rewrite map_app in Nd. cbn [app]. clear -Nd. induction (map fst priors) as [|x l IH]; [exact Nd|]. cbn [app] in Nd. inversion Nd; subst. auto. }
    now apply union_fresh. }
  unfold plot_priors. rewrite HA.
  assert (exists chosen, map_ok (fun k => v <- lookup k all ;; Ok (k, v)) names = Ok chosen /\ map fst chosen = names) as (chosen & -> & Hch).
  { clear Hg Hn Hne Nn Hl. induction names as [|n names IH]; [exists []; auto|]. destruct IH as (c & E & F); [intros x Hx; apply Hin; now right|].
    assert (In n (map fst all)) as H by (apply Hin; now left). apply in_map_iff in H. destruct H as ([n' v] & <- & H). cbn [map_ok fst]. rewrite (lookup_in _ _ _ Nd H). cbn [bind]. rewrite E. cbn [bind].
    eexists. split; [reflexivity|]. cbn [map fst]. now rewrite F. }
  cbn [bind]. rewrite (union_fresh chosen []) by (cbn [app]; now rewrite Hch). cbn [app]. destruct (n_cols =? 0) eqn:E0; [apply Nat.eqb_eq in E0; lia|].
  assert (length chosen = length names) as -> by (rewrite <- Hch; now rewrite map_length). rewrite Hg. cbn [bind snd]. eexists _, _. split; [reflexivity|].
  rewrite map_map. rewrite <- Hl. clear. revert locs. induction all as [|[k v] l IH]; intros [|q locs]; try reflexivity. cbn [combine map fst length firstn p_name]. now rewrite IH.
Qed.
(* a name without a prior: KeyError; no column: ZeroDivisionError; nothing to draw: ValueError *)
Theorem C159_priors_refused (priors hyper : list (chars * P)) (values : list (chars * N)) n_cols mark :
  (forall names n, In n names -> ~ In n (map fst (priors ++ hyper)) -> plot_priors P N is_zero priors hyper values (Some names) n_cols mark = Err KeyError) /\
  (0 < n_cols -> plot_priors P N is_zero priors hyper values (Some []) n_cols mark = Err ValueError).
Proof.
  split.
  - intros names n Hn Hno. unfold plot_priors. rewrite map_ok_err with (e := KeyError); [reflexivity| |].
    + exists n. split; [exact Hn|]. rewrite (proj1 (lookup_absent n _)); [reflexivity|]. rewrite !keys_union. rewrite map_app, in_app_iff in Hno. cbn [map In]. tauto.
    + intros x _. destruct (in_dec (list_eq_dec ascii_dec) x (map fst (union priors (union [] hyper)))) as [I|I].
      * right. destruct (lookup x (union priors (union [] hyper))) as [v|e] eqn:E; [cbn [bind]; eauto|]. exfalso.
        assert (e = KeyError) as ->. { clear -E. induction (union priors (union [] hyper)) as [|[k v] l IH]; cbn [lookup] in E; [congruence|]. destruct (chars_eqb x k); [discriminate E|auto]. }
        now apply lookup_absent in E.
      * left. apply lookup_absent in I. now rewrite I.
  - intro Hc. unfold plot_priors. cbn [map_ok bind]. destruct (n_cols =? 0) eqn:E0; [apply Nat.eqb_eq in E0; lia|]. change (length (union [] [] : list (chars * P))) with 0.
    unfold prepare_gridspec_figure. rewrite E0. rewrite Nat.mod_0_l, Nat.div_0_l by lia. reflexivity.
Qed.
(* the default height is zero with fewer priors than columns *)
Theorem C159_priors_height_refuted (priors hyper : list (chars * P)) (values : list (chars * N)) n_cols mark : NoDup (map fst (priors ++ hyper)) -> NoDup (map fst values) ->
  priors ++ hyper <> [] -> length (priors ++ hyper) < n_cols ->
  exists panels, plot_priors P N is_zero priors hyper values None n_cols mark = Ok (panels, 0).
Proof.
  intros A B C D. destruct (C159_priors priors hyper values n_cols mark A B C) as (g & locs & panels & _ & H & _); [lia|]. exists panels. rewrite H. now rewrite Nat.div_small.
Qed.
End PriorSpec.

(* ---- plot_estimated_matrix ---- *)
Section MatrixSpec.
Variable N : Type.
Variable short : chars -> chars.
(* n by n panels; a panel on or above the diagonal is hidden if the matrix is symmetrical; another one shows its own entry; the first column names the rows' shocks, the
   last row the columns' *)
Theorem C159_matrix shocks (entries : list (list N)) symmetrical : shocks <> [] -> length entries = length shocks -> (forall row, In row entries -> length row = length shocks) ->
  exists fig, plot_estimated_matrix N short (length shocks) shocks entries symmetrical = Ok fig /\
    figure (length shocks) (fun i j p =>
      if symmetrical && (i <=? j) then p = MHidden N
      else exists row e x y, nth_error entries i = Some row /\ nth_error row j = Some e /\ nth_error shocks i = Some y /\ nth_error shocks j = Some x /\
           p = MShown N e (if j =? 0 then short y else []) (if S i =? length shocks then short x else [])) fig.
Proof.
  intros Hne He Hr. unfold plot_estimated_matrix. destruct (length shocks =? 0) eqn:E0; [apply Nat.eqb_eq in E0; destruct shocks; [easy|discriminate E0]|]. apply Nat.eqb_neq in E0.
  apply figure_ok. intros i j Hi Hj. rewrite (andb_comm symmetrical). destruct ((i <=? j) && symmetrical); [now exists (MHidden N)|].
  destruct (nth_error shocks i) as [y|] eqn:Ey; [|apply nth_error_None in Ey; lia]. destruct (nth_error shocks j) as [x|] eqn:Ex; [|apply nth_error_None in Ex; lia].
  destruct (nth_error entries i) as [row|] eqn:Er; [|apply nth_error_None in Er; lia].
  assert (length row = length shocks) as Hrow by (apply Hr; eapply nth_error_In; exact Er).
  destruct (nth_error row j) as [e|] eqn:Ee; [|apply nth_error_None in Ee; lia].
  unfold at_index. rewrite Ey, Ex, Er. cbn [bind]. rewrite Ee. cbn [bind]. eexists. split; [reflexivity|]. exists row, e, x, y.
  refine (conj eq_refl (conj Ee (conj eq_refl (conj eq_refl _)))). f_equal. destruct (Nat.eqb_spec i (length shocks - 1)), (Nat.eqb_spec (S i) (length shocks)); try reflexivity; lia.
Qed.
(* of a symmetrical matrix the diagonal is not shown: a single shock shows nothing at all *)
Theorem C159_matrix_diagonal_refuted shock (e : N) : plot_estimated_matrix N short 1 [shock] [[e]] true = Ok [[MHidden N]].
Proof. reflexivity. Qed.
Theorem C159_matrix_refused shocks (entries : list (list N)) symmetrical : plot_estimated_matrix N short 0 shocks entries symmetrical = Err ValueError.
Proof. reflexivity. Qed.
End MatrixSpec.

(* ---- a concrete case ---- *)
Definition case_tensor (names : list string) (values : list nat) : tensor nat :=
  Tensor nat [str "lag"; str "variable"; str "variable_aux"] (map str names) [0%Q; 1%Q] (fun _ => values).
Definition case_sens : sens_model := SM [] [(str "a", 2%R)] [] (fun _ => Ok []) [] (fun _ => []) (fun _ _ _ => 0%R) (fun _ _ _ => 0%R).
Definition case_data : dataset := DS [str "a"] [((/ 2)%R, 0%R, (/ 2)%R)] [([1%R], [0%R])].
Theorem C159_case :
  (exists fig, plot_acf nat [(str "m1", case_tensor ["c"%string; "k"%string] [5; 6]); (str "m2", case_tensor ["k"%string] [7; 8])] None [] None 1 4 = Ok fig /\
     snd fig = [str "m1"; str "m2"] /\ map (fun p => length (a_series nat p)) (fst fig) = [1; 2]) /\
  (exists fig, fst (plot_eigenvalues (V := nat) (fun _ => Ok [Eig (Finite 2) 2 0; Eig Infinite 0 0]) None []) = Ok fig /\ dots fig = [(2%R, 0%R, str "tab:red")] /\ not_shown fig = 1) /\
  (exists panels, plot_eigenvalue_sensitivity case_sens (Some case_data) None (Opt (/ 100) true true 0 (Some 10%R) 0 None) None [] = Ok (panels, 0) /\
     map s_value panels = [2%R]) /\
  (exists panels, plot_priors nat nat (Nat.eqb 0) [(str "a", 1); (str "b", 2)] [(str "s", 3)] [(str "b", 0); (str "s", 9)] None 2 true = Ok (panels, 2) /\
     map (p_name nat nat) panels = [str "a"; str "b"; str "s"] /\ map (p_mark nat nat) panels = [None; None; Some 9]) /\
  (exists panels, plot_kalman_filter nat nat (Tree nat [str "x"] [] 1 [(str "filtered_prior", [(str "x", 4)])]) [(str "x", [8])] (str "filtered") (str "prior") None None false = Ok panels /\
     map (k_draws nat nat) panels = [4] /\ map (k_data nat nat) panels = [Some [8]]) /\
  plot_estimated_matrix nat (fun x => x) 2 [str "e"; str "f"] [[1; 2]; [3; 4]] true = Ok [[MHidden nat; MHidden nat]; [MShown nat 3 (str "f") (str "e"); MHidden nat]].
Proof.
  refine (conj _ (conj _ (conj _ (conj _ (conj _ _))))); try (eexists; refine (conj eq_refl (conj eq_refl eq_refl))); [|].
  - unfold plot_eigenvalues. cbn [bind fst filter size_gt size_lt eig_size map eig_real eig_imag length].
    assert (Rgtb 2 10 = false) as -> by (unfold Rgtb; destruct (Rlt_dec 10 2); [lra|reflexivity]).
    assert (Rgtb 10 2 = true) as -> by (apply Rgtb_iff; lra). cbn [filter map eig_real eig_imag eig_size size_gt]. assert (Rgtb 2 1 = true) as -> by (apply Rgtb_iff; lra).
    eexists. refine (conj eq_refl (conj eq_refl eq_refl)).
  - destruct (C159_sensitivity case_sens (Some case_data) None (Opt (/ 100) true true 0 (Some 10%R) 0 None) None [] case_data [str "a"] [(str "a", 2%R)] eq_refl eq_refl) as (g & locs & kept & panels & left_out & _ & E & K & L & LP & H);
      [discriminate|reflexivity|].
    assert (left_out = 0) as ->.
    { assert (In (ER 0 (/ 2) 0 (/ 2) ([1%R], [0%R])) kept) as Hin. { apply K. split; [now left|]. unfold shown. cbn [o_zeros o_infinite o_zero_tol e_mod]. unfold tolerance. cbn [o_inf_tol]. split; intros _; lra. }
      destruct kept as [|r [|r2 kept]]; [destruct Hin| |]; cbn in L; lia. }
    exists panels. split; [exact E|]. destruct (H 0 (str "a") eq_refl) as (p & i & Hp & Hi & Hs & _). destruct panels as [|p' [|q ps]]; [discriminate Hp| |cbn in LP; lia]. cbn in Hp. injection Hp as ->.
    cbn [map]. f_equal. destruct Hs as (_ & _ & Hs & _). rewrite Hs. reflexivity.
Qed.
