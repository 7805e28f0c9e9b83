(* Linearised observation equations. *)
From Verif Require Import Common Sym_Model Sym_Spec Sym_Proofs SR_Model Kal_Model Kal_Spec Kal_Proofs Kal_Config.
From Verif Require Import TimeIndex_Model TimeIndex_Proofs.
From Coq Require Import Reals Lra.
Local Open Scope R_scope.
Local Open Scope list_scope.

Lemma last_split {A} (x : A) b d : ~ In x b -> ~ In x d -> forall a c, a ++ x :: b = c ++ x :: d -> a = c /\ b = d.
Proof.
  intros Hb Hd. induction a as [|y a IH]; intros [|z c] H; cbn in H.
  - injection H as ->. auto.
  - injection H as <- ->. exfalso. apply Hb, in_or_app. right. now left.
  - injection H as -> <-. exfalso. apply Hd, in_or_app. right. now left.
  - injection H as -> H. destruct (IH _ H) as [-> ->]. auto.
Qed.
Lemma tag_plain lag : ~ In "_"%char (lag_tag lag).
Proof.
  unfold lag_tag. destruct (Z.eqb lag 0); [intros [C|[]]; discriminate|]. intro H. apply in_app_or in H. destruct H as [[C|[]]|H]; [discriminate|].
  pose proof (dec_digits (Z.to_N (- lag))) as Hd. rewrite forallb_forall in Hd. specialize (Hd _ H). discriminate.
Qed.
Lemma tag_inj l k : (l <= 0)%Z -> (k <= 0)%Z -> lag_tag l = lag_tag k -> l = k.
Proof.
  intros Hl Hk. unfold lag_tag. destruct (Z.eqb_spec l 0), (Z.eqb_spec k 0); intro H; try (cbn in H; discriminate); [congruence|].
  apply app_inv_head in H. apply dec_inj in H. lia.
Qed.
Lemma tilde_inj v w l k : (l <= 0)%Z -> (k <= 0)%Z -> tilde v l = tilde w k -> v = w /\ l = k.
Proof.
  intros Hl Hk H. unfold tilde in H. assert (E : str "_tilde_" ++ v ++ str "_" ++ lag_tag l = str "_tilde_" ++ w ++ str "_" ++ lag_tag k) by congruence.
  apply app_inv_head in E. change (str "_") with ["_"%char] in E. cbn [app] in E. apply last_split in E; [|apply tag_plain|apply tag_plain]. destruct E as [-> E]. split; [reflexivity|]. now apply tag_inj.
Qed.
Lemma defined_smap G env f e : defined G (fun s => ev (Ralg G) env (f s)) e -> (forall s, In s (atoms e) -> defined G env (f s)) -> defined G env (smap f e).
Proof.
  induction e as [z|s|a IHa b IHb|a IHa b IHb|a IH|h k a IH]; intros Hd Hf; cbn [smap defined] in *; auto.
  - apply Hf. now left.
  - split; [apply IHa|apply IHb]; try tauto; intros s Hs; apply Hf; cbn; apply in_or_app; auto.
  - split; [apply IHa|apply IHb]; try tauto; intros s Hs; apply Hf; cbn; apply in_or_app; auto.
  - split; [apply IH; tauto|]. rewrite ev_smap. tauto.
Qed.
Lemma defined_ext G env env' e : (forall s, In s (atoms e) -> env s = env' s) -> defined G env e -> defined G env' e.
Proof.
  induction e as [z|s|a IHa b IHb|a IHa b IHb|a IH|h k a IH]; intros He Hd; cbn [defined] in *; auto.
  - split; [apply IHa|apply IHb]; try tauto; intros s Hs; apply He; cbn; apply in_or_app; auto.
  - split; [apply IHa|apply IHb]; try tauto; intros s Hs; apply He; cbn; apply in_or_app; auto.
  - split; [apply IH; tauto|]. rewrite <- (ev_ext _ env env' a He). tauto.
Qed.

Section L.
Variables (m : kmodel) (W : world) (c : config) (draw : chars -> R) (ord : set_order) (e : sx).
Hypothesis Ho : set_order_ok ord.
Hypothesis He : check_equation m e = Ok e.
Hypothesis Hfree : placeholder_free m.
Hypothesis Hexp : true_exp (w_fun W).
Let G := w_fun W.
Let keys := appearing ord e.
Let g := smap (forward m) e.
Lemma keys_spec v lag : In (v, lag) keys <-> In (SDate v lag) (atoms e).
Proof.
  unfold keys, appearing. rewrite in_map_iff. split.
  - intros (s & E & H). apply (proj1 (ord_in ord Ho _ _)) in H. apply filter_In in H. destruct H as [H1 H2]. destruct s; try discriminate. cbn in E. now injection E as <- <-.
  - intro H. exists (SDate v lag). split; [reflexivity|]. apply (proj2 (ord_in ord Ho _ _)). apply filter_In. auto.
Qed.
Lemma keys_nodup : NoDup keys.
Proof.
  unfold keys, appearing. assert (Hn := ord_nodup ord Ho (filter is_dated (atoms e))).
  assert (Hd : forall s, In s (ord (filter is_dated (atoms e))) -> is_dated s = true) by (intros s Hs; apply (proj1 (ord_in ord Ho _ _)) in Hs; apply filter_In in Hs; tauto).
  revert Hn Hd. generalize (ord (filter is_dated (atoms e))). induction l as [|s l IH]; intros Hn Hd; [constructor|]. inversion Hn as [|? ? N1 N2]; subst. cbn. constructor.
  - intro C. apply in_map_iff in C. destruct C as (s' & E & Hs'). assert (D1 := Hd s (or_introl eq_refl)). assert (D2 := Hd s' (or_intror Hs')). destruct s, s'; try discriminate. cbn in E. injection E as -> ->. contradiction.
  - apply IH; [exact N2|]. intros s' Hs'. apply Hd. now right.
Qed.
Lemma key_lag v lag : In (v, lag) keys -> (lag <= 0)%Z.
Proof. intro H. apply keys_spec in H. destruct (check_ok _ _ _ He) as [_ Hc]. now apply (Hc v lag). Qed.
Lemma par_known n : In (SPar n) (atoms e) -> In n (map fst (k_defaults m) ++ k_hyper m).
Proof.
  intro H. unfold check_equation in He. destruct (existsb (bad_symbol m) (atoms e)) eqn:E; [discriminate|]. destruct (bad_symbol m (SPar n)) eqn:B.
  - assert (existsb (bad_symbol m) (atoms e) = true) by (rewrite existsb_exists; eauto). congruence.
  - cbn in B. apply negb_false_iff, orb_prop in B. apply in_or_app. destruct B as [B|B]; apply mem_In in B; auto.
Qed.
Definition E0 : sym -> R := fun s => ev (Ralg G) (at_draw m W c draw) (zero_subs keys s).
Lemma zero_tilde v lag : In (v, lag) keys -> E0 (tilde v lag) = 0.
Proof.
  intro H. unfold E0, zero_subs. assert (Ex : existsb (fun k => sym_eqb (tilde v lag) (tilde (fst k) (snd k))) keys = true) by (rewrite existsb_exists; exists (v, lag); split; [exact H|apply sym_eqb_refl]).
  rewrite Ex. reflexivity.
Qed.
Lemma zero_other s : (forall v lag, s <> tilde v lag) -> E0 s = at_draw m W c draw s.
Proof.
  intro H. unfold E0, zero_subs. destruct (existsb _ keys) eqn:Ex; [|reflexivity]. rewrite existsb_exists in Ex. destruct Ex as (k & _ & Ek). apply sym_eqb_eq in Ek. exfalso. exact (H _ _ Ek).
Qed.
Lemma par_not_tilde n v lag : In (SPar n) (atoms e) -> SPar n <> tilde v lag.
Proof. intros H C. unfold tilde in C. assert (E : n = str "_tilde_" ++ v ++ str "_" ++ lag_tag lag) by congruence. exact (Hfree _ _ (par_known n H) E). Qed.
Lemma forward_at E s v lag x : In (v, lag) keys -> E = with_value E0 (tilde v lag) x -> In s (atoms e) ->
  ev (Ralg G) E (forward m s) = moved m W c draw v lag x s.
Proof.
  intros Hk -> Hs. destruct (Hexp 0) as [_ X0]. destruct (Hexp x) as [_ Xx]. assert (Hss : forall w, with_value E0 (tilde v lag) x (SSs w) = w_ss W (inputs_at m c draw) w).
  { intro w. unfold with_value. destruct (sym_eqb (SSs w) (tilde v lag)) eqn:E; [apply sym_eqb_eq in E; discriminate|]. rewrite zero_other by (intros; discriminate). reflexivity. }
  destruct s as [n|w l|w]; cbn [forward].
  - cbn [ev]. unfold with_value, moved. destruct (sym_eqb (SPar n) (tilde v lag)) eqn:E; [apply sym_eqb_eq in E; exfalso; exact (par_not_tilde _ _ _ Hs E)|].
    rewrite zero_other by (intros v0 l0 C; exact (par_not_tilde _ _ _ Hs C)). unfold with_value. destruct (sym_eqb (SPar n) (SDate v lag)) eqn:E2; [apply sym_eqb_eq in E2; discriminate|]. reflexivity.
  - assert (Hkw : In (w, l) keys) by now apply keys_spec.
    assert (Ht : with_value E0 (tilde v lag) x (tilde w l) = if sym_eqb (SDate w l) (SDate v lag) then x else 0).
    { unfold with_value. destruct (sym_eqb (SDate w l) (SDate v lag)) eqn:E.
      - apply sym_eqb_eq in E. injection E as -> ->. now rewrite sym_eqb_refl.
      - destruct (sym_eqb (tilde w l) (tilde v lag)) eqn:E2; [|now apply zero_tilde]. apply sym_eqb_eq in E2. apply tilde_inj in E2; [|now apply (key_lag w)|now apply (key_lag v)]. destruct E2 as [-> ->]. rewrite sym_eqb_refl in E. discriminate. }
    assert (Em : moved m W c draw v lag x (SDate w l) = if sym_eqb (SDate w l) (SDate v lag) then (let ss := w_ss W (inputs_at m c draw) v in if mem v (k_logged m) then ss * exp x else ss + x) else steady m W c draw (SDate w l)) by reflexivity.
    rewrite Em. destruct (mem w (k_logged m)) eqn:El; cbn [ev Ralg a_mul a_add a_fn]; rewrite Hss, Ht; destruct (sym_eqb (SDate w l) (SDate v lag)) eqn:E.
    + apply sym_eqb_eq in E. injection E as -> ->. rewrite El. fold G in Xx. unfold G. rewrite Xx. reflexivity.
    + unfold G. rewrite X0, exp_0. cbn [steady]. ring.
    + apply sym_eqb_eq in E. injection E as -> ->. rewrite El. reflexivity.
    + cbn [steady]. ring.
  - cbn [ev]. rewrite Hss. unfold moved, with_value. destruct (sym_eqb (SSs w) (SDate v lag)) eqn:E2; [apply sym_eqb_eq in E2; discriminate|]. reflexivity.
Qed.
Lemma forward_steady s : In s (atoms e) -> ev (Ralg G) E0 (forward m s) = steady m W c draw s.
Proof.
  intro Hs. destruct (Hexp 0) as [_ X0]. assert (Hss : forall w, E0 (SSs w) = w_ss W (inputs_at m c draw) w) by (intro w; rewrite zero_other by (intros; discriminate); reflexivity).
  destruct s as [n|w l|w]; cbn [forward].
  - cbn [ev]. rewrite zero_other by (intros v0 l0 C; exact (par_not_tilde _ _ _ Hs C)). reflexivity.
  - assert (Hkw : In (w, l) keys) by now apply keys_spec. destruct (mem w (k_logged m)) eqn:El; cbn [ev Ralg a_mul a_add a_fn]; rewrite Hss, (zero_tilde w l Hkw); [unfold G; rewrite X0, exp_0|]; cbn [steady]; ring.
  - cbn [ev]. apply Hss.
Qed.
Lemma base_value_lin : value m W c draw (fst (linearize_equation m ord e)) = ev (Ralg G) (steady m W c draw) e.
Proof.
  unfold linearize_equation. cbn [fst]. unfold value. rewrite ev_smap. fold G keys. change (fun s => ev (Ralg G) (at_draw m W c draw) (zero_subs keys s)) with E0. rewrite ev_smap. apply ev_ext. exact forward_steady.
Qed.
Lemma coefficient_lin v lag k : In ((v, lag), k) (snd (linearize_equation m ord e)) -> defined G (steady m W c draw) e ->
  derivable_pt_lim (fun x => ev (Ralg G) (moved m W c draw v lag x) e) 0 (value m W c draw k).
Proof.
  intros Hin Hd. unfold linearize_equation in Hin. cbn [snd] in Hin. apply in_map_iff in Hin. destruct Hin as ([v' lag'] & E & Hk). fold keys in Hk. cbn [fst snd] in E.
  assert (Ek : v' = v /\ lag' = lag /\ k = smap (zero_subs keys) (diff (tilde v lag) g)) by (injection E as -> -> <-; auto). clear E. destruct Ek as (-> & -> & ->).
  unfold value. rewrite ev_smap. fold G. change (fun s => ev (Ralg G) (at_draw m W c draw) (zero_subs keys s)) with E0.
  assert (Hdg : defined G E0 g).
  { unfold g. apply defined_smap.
    - apply (defined_ext _ (steady m W c draw)); [|exact Hd]. intros s Hs. symmetry. now apply forward_steady.
    - intros s _. destruct s as [n|w l|w]; cbn [forward]; cbn [defined]; auto. destruct (mem w (k_logged m)); cbn [defined]; auto. split; [exact I|]. split; [exact I|]. apply (Hexp _). }
  pose proof (derivable_diff G E0 (tilde v lag) g 0 (zero_tilde v lag Hk) Hdg) as D.
  assert (Ext : forall x, ev (Ralg G) (with_value E0 (tilde v lag) x) g = ev (Ralg G) (moved m W c draw v lag x) e).
  { intro x. unfold g. rewrite ev_smap. apply ev_ext. intros s Hs. now apply forward_at. }
  intros eps Heps. destruct (D eps Heps) as [delta Hdel]. exists delta. intros h Hh Hl. rewrite <- !Ext. now apply Hdel.
Qed.
End L.
