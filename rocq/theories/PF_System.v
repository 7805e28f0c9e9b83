(* The stacked residual and its Jacobian. *)
From Verif Require Import Common Sort_Lib Sym_Model Sym_Spec Sym_Proofs Build_Model Lin_Model Lin_Spec Lin_Proofs Lin_Main PF_Model PF_Spec PF_Assemble PF_Proofs.
From Coq Require Import Reals Lra.
Local Open Scope list_scope.

Lemma concat_nth {A} n (bs : list (list A)) : (forall b, In b bs -> length b = n) -> forall t i, i < n -> t < length bs ->
  nth_error (concat bs) (t * n + i) = nth_error (nth t bs []) i.
Proof.
  induction bs as [|b bs IH]; intros H t i Hi Ht; [cbn in Ht; lia|]. cbn [concat].
  assert (Hb : length b = n) by (apply H; left; reflexivity). destruct t as [|t].
  - cbn [nth Nat.mul Nat.add]. apply nth_error_app1. lia.
  - rewrite nth_error_app2 by (rewrite Hb; cbn; lia). replace (S t * n + i - length b) with (t * n + i) by (rewrite Hb; cbn; lia).
    cbn [nth]. apply IH; [intros; apply H; right; assumption|assumption|cbn in Ht; lia].
Qed.
Lemma concat_length {A} n (bs : list (list A)) : (forall b, In b bs -> length b = n) -> length (concat bs) = length bs * n.
Proof.
  induction bs as [|b bs IH]; intros H; [reflexivity|]. cbn [concat length]. rewrite app_length, IH, (H b); [cbn; lia|left; reflexivity|].
  intros; apply H; right; assumption.
Qed.
Lemma map_seq_nth {A} (f : nat -> A) T t d : t < T -> nth t (map f (seq 0 T)) d = f t.
Proof. intro H. rewrite (nth_indep _ d (f 0)) by (rewrite map_length, seq_length; assumption). rewrite map_nth, seq_nth by assumption. reflexivity. Qed.

Section System.
Variables (G : smooth) (simp : sx -> sx).
Definition env_at (P : problem) (T : nat) (yi yt : list R) (x ps : matrix R) (y : list R) (t : nat) : sym -> R :=
  let n := length (q_vars P) in
  period_env P (if Nat.eqb t 0 then yi else row n y (t - 1)) (row n y t) (if Nat.eqb t (T - 1) then yt else row n y (t + 1)) (nth t x []) (nth t ps []).
Lemma residuals_ok P T yi yt x ps y : length y = T * length (q_vars P) -> length (q_eqs P) = length (q_vars P) ->
  exists r, stacked_residuals G P T yi yt x ps y = Ok r /\ length r = T * length (q_vars P) /\
    forall t i eq, t < T -> nth_error (q_eqs P) i = Some eq ->
      nth_error r (t * length (q_vars P) + i) = Some (ev (Ralg G) (env_at P T yi yt x ps y t) eq).
Proof.
  intros Hy He. set (n := length (q_vars P)) in *. unfold stacked_residuals, evaluate_periods. fold n.
  rewrite Hy, Nat.eqb_refl. cbn [bind].
  set (F := fun t => f_residual G P (if Nat.eqb t 0 then yi else firstn n (skipn ((t - 1) * n) y)) (firstn n (skipn (t * n) y))
                       (if Nat.eqb t (T - 1) then yt else firstn n (skipn ((t + 1) * n) y)) (nth t x []) (nth t ps [])).
  assert (HF : forall t, length (F t) = n) by (intro t; unfold F, f_residual; rewrite map_length; assumption).
  rewrite (mapM_all (put n) (fun r => r) (map F (seq 0 T))).
  2:{ intros a Ha. apply in_map_iff in Ha. destruct Ha as (t & <- & _). unfold put. rewrite HF, Nat.eqb_refl. reflexivity. }
  rewrite map_id. cbn [bind]. exists (concat (map F (seq 0 T))). split; [reflexivity|].
  assert (HB : forall b, In b (map F (seq 0 T)) -> length b = n).
  { intros b Hb. apply in_map_iff in Hb. destruct Hb as (t & <- & _). apply HF. }
  split; [rewrite (concat_length n) by assumption; rewrite map_length, seq_length; reflexivity|].
  intros t i eq Ht Hi. assert (i < n) by (rewrite <- He; apply nth_error_Some; congruence).
  rewrite (concat_nth n) by (try assumption; rewrite map_length, seq_length; assumption).
  rewrite map_seq_nth by assumption. unfold F, f_residual. rewrite nth_error_map, Hi. reflexivity.
Qed.

(* the environment of period t is the economy seen from period t *)
Section Meaning.
Variables (ord : set_order) (m : pf_model) (P : problem).
Hypothesis Hord : set_order_ok ord.
Hypothesis HC : compile ord m = Ok P.
Hypothesis Hcur : current_shocks m.
Variables (T : nat) (yi yt y : list R) (x ps : matrix R) (E : economy).
Hypothesis HV : variables_from (q_vars P) T yi yt y E.
Hypothesis Hx : rows_from T x (fun t => map (fun s => e_shock E (par_name s) (Z.of_nat t)) (q_shocks P)).
Hypothesis Hps : rows_from T ps (fun t => map (fun n => e_par E n t) (q_params P)).
Lemma env_meaning t eq s : t < T -> In eq (q_eqs P) -> In s (atoms eq) -> env_at P T yi yt x ps y t s = meaning (p_shocks m) E t s.
Proof.
  intros Ht He Hs. destruct (compile_facts ord m P Hord HC) as (F1 & F2 & F3 & F4 & F5 & F5' & F6).
  specialize (F6 eq s He Hs). destruct HV as (V1 & V2 & V3 & V4). set (n := length (q_vars P)) in *.
  unfold env_at, period_env, meaning. fold n. destruct s as [p|b k|b].
  - destruct (position_In _ _ F6) as (i & Hi). rewrite Hi. apply position_Some in Hi.
    destruct Hps as [_ Hp]. rewrite (nth_error_nth _ _ _ (Hp t Ht)).
    apply nth_error_nth. rewrite nth_error_map, Hi. reflexivity.
  - destruct F6 as (Fk & Fs & Fv). destruct (existsb (chars_eqb b) (p_shocks m)) eqn:Eb.
    + apply existsb_chars in Eb. specialize (Fs Eb). destruct (F4 _ Fs) as (b' & k' & Hbk & _ & Hm).
      assert (k = 0%Z) by (eapply Hcur; eassumption). subst k.
      destruct (index_of sym_eqb (SDate b 0) (q_shocks P)) as [i|] eqn:Ei.
      * apply (index_of_Some sym_eqb sym_eqb_eq) in Ei. destruct Hx as [_ Hp]. rewrite (nth_error_nth _ _ _ (Hp t Ht)).
        apply nth_error_nth. rewrite nth_error_map, Ei. cbn. rewrite Z.add_0_r. reflexivity.
      * apply (index_of_None sym_eqb sym_eqb_eq) in Ei. contradiction.
    + assert (Nb : ~ In b (p_shocks m)) by (intro H; apply existsb_chars in H; congruence). specialize (Fv Nb).
      destruct (index_of sym_eqb (SDate b k) (q_shocks P)) as [i|] eqn:Ei.
      { apply (index_of_Some sym_eqb sym_eqb_eq) in Ei. apply nth_error_In in Ei. destruct (F4 _ Ei) as (b' & k' & H & H' & _).
        injection H as -> ->. contradiction. }
      destruct (position_In _ _ Fv) as (j & Hj). rewrite Hj. apply position_Some in Hj.
      assert (Hjn : j < n) by (apply nth_error_Some; congruence). destruct (V4 j b Hj) as (A1 & A2 & A3).
      destruct Fk as [-> | [-> | ->]]; cbn [Z.eqb Pos.eqb].
      * destruct (Nat.eqb_spec t 0) as [->|N].
        -- rewrite (nth_error_nth _ _ _ A1). reflexivity.
        -- rewrite row_nth by (try assumption; nia). rewrite (nth_error_nth _ _ _ (A3 (t - 1) ltac:(lia))). f_equal. lia.
      * rewrite row_nth by (try assumption; nia). rewrite (nth_error_nth _ _ _ (A3 t ltac:(lia))). f_equal. lia.
      * destruct (Nat.eqb_spec t (T - 1)) as [Et|N].
        -- rewrite (nth_error_nth _ _ _ A2). f_equal. lia.
        -- rewrite row_nth by (try assumption; nia). rewrite (nth_error_nth _ _ _ (A3 (t + 1) ltac:(lia))). f_equal. lia.
  - destruct F6.
Qed.
Lemma residual_meaning : length (p_eqs m) = length (q_vars P) -> steady_values m E G T ->
  exists r, stacked_residuals G P T yi yt x ps y = Ok r /\ length r = T * length (q_vars P) /\
    forall t i eq, t < T -> nth_error (p_eqs m) i = Some eq ->
      nth_error r (t * length (q_vars P) + i) = Some (ev (Ralg G) (meaning (p_shocks m) E t) eq).
Proof.
  intros Hn Hst. destruct (substituted ord m P Hord HC) as (eqs & E1 & E2 & f & Ef & Hf & Hev).
  destruct (residuals_ok P T yi yt x ps y) as (r & R1 & R2 & R3).
  { apply HV. } { rewrite E2, Ef, map_length. assumption. }
  exists r. split; [assumption|]. split; [assumption|]. intros t i eq Ht Hi.
  assert (Hin : In eq (p_eqs m)) by (eapply nth_error_In, Hi).
  rewrite (R3 t i (f eq) Ht) by (rewrite E2, Ef, nth_error_map, Hi; reflexivity). f_equal.
  rewrite <- (Hev R (Ralg G) (meaning (p_shocks m) E t) eq).
  - apply ev_ext. intros s Hs. eapply env_meaning; [assumption| |eassumption]. rewrite E2, Ef. apply in_map. assumption.
  - intros eq' b v H1 H2 H3. cbn [meaning]. apply ss_value_first in H3. destruct H3 as (before & k & after & H3 & H4 & H5). eapply Hst; eassumption.
  - assumption.
Qed.
End Meaning.

(* ---- the Jacobian ---- *)
Hypothesis Hsimp : simp_ok simp.
Definition jac_at (P : problem) (T : nat) (yi yt : list R) (x ps : matrix R) (y : list R) (t : nat) : matrix R :=
  map (fun eq => map (fun v => ev (Ralg G) (env_at P T yi yt x ps y t) (simp (diff v eq))) (wrt P)) (q_eqs P).
Lemma wrt_nth P j b : nth_error (q_vars P) j = Some b ->
  nth_error (wrt P) j = Some (SDate b (-1)) /\ nth_error (wrt P) (length (q_vars P) + j) = Some (SDate b 0) /\
  nth_error (wrt P) (2 * length (q_vars P) + j) = Some (SDate b 1).
Proof.
  intro H. assert (Hj : j < length (q_vars P)) by (apply nth_error_Some; congruence). unfold wrt.
  split; [|split].
  - rewrite nth_error_app1 by (rewrite map_length; assumption). rewrite nth_error_map, H. reflexivity.
  - rewrite nth_error_app2 by (rewrite map_length; lia). rewrite map_length, nth_error_app1 by (rewrite map_length; lia).
    replace (length (q_vars P) + j - length (q_vars P)) with j by lia. rewrite nth_error_map, H. reflexivity.
  - rewrite nth_error_app2 by (rewrite map_length; lia). rewrite map_length, nth_error_app2 by (rewrite map_length; lia).
    rewrite map_length. replace (2 * length (q_vars P) + j - length (q_vars P) - length (q_vars P)) with j by lia.
    rewrite nth_error_map, H. reflexivity.
Qed.
Lemma jac_shape P T yi yt x ps y t : length (q_eqs P) = length (q_vars P) ->
  has_shape (jac_at P T yi yt x ps y t) (length (q_vars P)) (3 * length (q_vars P)).
Proof.
  intro H. split; [unfold jac_at; rewrite map_length; assumption|]. intros rw Hrw. unfold jac_at in Hrw. apply in_map_iff in Hrw.
  destruct Hrw as (eq & <- & _). rewrite map_length. unfold wrt. rewrite !app_length, !map_length. lia.
Qed.
Lemma jac_val P T yi yt x ps y t i eq k v : nth_error (q_eqs P) i = Some eq -> nth_error (wrt P) k = Some v ->
  val (jac_at P T yi yt x ps y t) i k = ev (Ralg G) (env_at P T yi yt x ps y t) (diff v eq).
Proof.
  intros Hi Hk. unfold val, jac_at.
  erewrite (nth_error_nth _ i []); [|rewrite nth_error_map, Hi; reflexivity].
  erewrite (nth_error_nth _ k 0%R); [|rewrite nth_error_map, Hk; reflexivity].
  apply (proj2 (Hsimp _)).
Qed.
Definition same_zeros (P : problem) (T : nat) (yi yt : list R) (x ps : matrix R) (y : list R) : Prop :=
  forall t eq v, t < T -> In eq (q_eqs P) -> In v (wrt P) ->
    ev (Ralg G) (env_at P T yi yt x ps y 0) (diff v eq) = 0%R -> ev (Ralg G) (env_at P T yi yt x ps y t) (diff v eq) = 0%R.
Lemma system_ok P T yi yt x ps y : 1 <= T -> length y = T * length (q_vars P) -> length (q_eqs P) = length (q_vars P) ->
  exists r J, stacked_system G simp P T yi yt x ps y = Ok (r, J) /\ stacked_residuals G P T yi yt x ps y = Ok r /\
    s_rows J = T * length (q_vars P) /\ s_cols J = T * length (q_vars P) /\ (forall o, In o (s_data J) -> o <> None) /\
    forall t s i j eq b, t < T -> s < T -> nth_error (q_eqs P) i = Some eq -> nth_error (q_vars P) j = Some b ->
      let D u k := ev (Ralg G) (env_at P T yi yt x ps y u) (diff (SDate b k) eq) in
      let keep k := if Req_EM_T (D 0 k) 0 then 0%R else D t k in
      s_entry J (t * length (q_vars P) + i) (s * length (q_vars P) + j) =
        if Nat.eqb (s + 1) t then keep (-1)%Z else if Nat.eqb s t then keep 0%Z else if Nat.eqb s (t + 1) then keep 1%Z else 0%R.
Proof.
  intros HT Hy He. destruct (residuals_ok P T yi yt x ps y Hy He) as (r & R1 & R2 & R3).
  set (n := length (q_vars P)) in *. unfold stacked_system, evaluate_periods. fold n. rewrite Hy, Nat.eqb_refl. cbn [bind].
  set (F := fun t => (f_residual G P (if Nat.eqb t 0 then yi else firstn n (skipn ((t - 1) * n) y)) (firstn n (skipn (t * n) y))
                       (if Nat.eqb t (T - 1) then yt else firstn n (skipn ((t + 1) * n) y)) (nth t x []) (nth t ps []),
                      jac_at P T yi yt x ps y t)).
  match goal with |- context [map ?g (seq 0 T)] => change (map g (seq 0 T)) with (map F (seq 0 T)) end.
  rewrite (mapM_all (fun rj : list R * matrix R => put n (fst rj)) fst).
  2:{ intros a Ha. apply in_map_iff in Ha. destruct Ha as (t & <- & _). unfold F. cbn [fst]. unfold put, f_residual.
      rewrite map_length, He, Nat.eqb_refl. reflexivity. }
  cbn [bind].
  assert (EJ : map snd (map F (seq 0 T)) = map (jac_at P T yi yt x ps y) (seq 0 T)) by (rewrite map_map; reflexivity).
  rewrite EJ. set (Js := map (jac_at P T yi yt x ps y) (seq 0 T)).
  assert (HL : length Js = T) by (unfold Js; rewrite map_length, seq_length; reflexivity).
  assert (HS : forall J, In J Js -> has_shape J n (3 * n)).
  { intros J HJ. apply in_map_iff in HJ. destruct HJ as (t & <- & _). now apply jac_shape. }
  destruct Js as [|J0 rest] eqn:EJs; [cbn in HL; lia|].
  destruct (assemble_spec (J0 :: rest) n n J0 rest eq_refl HS) as (M & M1 & M2 & M3 & M4 & M5).
  rewrite HL in *. rewrite M1. cbn [bind]. eexists. exists M. split; [reflexivity|]. split.
  { revert R1. unfold stacked_residuals, evaluate_periods. fold n. rewrite Hy, Nat.eqb_refl. cbn [bind].
    rewrite (mapM_all (put n) (fun r => r)).
    2:{ intros a Ha. apply in_map_iff in Ha. destruct Ha as (t & <- & _). unfold put, f_residual. rewrite map_length, He, Nat.eqb_refl. reflexivity. }
    intros _. cbn [bind]. rewrite map_id, map_map. reflexivity. }
  split; [assumption|]. split; [assumption|]. split; [assumption|].
  intros t s i j eq b Ht Hs Hi Hj. cbv zeta.
  assert (Hin : i < n) by (rewrite <- He; apply nth_error_Some; congruence).
  assert (Hjn : j < n) by (apply nth_error_Some; congruence).
  rewrite (M5 t s i j Ht Hs Hin Hjn). cbv zeta.
  assert (Ht' : nth t (J0 :: rest) [] = jac_at P T yi yt x ps y t) by (rewrite <- EJs; apply (map_seq_nth (jac_at P T yi yt x ps y)); assumption).
  assert (H0' : J0 = jac_at P T yi yt x ps y 0).
  { change J0 with (nth 0 (J0 :: rest) []). rewrite <- EJs. apply (map_seq_nth (jac_at P T yi yt x ps y)). lia. }
  rewrite Ht', H0'. destruct (wrt_nth P j b Hj) as (W1 & W2 & W3). fold n in W2, W3.
  rewrite !(jac_val _ _ _ _ _ _ _ _ _ _ _ _ Hi W1), !(jac_val _ _ _ _ _ _ _ _ _ _ _ _ Hi W2), !(jac_val _ _ _ _ _ _ _ _ _ _ _ _ Hi W3).
  reflexivity.
Qed.

(* moving one variable of one period *)
Lemma derivable_ext f g x l : (forall z, f z = g z) -> derivable_pt_lim f x l -> derivable_pt_lim g x l.
Proof. intros H D eps Heps. destruct (D eps Heps) as (delta & Hd). exists delta. intros h h0 h1. rewrite <- !H. now apply Hd. Qed.
Lemma row_set n y s j z t k : s * n + j < length y -> j < n -> k < n -> (t + 1) * n <= length y ->
  nth k (row n (set_nth (s * n + j) z y) t) 0%R = if (Nat.eqb t s && Nat.eqb k j)%bool then z else nth k (row n y t) 0%R.
Proof.
  intros H1 H2 H3 H4. rewrite !row_nth by (rewrite ?set_nth_length; assumption). rewrite set_nth_nth by assumption.
  destruct (Nat.eqb_spec (t * n + k) (s * n + j)) as [E'|E'].
  - destruct (euclid t s k j n) as [-> ->]; try assumption. rewrite !Nat.eqb_refl. reflexivity.
  - destruct (Nat.eqb_spec t s) as [->|]; destruct (Nat.eqb_spec k j) as [->|]; cbn [andb]; try reflexivity. lia.
Qed.
Section Move.
Variables (ord : set_order) (m : pf_model) (P : problem).
Hypothesis Hord : set_order_ok ord.
Hypothesis HC : compile ord m = Ok P.
Variables (T : nat) (yi yt y : list R) (x ps : matrix R).
Hypothesis Hy : length y = T * length (q_vars P).
Lemma env_move s j b z t eq a : s < T -> t < T -> nth_error (q_vars P) j = Some b -> In eq (q_eqs P) -> In a (atoms eq) ->
  env_at P T yi yt x ps (set_nth (s * length (q_vars P) + j) z y) t a =
  if Nat.eqb (s + 1) t then with_value (env_at P T yi yt x ps y t) (SDate b (-1)) z a
  else if Nat.eqb s t then with_value (env_at P T yi yt x ps y t) (SDate b 0) z a
  else if Nat.eqb s (t + 1) then with_value (env_at P T yi yt x ps y t) (SDate b 1) z a
  else env_at P T yi yt x ps y t a.
Proof.
  intros Hs Ht Hj He Ha. destruct (compile_facts ord m P Hord HC) as (F1 & F2 & F3 & F4 & F5 & F5' & F6).
  specialize (F6 eq a He Ha). set (n := length (q_vars P)) in *.
  assert (Hjn : j < n) by (apply nth_error_Some; congruence).
  assert (Hlen : s * n + j < length y) by nia.
  assert (Hnot : forall k, ~ In (SDate b k) (q_shocks P)).
  { intros k Hk. destruct (F4 _ Hk) as (b' & k' & H & H' & _). injection H as <- <-. apply (F2 b); [eapply nth_error_In, Hj|assumption]. }
  assert (Hw : forall k v, with_value v (SDate b k) z a = if sym_eqb a (SDate b k) then z else v a) by reflexivity.
  rewrite !Hw. destruct a as [p|b' k|b'].
  - destruct (sym_eqb (SPar p) (SDate b (-1))) eqn:Q1; [apply sym_eqb_eq in Q1; discriminate|].
    destruct (sym_eqb (SPar p) (SDate b 0)) eqn:Q2; [apply sym_eqb_eq in Q2; discriminate|].
    destruct (sym_eqb (SPar p) (SDate b 1)) eqn:Q3; [apply sym_eqb_eq in Q3; discriminate|].
    destruct (Nat.eqb (s + 1) t), (Nat.eqb s t), (Nat.eqb s (t + 1)); reflexivity.
  - destruct F6 as (Fk & Fs & Fv). unfold env_at, period_env. fold n.
    destruct (index_of sym_eqb (SDate b' k) (q_shocks P)) as [i|] eqn:Ei.
    { apply (index_of_Some sym_eqb sym_eqb_eq) in Ei. apply nth_error_In in Ei.
      assert (Hne : forall k', sym_eqb (SDate b' k) (SDate b k') = false).
      { intro k'. apply sym_eqb_neq. intro H. injection H as -> ->. exact (Hnot _ Ei). }
      rewrite !Hne. destruct (Nat.eqb (s + 1) t), (Nat.eqb s t), (Nat.eqb s (t + 1)); reflexivity. }
    apply (index_of_None sym_eqb sym_eqb_eq) in Ei.
    assert (Fb : In b' (q_vars P)).
    { destruct (in_dec (list_eq_dec ascii_dec) b' (p_shocks m)) as [Hi|Hi]; [destruct Ei; auto|auto]. }
    destruct (position_In _ _ Fb) as (j' & Hj'). rewrite Hj'. apply position_Some in Hj'.
    assert (Hjn' : j' < n) by (apply nth_error_Some; congruence).
    assert (Ejj : Nat.eqb j' j = chars_eqb b' b).
    { destruct (Nat.eqb_spec j' j) as [->|N].
      - assert (b' = b) by congruence. subst. symmetry. apply chars_eqb_refl.
      - symmetry. apply chars_eqb_neq. intro Hbb. subst b'. apply N.
        apply (proj1 (NoDup_nth_error _) F1); [assumption|congruence]. }
    assert (Esy : forall k', sym_eqb (SDate b' k) (SDate b k') = (chars_eqb b' b && Z.eqb k k')%bool).
    { intro k'. destruct (chars_eqb b' b) eqn:Q; cbn [andb].
      - apply chars_eqb_eq in Q. subst b'. destruct (Z.eqb_spec k k') as [->|N]; [apply sym_eqb_refl|]. apply sym_eqb_neq. congruence.
      - apply sym_eqb_neq. intro H. injection H as -> _. rewrite chars_eqb_refl in Q. discriminate. }
    rewrite !Esy, <- Ejj. clear Esy Ejj.
    destruct Fk as [-> | [-> | ->]]; cbn [Z.eqb Pos.eqb]; rewrite ?andb_true_r, ?andb_false_r.
    + destruct (Nat.eqb_spec t 0) as [E0|E0].
      * destruct (Nat.eqb_spec (s + 1) t); [lia|]. destruct (Nat.eqb s t), (Nat.eqb s (t + 1)); reflexivity.
      * rewrite row_set by (try assumption; nia).
        destruct (Nat.eqb_spec (s + 1) t) as [Q|Q]; destruct (Nat.eqb_spec (t - 1) s) as [Q'|Q']; try lia; cbn [andb]; [reflexivity|].
        destruct (Nat.eqb s t), (Nat.eqb s (t + 1)); reflexivity.
    + rewrite row_set by (try assumption; nia).
      destruct (Nat.eqb_spec (s + 1) t) as [Q|Q]; destruct (Nat.eqb_spec t s) as [Q'|Q']; destruct (Nat.eqb_spec s t) as [Q2|Q2]; try lia; cbn [andb]; try reflexivity.
      destruct (Nat.eqb s (t + 1)); reflexivity.
    + destruct (Nat.eqb_spec t (T - 1)) as [E0|E0].
      * destruct (Nat.eqb_spec s (t + 1)); [lia|]. destruct (Nat.eqb (s + 1) t), (Nat.eqb s t); reflexivity.
      * rewrite row_set by (try assumption; nia).
        destruct (Nat.eqb_spec s (t + 1)) as [Q|Q]; destruct (Nat.eqb_spec (t + 1) s) as [Q'|Q']; try lia; cbn [andb];
        destruct (Nat.eqb_spec (s + 1) t); destruct (Nat.eqb_spec s t); try lia; reflexivity.
  - destruct F6.
Qed.
Definition component (k : nat) (y' : list R) : R :=
  match stacked_residuals G P T yi yt x ps y' with Ok r => nth k r 0%R | Err _ => 0%R end.
Lemma component_eq y' t i eq : length y' = T * length (q_vars P) -> length (q_eqs P) = length (q_vars P) -> t < T ->
  nth_error (q_eqs P) i = Some eq -> component (t * length (q_vars P) + i) y' = ev (Ralg G) (env_at P T yi yt x ps y' t) eq.
Proof.
  intros H1 H2 H3 H4. destruct (residuals_ok P T yi yt x ps y' H1 H2) as (r & R1 & R2 & R3). unfold component. rewrite R1.
  apply nth_error_nth. now apply R3.
Qed.
Lemma derivative_is_entry r J : 1 <= T -> length (q_eqs P) = length (q_vars P) ->
  (forall t eq, t < T -> In eq (q_eqs P) -> defined G (env_at P T yi yt x ps y t) eq) ->
  same_zeros P T yi yt x ps y ->
  stacked_system G simp P T yi yt x ps y = Ok (r, J) ->
  forall a c, a < T * length (q_vars P) -> c < T * length (q_vars P) ->
    derivable_pt_lim (fun z => component a (set_nth c z y)) (nth c y 0%R) (s_entry J a c).
Proof.
  intros HT He Hdef Hz HJ a c Ha Hc. set (n := length (q_vars P)) in *.
  assert (Hn : n <> 0) by nia.
  destruct (system_ok P T yi yt x ps y HT Hy He) as (r' & J' & S1 & _ & _ & _ & _ & S2). fold n in S2.
  rewrite HJ in S1. injection S1 as <- <-.
  pose proof (Nat.div_mod a n Hn) as Da. pose proof (Nat.mod_upper_bound a n Hn) as Ma.
  pose proof (Nat.div_mod c n Hn) as Dc. pose proof (Nat.mod_upper_bound c n Hn) as Mc.
  set (t := a / n) in *. set (i := a mod n) in *. set (s := c / n) in *. set (j := c mod n) in *.
  assert (Ea : a = t * n + i) by lia. assert (Ec : c = s * n + j) by lia.
  assert (Ht : t < T) by nia. assert (Hs : s < T) by nia.
  destruct (nth_error (q_eqs P) i) as [eq|] eqn:Ei; [|apply nth_error_None in Ei; lia].
  destruct (nth_error (q_vars P) j) as [b|] eqn:Ej; [|apply nth_error_None in Ej; lia].
  assert (Hin : In eq (q_eqs P)) by (eapply nth_error_In, Ei).
  assert (Hcur : nth c y 0%R = nth j (row n y s) 0%R) by (rewrite row_nth by nia; rewrite Ec; reflexivity).
  rewrite Ea, Ec, (S2 t s i j eq b Ht Hs Ei Ej). cbv zeta.
  assert (HF : forall z, component (t * n + i) (set_nth (s * n + j) z y) = ev (Ralg G) (env_at P T yi yt x ps (set_nth (s * n + j) z y) t) eq).
  { intro z. apply component_eq; try assumption. rewrite set_nth_length. assumption. }
  destruct (wrt_nth P j b Ej) as (W1 & W2 & W3). apply nth_error_In in W1, W2, W3.
  assert (Hk : forall k, In (SDate b k) (wrt P) -> (if Req_EM_T (ev (Ralg G) (env_at P T yi yt x ps y 0) (diff (SDate b k) eq)) 0 then 0%R
     else ev (Ralg G) (env_at P T yi yt x ps y t) (diff (SDate b k) eq)) = ev (Ralg G) (env_at P T yi yt x ps y t) (diff (SDate b k) eq)).
  { intros k Hkin. destruct (Req_EM_T _ 0) as [Q|]; [|reflexivity]. symmetry. eapply Hz; eassumption. }
  rewrite !Hk by assumption.
  destruct (compile_facts ord m P Hord HC) as (F1 & F2 & F3 & F4 & F5 & F5' & F6).
  assert (Henv : forall k, (k = -1 \/ k = 0 \/ k = 1)%Z -> env_at P T yi yt x ps y t (SDate b k) =
    nth j (if Z.eqb k (-1) then (if Nat.eqb t 0 then yi else row n y (t - 1)) else if Z.eqb k 0 then row n y t else (if Nat.eqb t (T - 1) then yt else row n y (t + 1))) 0%R).
  { intros k Hkk. unfold env_at, period_env. fold n.
    destruct (index_of sym_eqb (SDate b k) (q_shocks P)) as [i'|] eqn:Ei'.
    { apply (index_of_Some sym_eqb sym_eqb_eq) in Ei'. apply nth_error_In in Ei'. destruct (F4 _ Ei') as (b' & k' & H & H' & _).
      injection H as <- <-. destruct (F2 b); [eapply nth_error_In, Ej|assumption]. }
    rewrite (position_nodup b (q_vars P) j F1 Ej). reflexivity. }
  pose proof (fun z a' Ha' => env_move s j b z t eq a' Hs Ht Ej Hin Ha') as EM. fold n in EM.
  destruct (Nat.eqb_spec (s + 1) t) as [Q|Q]; [|destruct (Nat.eqb_spec s t) as [Q'|Q']; [|destruct (Nat.eqb_spec s (t + 1)) as [Q2|Q2]]].
  - eapply derivable_ext; [|apply (derivable_diff G (env_at P T yi yt x ps y t) (SDate b (-1)) eq)].
    + intro z. rewrite HF. symmetry. apply ev_ext. intros a' Ha'. rewrite (EM z a' Ha').
      reflexivity.
    + rewrite <- Ec, Hcur, Henv by auto. cbn [Z.eqb Pos.eqb]. replace (Nat.eqb t 0) with false by (symmetry; apply Nat.eqb_neq; lia).
      replace (t - 1) with s by lia. reflexivity.
    + apply Hdef; assumption.
  - subst s. rewrite <- Q' in *. eapply derivable_ext; [|apply (derivable_diff G (env_at P T yi yt x ps y (c / n)) (SDate b 0) eq)].
    + intro z. rewrite HF. symmetry. apply ev_ext. intros a' Ha'. rewrite (EM z a' Ha').
      reflexivity.
    + rewrite <- Ec, Hcur, Henv by auto. reflexivity.
    + apply Hdef; assumption.
  - eapply derivable_ext; [|apply (derivable_diff G (env_at P T yi yt x ps y t) (SDate b 1) eq)].
    + intro z. rewrite HF. symmetry. apply ev_ext. intros a' Ha'. rewrite (EM z a' Ha').
      reflexivity.
    + rewrite <- Ec, Hcur, Henv by auto. cbn [Z.eqb Pos.eqb]. replace (Nat.eqb t (T - 1)) with false by (symmetry; apply Nat.eqb_neq; lia).
      rewrite <- Q2. reflexivity.
    + apply Hdef; assumption.
  - eapply derivable_ext; [|apply (derivable_pt_lim_const (ev (Ralg G) (env_at P T yi yt x ps y t) eq))].
    intro z. unfold fct_cte. rewrite HF. symmetry. apply ev_ext. intros a' Ha'. rewrite (EM z a' Ha').
    reflexivity.
Qed.
End Move.
End System.
