(* From the arguments of the call to the vectors handed to the solver. *)
From Verif Require Import Common Sort_Lib Sym_Model Sym_Spec Sym_Proofs Build_Model Lin_Model Lin_Spec Lin_Proofs Lin_Main PF_Model PF_Spec PF_Assemble PF_Proofs PF_System.
From Coq Require Import Reals Lra.
Local Open Scope list_scope.

(* ---- dictionaries ---- *)
Lemma dlook_In {A} k (d : dict A) v : dlook k d = Some v -> In (k, v) d.
Proof.
  unfold dlook. destruct (find _ d) as [(k' & v')|] eqn:E; [|discriminate]. intro H. injection H as <-.
  apply find_some in E. destruct E as [E1 E2]. cbn in E2. apply chars_eqb_eq in E2. subst. assumption.
Qed.
Lemma dlook_None {A} k (d : dict A) : dlook k d = None <-> ~ In k (map fst d).
Proof.
  unfold dlook. destruct (find _ d) as [(k' & v')|] eqn:E.
  - split; [discriminate|]. intro H. destruct H. apply find_some in E. destruct E as [E1 E2]. cbn in E2. apply chars_eqb_eq in E2. subst.
    apply in_map_iff. exists (k', v'). auto.
  - split; [|reflexivity]. intros _ H. apply in_map_iff in H. destruct H as ((k' & v') & H1 & H2). cbn in H1. subst.
    pose proof (find_none _ _ E _ H2) as H. cbn in H. rewrite chars_eqb_refl in H. discriminate.
Qed.
Lemma dlook_unique {A} k (d : dict A) v : NoDup (map fst d) -> In (k, v) d -> dlook k d = Some v.
Proof.
  induction d as [|(k' & v') d IH]; intros Hn Hin; [destruct Hin|]. unfold dlook. cbn [find fst]. inversion Hn; subst.
  destruct Hin as [Hin|Hin].
  - injection Hin as -> ->. rewrite chars_eqb_refl. reflexivity.
  - destruct (chars_eqb k k') eqn:E; [|apply IH; assumption]. apply chars_eqb_eq in E. subst. destruct H1. apply in_map_iff. exists (k', v). auto.
Qed.
Lemma dlook_dset {A} k k' (v : A) d : dlook k (dset k' v d) = if chars_eqb k k' then Some v else dlook k d.
Proof.
  induction d as [|(k1 & v1) d IH]; cbn [dset].
  - unfold dlook. cbn. destruct (chars_eqb k k'); reflexivity.
  - destruct (chars_eqb k' k1) eqn:E.
    + apply chars_eqb_eq in E. subst. unfold dlook. cbn. destruct (chars_eqb k k1) eqn:E; reflexivity.
    + unfold dlook in *. cbn [find fst]. destruct (chars_eqb k k1) eqn:E'.
      * apply chars_eqb_eq in E'. subst. destruct (chars_eqb k1 k') eqn:E2; [|reflexivity].
        apply chars_eqb_eq in E2. subst. rewrite chars_eqb_refl in E. discriminate.
      * exact IH.
Qed.
Lemma dset_keys {A} k (v : A) d x : In x (map fst (dset k v d)) <-> x = k \/ In x (map fst d).
Proof.
  induction d as [|(k1 & v1) d IH]; cbn [dset map].
  - cbn. split; [intros [<-|[]]; auto|intros [->|[]]; auto].
  - destruct (chars_eqb k k1) eqn:E; cbn [map fst In].
    + apply chars_eqb_eq in E. subst. intuition (subst; auto).
    + rewrite IH. intuition (subst; auto).
Qed.
Lemma dset_nodup {A} k (v : A) d : NoDup (map fst d) -> NoDup (map fst (dset k v d)).
Proof.
  induction d as [|(k1 & v1) d IH]; cbn [dset map]; intro H; [repeat constructor; intros []|].
  inversion H; subst. destruct (chars_eqb k k1) eqn:E; cbn [map fst]; [constructor; assumption|].
  constructor; [|auto]. rewrite dset_keys. intros [->|H']; [rewrite chars_eqb_refl in E; discriminate|contradiction].
Qed.
Lemma from_pairs_fold {A} (l : list (chars * A)) : forall d, NoDup (map fst d) ->
  let d' := fold_left (fun d kv => dset (fst kv) (snd kv) d) l d in
  NoDup (map fst d') /\ (forall x, In x (map fst d') <-> In x (map fst d) \/ In x (map fst l)) /\
  forall k v, dlook k d' = Some v -> In (k, v) l \/ (~ In k (map fst l) /\ dlook k d = Some v).
Proof.
  induction l as [|(k & v) l IH]; intros d Hd; cbn [fold_left map fst snd].
  - split; [assumption|]. split; [cbn; tauto|]. intros; right; split; [intros []|assumption].
  - destruct (IH (dset k v d) (dset_nodup k v d Hd)) as (I1 & I2 & I3). split; [assumption|]. split.
    + intro x. rewrite I2, dset_keys. cbn. intuition.
    + intros k' v' H. apply I3 in H. destruct H as [H|[H1 H2]]; [left; right; assumption|].
      rewrite dlook_dset in H2. destruct (chars_eqb k' k) eqn:E.
      * apply chars_eqb_eq in E. injection H2 as ->. subst. left. left. reflexivity.
      * right. split; [|assumption]. intros [H|H]; [subst; rewrite chars_eqb_refl in E; discriminate|contradiction].
Qed.
Lemma normalize_nodup c : NoDup (map fst (normalize c)).
Proof. apply (from_pairs_fold _ []). constructor. Qed.
Lemma normalize_given c b x : dlook b (normalize c) = Some x -> given c b x.
Proof.
  intro H. unfold normalize, from_pairs in H. destruct (from_pairs_fold (map (fun kv => (removesuffix (fst kv), snd kv)) c) [] (NoDup_nil _)) as (_ & _ & I3).
  apply I3 in H. destruct H as [H|[_ H]]; [|discriminate]. apply in_map_iff in H. destruct H as ((k & v) & H1 & H2).
  injection H1 as <- <-. exists k. auto.
Qed.
Lemma normalize_keys c b : In b (map fst (normalize c)) <-> exists x, given c b x.
Proof.
  unfold normalize, from_pairs. destruct (from_pairs_fold (map (fun kv => (removesuffix (fst kv), snd kv)) c) [] (NoDup_nil _)) as (_ & I2 & _).
  rewrite I2. rewrite map_map. cbn. split.
  - intros [[]|H]. apply in_map_iff in H. destruct H as ((k & v) & H1 & H2). exists v, k. auto.
  - intros (x & k & H1 & H2). right. apply in_map_iff. exists (k, x). auto.
Qed.
Lemma normalize_look c b x : unambiguous c -> (dlook b (normalize c) = Some x <-> given c b x).
Proof.
  intro Hu. split; [apply normalize_given|]. intro H. destruct (dlook b (normalize c)) as [x'|] eqn:E.
  - f_equal. apply (Hu b); [now apply normalize_given|assumption].
  - apply dlook_None in E. destruct E. apply normalize_keys. eauto.
Qed.
Lemma has_key_In {A} (d : dict A) k : has_key d k = true <-> In k (map fst d).
Proof.
  unfold has_key. rewrite existsb_exists. split.
  - intros ((k' & v) & H1 & H2). cbn in H2. apply chars_eqb_eq in H2. subst. apply in_map_iff. exists (k', v). auto.
  - intro H. apply in_map_iff in H. destruct H as ((k' & v) & H1 & H2). cbn in H1. subst. exists (k, v). split; [assumption|]. apply chars_eqb_refl.
Qed.

(* ---- boundaries ---- *)
Definition ss_or_one (d : dict R) (n : chars) : R :=
  match dlook (n ++ suffix_ss) d with Some x => x | None => match dlook n d with Some x => x | None => 1%R end end.
Lemma overwrite_spec names conds : NoDup names -> NoDup (map fst conds) -> forall vals v, length vals = length names ->
  overwrite names conds vals = Ok v -> length v = length names /\
  forall j b, nth_error names j = Some b -> nth_error v j = match dlook b conds with Some x => Some x | None => nth_error vals j end.
Proof.
  intros Hn. induction conds as [|(k & x) conds IH]; intros Hk vals v Hl H; cbn [overwrite] in H.
  - injection H as <-. split; [assumption|]. reflexivity.
  - destruct (position k names) as [i|] eqn:E; [|discriminate]. inversion Hk; subst.
    apply position_Some in E. assert (Hi : i < length vals) by (rewrite Hl; apply nth_error_Some; congruence).
    apply IH in H; [|assumption|rewrite set_nth_length; assumption]. destruct H as [V1 V2]. split; [assumption|].
    intros j b Hj. rewrite (V2 j b Hj), set_nth_error by assumption. unfold dlook. cbn [find fst].
    destruct (chars_eqb b k) eqn:E'.
    + apply chars_eqb_eq in E'. subst b. assert (j = i) by (apply (proj1 (NoDup_nth_error names) Hn); [apply nth_error_Some; congruence|congruence]).
      subst. rewrite Nat.eqb_refl. assert (Hd : dlook k conds = None) by (apply dlook_None; assumption).
      unfold dlook in Hd. destruct (find _ conds); [discriminate|reflexivity].
    + destruct (Nat.eqb_spec j i) as [->|N]; [|reflexivity]. assert (b = k) by congruence. subst. rewrite chars_eqb_refl in E'. discriminate.
Qed.
Lemma overwrite_ok names conds : (forall k, In k (map fst conds) -> In k names) -> forall vals, exists v, overwrite names conds vals = Ok v.
Proof.
  induction conds as [|(k & x) conds IH]; intros H vals; cbn [overwrite]; [eauto|].
  destruct (position_In k names) as (i & Hi); [apply H; left; reflexivity|]. rewrite Hi. apply IH. intros k' Hk'. apply H. right. assumption.
Qed.
Lemma covers_iff names conds : covers names conds = true <-> forall b, In b names -> In b (map fst conds).
Proof. unfold covers. rewrite forallb_forall. split; intros H b Hb; apply has_key_In, H, Hb. Qed.
Lemma boundary_spec names conds ss v : NoDup names -> NoDup (map fst conds) -> boundary names conds ss = Ok v ->
  length v = length names /\ forall j b, nth_error names j = Some b ->
    (forall x, dlook b conds = Some x -> nth_error v j = Some x) /\
    (dlook b conds = None -> exists d, ss = Some d /\ covers names conds = false /\ nth_error v j = Some (ss_or_one d b)).
Proof.
  intros Hn Hk H. unfold boundary in H. destruct (covers names conds) eqn:EC.
  - apply mapM_inv in H. destruct H as [H1 H2]. split; [assumption|]. intros j b Hj. destruct (H2 j b Hj) as (x & Hx & Hv). split.
    + intros x' Hx'. rewrite Hx' in Hx. congruence.
    + intro Hno. rewrite Hno in Hx. discriminate.
  - destruct ss as [d|]; [|discriminate]. apply overwrite_spec in H; [|assumption|assumption|unfold ss_array; apply map_length].
    destruct H as [H1 H2]. split; [assumption|]. intros j b Hj. pose proof (H2 j b Hj) as Hv. split.
    + intros x Hx. rewrite Hx in Hv. assumption.
    + intro Hno. rewrite Hno in Hv. exists d. split; [reflexivity|]. split; [reflexivity|]. rewrite Hv. unfold ss_array.
      rewrite nth_error_map, Hj. reflexivity.
Qed.
Lemma boundary_ok names conds ss : (forall k, In k (map fst conds) -> In k names) -> (covers names conds = false -> ss <> None) ->
  exists v, boundary names conds ss = Ok v.
Proof.
  intros H1 H2. unfold boundary. destruct (covers names conds) eqn:EC.
  - rewrite covers_iff in EC. exists (map (fun n => match dlook n conds with Some x => x | None => 0%R end) names).
    apply mapM_all. intros b Hb. destruct (dlook b conds) eqn:E; [reflexivity|]. apply dlook_None in E. destruct E. now apply EC.
  - destruct ss as [d|]; [|destruct (H2 eq_refl eq_refl)]. now apply overwrite_ok.
Qed.

(* ---- shocks and parameters ---- *)
Lemma by_period_rows T cols f : (forall t, t < T -> map (fun c => nth t c 0%R) cols = f t) -> rows_from T (by_period T cols) f.
Proof.
  intro H. split; [unfold by_period; rewrite map_length, seq_length; reflexivity|]. intros t Ht. unfold by_period.
  rewrite nth_error_map. replace (nth_error (seq 0 T) t) with (Some t). 2:{ symmetry. rewrite (nth_error_nth' _ 0) by (rewrite seq_length; assumption). rewrite seq_nth by assumption. reflexivity. }
  cbn [option_map]. now rewrite H.
Qed.
Lemma shock_matrix_spec a names x : (forall k p, In (k, p) (g_shocks a) -> length p = g_length a) ->
  build_shock_matrix (g_shocks a) names (g_length a) = Ok x -> rows_from (g_length a) x (fun t => map (fun b => user_shock a b t) names).
Proof.
  intros Hl H. unfold build_shock_matrix in H. destruct (mapM _ names) as [cols|] eqn:E; [|discriminate]. cbn [bind] in H. injection H as <-.
  apply mapM_inv in E. destruct E as [E1 E2]. apply by_period_rows. intros t Ht. apply nth_error_ext. intro i. rewrite !nth_error_map.
  destruct (nth_error names i) as [b|] eqn:Ei.
  - destruct (E2 i b Ei) as (c & Hc & Hi). rewrite Hi. cbn [option_map]. f_equal. unfold shock_column in Hc. unfold user_shock.
    destruct (dlook b (g_shocks a)) as [p|] eqn:Ed.
    + apply dlook_In in Ed. apply Hl in Ed. rewrite Ed, Nat.leb_refl, Nat.sub_diag in Hc. cbn [repeat] in Hc. rewrite app_nil_r in Hc. congruence.
    + injection Hc as <-. apply nth_repeat.
  - assert (En : nth_error cols i = None) by (apply nth_error_None; apply nth_error_None in Ei; lia). rewrite En. reflexivity.
Qed.
Lemma shock_matrix_ok a names : (forall k p, In (k, p) (g_shocks a) -> length p = g_length a) ->
  exists x, build_shock_matrix (g_shocks a) names (g_length a) = Ok x.
Proof.
  intro Hl. unfold build_shock_matrix.
  rewrite (mapM_all _ (fun b => match dlook b (g_shocks a) with Some p => p | None => repeat 0%R (g_length a) end)); [cbn [bind]; eauto|].
  intros b _. unfold shock_column. destruct (dlook b (g_shocks a)) as [p|] eqn:Ed; [|reflexivity].
  apply dlook_In in Ed. apply Hl in Ed. rewrite Ed, Nat.leb_refl, Nat.sub_diag. cbn [repeat]. rewrite app_nil_r. reflexivity.
Qed.
Definition path_fits (T : nat) (p : path) : Prop := match p with Number _ => True | Array l | Sequence l => length l = T end.
Lemma as_column_fits T p : path_fits T p -> exists c, as_column T p = Ok c /\ forall t, t < T -> nth t c 0%R = path_value p t.
Proof.
  destruct p as [x|l|l]; cbn [path_fits as_column path_value].
  - intros _. exists (repeat x T). split; [reflexivity|]. intros t Ht. rewrite (nth_indep _ 0%R x) by (rewrite repeat_length; assumption). apply nth_repeat.
  - intro H. rewrite H, Nat.eqb_refl. exists l. auto.
  - intro H. rewrite H, Nat.eqb_refl. exists l. auto.
Qed.
Lemma set_paths_spec T names paths : NoDup names -> NoDup (map fst paths) -> (forall k p, In (k, p) paths -> path_fits T p) ->
  forall cols cols', length cols = length names -> set_paths T names paths cols = Ok cols' ->
  length cols' = length names /\ forall i n, nth_error names i = Some n -> exists c, nth_error cols' i = Some c /\
    forall t, t < T -> nth t c 0%R = match dlook n paths with Some p => path_value p t | None => nth t (nth i cols []) 0%R end.
Proof.
  intros Hn. induction paths as [|(k & p) paths IH]; intros Hk Hfit cols cols' Hl H; cbn [set_paths] in H.
  - injection H as <-. split; [assumption|]. intros i n Hi. destruct (nth_error cols i) as [c|] eqn:E.
    + exists c. split; [reflexivity|]. intros t Ht. cbn. now rewrite (nth_error_nth _ _ _ E).
    + apply nth_error_None in E. assert (i < length names) by (apply nth_error_Some; congruence). lia.
  - destruct (position k names) as [i0|] eqn:E; [|discriminate]. apply position_Some in E. inversion Hk; subst.
    assert (Hi0 : i0 < length cols) by (rewrite Hl; apply nth_error_Some; congruence).
    destruct (as_column_fits T p) as (c & Hc & Hcv); [eapply Hfit; left; reflexivity|]. rewrite Hc in H. cbn [bind] in H.
    apply IH in H; [|assumption|intros; eapply Hfit; right; eassumption|rewrite set_nth_length; assumption].
    destruct H as [V1 V2]. split; [assumption|]. intros i n Hi. destruct (V2 i n Hi) as (c' & Hc' & Hv). exists c'. split; [assumption|].
    intros t Ht. rewrite (Hv t Ht). rewrite set_nth_nth by assumption. unfold dlook. cbn [find fst]. destruct (chars_eqb n k) eqn:E'.
    + apply chars_eqb_eq in E'. subst n. assert (i = i0) by (apply (proj1 (NoDup_nth_error names) Hn); [apply nth_error_Some; congruence|congruence]).
      subst. rewrite Nat.eqb_refl. assert (Hd : dlook k paths = None) by (apply dlook_None; assumption).
      unfold dlook in Hd. destruct (find _ paths); [discriminate|]. now apply Hcv.
    + destruct (Nat.eqb_spec i i0) as [->|N]; [|reflexivity]. assert (n = k) by congruence. subst. rewrite chars_eqb_refl in E'. discriminate.
Qed.
Lemma set_paths_ok T names paths : (forall k p, In (k, p) paths -> In k names /\ path_fits T p) -> forall cols, exists cols', set_paths T names paths cols = Ok cols'.
Proof.
  induction paths as [|(k & p) paths IH]; intros H cols; cbn [set_paths]; [eauto|].
  destruct (H k p (or_introl eq_refl)) as [H1 H2]. destruct (position_In k names H1) as (i & Hi). rewrite Hi.
  destruct (as_column_fits T p H2) as (c & Hc & _). rewrite Hc. cbn [bind]. apply IH. intros k' p' H'. apply H. right. assumption.
Qed.
Lemma param_matrix_spec m a names x : NoDup names -> NoDup (map fst (g_paths a)) ->
  (forall k p, In (k, p) (g_paths a) -> path_fits (g_length a) p) ->
  build_param_matrix (g_paths a) names (p_defaults m []) (g_length a) = Ok x ->
  rows_from (g_length a) x (fun t => map (fun n => user_param m a n t) names).
Proof.
  intros Hn Hk Hfit H. unfold build_param_matrix in H. destruct (mapM _ names) as [d|] eqn:E; [|discriminate]. cbn [bind] in H.
  destruct (set_paths _ _ _ _) as [cols|] eqn:E'; [|discriminate]. cbn [bind] in H. injection H as <-.
  apply mapM_inv in E. destruct E as [E1 E2]. apply set_paths_spec in E'; try assumption; [|rewrite map_length; assumption].
  destruct E' as [C1 C2]. apply by_period_rows. intros t Ht. apply nth_error_ext. intro i. rewrite !nth_error_map.
  destruct (nth_error names i) as [n|] eqn:Ei.
  - destruct (C2 i n Ei) as (c & Hc & Hv). rewrite Hc. cbn [option_map]. f_equal. rewrite (Hv t Ht). unfold user_param.
    destruct (dlook n (g_paths a)); [reflexivity|]. destruct (E2 i n Ei) as (x0 & Hx & Hi). destruct (dlook n (p_defaults m [])) as [x1|]; [|discriminate].
    injection Hx as ->. rewrite (nth_error_nth (map (fun x => repeat x (g_length a)) d) i [] (x := repeat x0 (g_length a))) by (rewrite nth_error_map, Hi; reflexivity).
    rewrite (nth_indep _ 0%R x0) by (rewrite repeat_length; assumption). apply nth_repeat.
  - assert (En : nth_error cols i = None) by (apply nth_error_None; apply nth_error_None in Ei; lia). rewrite En. reflexivity.
Qed.

(* ---- validation ---- *)
Lemma validate_ok a initial terminal P : validate a initial terminal P = Ok tt <->
  (forall k, In k (map fst initial) -> In k (q_vars P)) /\ (forall k, In k (map fst terminal) -> In k (q_vars P)) /\
  (forall k p, In (k, p) (g_shocks a) -> In k (map par_name (q_shocks P)) /\ length p = g_length a) /\
  (forall k p, In (k, p) (g_paths a) -> In k (q_params P) /\ match p with Array l => length l = g_length a | _ => True end).
Proof.
  assert (Hk : forall A (d : dict A) (names : list chars), forallb (fun kv => existsb (chars_eqb (fst kv)) names) d = true <-> forall k, In k (map fst d) -> In k names).
  { intros A d names. rewrite forallb_forall. split.
    - intros H k Hin. apply in_map_iff in Hin. destruct Hin as (kv & <- & Hin). apply existsb_chars. now apply H.
    - intros H kv Hin. apply existsb_chars. apply H. apply in_map. assumption. }
  assert (Hin : forall A (d : dict A) k v, In (k, v) d -> In k (map fst d)) by (intros A d k v H; apply (in_map fst) in H; exact H).
  unfold validate. cbv zeta.
  destruct (forallb _ initial) eqn:E1; cbn [negb].
  2:{ split; [discriminate|]. intros (H & _). apply Hk in H. congruence. }
  destruct (forallb _ terminal) eqn:E2; cbn [negb].
  2:{ split; [discriminate|]. intros (_ & H & _). apply Hk in H. congruence. }
  destruct (forallb (fun kv => existsb _ (map par_name (q_shocks P))) (g_shocks a)) eqn:E3; cbn [negb].
  2:{ split; [discriminate|]. intros (_ & _ & H & _). assert (Q : forall k, In k (map fst (g_shocks a)) -> In k (map par_name (q_shocks P))).
      { intros k Hkin. apply in_map_iff in Hkin. destruct Hkin as ((k' & p) & <- & Hkin). exact (proj1 (H k' p Hkin)). }
      apply Hk in Q. congruence. }
  destruct (forallb (fun kv => Nat.eqb _ _) (g_shocks a)) eqn:E4; cbn [negb].
  2:{ split; [discriminate|]. intros (_ & _ & H & _). assert (Q : forallb (fun kv => Nat.eqb (length (snd kv)) (g_length a)) (g_shocks a) = true).
      { apply forallb_forall. intros (k & p) Hkin. apply Nat.eqb_eq. exact (proj2 (H k p Hkin)). } congruence. }
  destruct (forallb (fun kv => existsb _ (q_params P)) (g_paths a)) eqn:E5; cbn [negb].
  2:{ split; [discriminate|]. intros (_ & _ & _ & H). assert (Q : forall k, In k (map fst (g_paths a)) -> In k (q_params P)).
      { intros k Hkin. apply in_map_iff in Hkin. destruct Hkin as ((k' & p) & <- & Hkin). exact (proj1 (H k' p Hkin)). }
      apply Hk in Q. congruence. }
  destruct (forallb (fun kv => match snd kv with Array l => _ | _ => true end) (g_paths a)) eqn:E6; cbn [negb].
  2:{ split; [discriminate|]. intros (_ & _ & _ & H). assert (Q : forallb (fun kv => match snd kv with Array l => Nat.eqb (length l) (g_length a) | _ => true end) (g_paths a) = true).
      { apply forallb_forall. intros (k & p) Hkin. pose proof (proj2 (H k p Hkin)) as Hp. cbn [snd]. destruct p; try reflexivity. apply Nat.eqb_eq. exact Hp. } congruence. }
  split; [|reflexivity]. intros _. rewrite Hk in E1, E2, E3, E5. rewrite forallb_forall in E4, E6. split; [assumption|]. split; [assumption|]. split.
  - intros k p H. split; [apply E3; eapply Hin, H|]. specialize (E4 _ H). apply Nat.eqb_eq in E4. exact E4.
  - intros k p H. split; [apply E5; eapply Hin, H|]. specialize (E6 _ H). cbn [snd] in E6. destruct p; try exact I. apply Nat.eqb_eq in E6. exact E6.
Qed.
Lemma validate_err a initial terminal P e : validate a initial terminal P = Err e -> e = ValueError.
Proof.
  unfold validate. cbv zeta. repeat (match goal with |- context [if ?b then _ else _] => destruct b end; [intro H; congruence|]). discriminate.
Qed.

(* ---- boundary parameter values ---- *)
Lemma boundary_kwargs_spec T paths ik tk : (forall k p, In (k, p) paths -> match p with Array l => length l = T | _ => True end) ->
  boundary_kwargs paths = Ok (ik, tk) ->
  ik = map (fun kv => (fst kv, path_value (snd kv) 0)) paths /\ tk = map (fun kv => (fst kv, path_value (snd kv) (T - 1))) paths /\
  forall k p, In (k, p) paths -> match p with Number _ => True | Array l => l <> [] | Sequence _ => False end.
Proof.
  intros Hl H. unfold boundary_kwargs in H. destruct (mapM boundary_values paths) as [l|] eqn:E; [|discriminate]. cbn [bind] in H. injection H as <- <-.
  revert l E. induction paths as [|(k & p) paths IH]; intros l E; cbn [mapM] in E.
  - injection E as <-. cbn. split; [reflexivity|]. split; [reflexivity|]. intros k p [].
  - destruct (boundary_values (k, p)) as [v|] eqn:Ev; [|discriminate]. cbn [bind] in E. destruct (mapM boundary_values paths) as [l'|] eqn:El; [|discriminate].
    cbn [bind] in E. injection E as <-. destruct (IH (fun k p H => Hl k p (or_intror H)) l' eq_refl) as (I1 & I2 & I3).
    cbn [map]. rewrite I1, I2. pose proof (Hl k p (or_introl eq_refl)) as Hp. unfold boundary_values in Ev. cbn [fst snd] in Ev.
    destruct p as [x|[|x l]|l]; try discriminate; injection Ev as <-; cbn [fst snd path_value].
    + split; [reflexivity|]. split; [reflexivity|]. intros k' p' [H|H]; [injection H as <- <-; exact I|eapply I3, H].
    + split; [reflexivity|]. split.
      * f_equal. f_equal. rewrite <- Hp. clear. cbn [length]. replace (S (length l) - 1) with (length l) by lia.
        revert x. induction l as [|y l IH]; intro x; [reflexivity|]. cbn [length nth last]. cbn in IH. rewrite (IH y). reflexivity.
      * intros k' p' [H|H]; [injection H as <- <-; discriminate|eapply I3, H].
Qed.
