From Verif Require Import Common Sort_Lib SymDict_Model SymDict_More Lin_Model Sens_Model Sens_Spec.
From Coq Require Import Reals Lra Permutation Sorted.
Local Open Scope list_scope.
Local Open Scope R_scope.

Lemma node_eqb_eq a b : node_eqb a b = true <-> a = b.
Proof. destruct a, b; cbn; try (split; congruence); rewrite chars_eqb_eq; split; congruence. Qed.
Lemma node_eqb_refl a : node_eqb a a = true. Proof. now apply node_eqb_eq. Qed.

Section T.
Context {A : Type}.
Lemma total_ext (f g : A -> R) l : (forall x, In x l -> f x = g x) -> total f l = total g l.
Proof. induction l as [|x l IH]; cbn; intros H; [easy|]. rewrite H by auto. rewrite IH; auto. Qed.
Lemma total_le (f g : A -> R) l : (forall x, In x l -> f x <= g x) -> total f l <= total g l.
Proof. induction l as [|x l IH]; cbn; intros H; [lra|]. pose proof (H x (or_introl eq_refl)). specialize (IH (fun y h => H y (or_intror h))). lra. Qed.
Lemma total_plus (f g : A -> R) l : total (fun x => f x + g x) l = total f l + total g l.
Proof. induction l as [|x l IH]; cbn; lra. Qed.
Lemma total_scal c (f : A -> R) l : total (fun x => c * f x) l = c * total f l.
Proof. induction l as [|x l IH]; cbn; lra. Qed.
Lemma total_minus (f g : A -> R) l : total (fun x => f x - g x) l = total f l - total g l.
Proof. induction l as [|x l IH]; cbn; lra. Qed.
Lemma total_abs (f : A -> R) l : Rabs (total f l) <= total (fun x => Rabs (f x)) l.
Proof. induction l as [|x l IH]; cbn; [rewrite Rabs_R0; lra|]. pose proof (Rabs_triang (f x) (total f l)). lra. Qed.
Lemma total_nonneg (f : A -> R) l : (forall x, In x l -> 0 <= f x) -> 0 <= total f l.
Proof. induction l as [|x l IH]; cbn; intros H; [lra|]. pose proof (H x (or_introl eq_refl)). specialize (IH (fun y h => H y (or_intror h))). lra. Qed.
Lemma total_zero (f : A -> R) l : (forall x, In x l -> f x = 0) -> total f l = 0.
Proof. induction l as [|x l IH]; cbn; intros H; [lra|]. rewrite H, IH; auto. lra. Qed.
Lemma total_app (f : A -> R) l l' : total f (l ++ l') = total f l + total f l'.
Proof. induction l as [|x l IH]; cbn; lra. Qed.
End T.
Lemma total_map {A B} (h : A -> B) (f : B -> R) l : total f (map h l) = total (fun x => f (h x)) l.
Proof. induction l as [|x l IH]; cbn; congruence. Qed.

(* one delta for all the inputs *)
Lemma uniform (c : R -> env) p0 (d : node -> R) l : (forall n, In n l -> derivable_pt_lim (fun p => c p n) p0 (d n)) ->
  forall eta, 0 < eta -> exists delta, 0 < delta /\ forall h, Rabs h < delta -> forall n, In n l ->
    Rabs (c (p0 + h) n - c p0 n - h * d n) <= eta * Rabs h.
Proof.
  intros H eta He. induction l as [|a l IH]. { exists 1. split; [lra|]. intros h _ n []. }
  destruct IH as (d1 & P1 & Q1). { intros n Hn. apply H. now right. }
  destruct (H a (or_introl eq_refl) eta He) as [[d2 P2] Q2].
  exists (Rmin d1 d2). split; [now apply Rmin_pos|]. intros h Hh n [<- | Hn].
  - destruct (Req_dec h 0) as [-> | Hz]. { rewrite Rplus_0_r. replace (c p0 a - c p0 a - 0 * d a) with 0 by ring. rewrite Rabs_R0. lra. }
    assert (Rabs h < d2) as Hd by (eapply Rlt_le_trans; [exact Hh|apply Rmin_r]).
    pose proof (Q2 h Hz Hd) as Q. cbn in Q.
    replace (c (p0 + h) a - c p0 a - h * d a) with (((c (p0 + h) a - c p0 a) / h - d a) * h) by (field; auto).
    rewrite Rabs_mult. apply Rmult_le_compat_r; [apply Rabs_pos|lra].
  - apply Q1; [|auto]. eapply Rlt_le_trans; [exact Hh|apply Rmin_l].
Qed.

Lemma same_point F l e e' g : differentiable F l e g -> (forall n, In n l -> e' n = e n) -> F e' = F e.
Proof.
  intros HF H. destruct (HF 1 Rlt_0_1) as (dl & Hd & Q). specialize (Q e').
  assert (forall n, In n l -> Rabs (e' n - e n) < dl) as Hn.
  { intros n Hn. rewrite (H n Hn). unfold Rminus. rewrite Rplus_opp_r, Rabs_R0. auto. }
  specialize (Q Hn). rewrite !total_zero in Q.
  - revert Q. replace (F e' - F e - 0) with (F e' - F e) by ring. intros Q. pose proof (Rabs_pos (F e' - F e)).
    destruct (Req_dec (F e' - F e) 0) as [E|E]; [lra|]. apply Rabs_pos_lt in E. lra.
  - intros n Hn'. rewrite (H n Hn'). unfold Rminus. now rewrite Rplus_opp_r, Rabs_R0.
  - intros n Hn'. rewrite (H n Hn'). ring.
Qed.

Lemma chain F l e g (c : R -> env) p0 (d : node -> R) : differentiable F l e g -> (forall n, In n l -> c p0 n = e n) ->
  (forall n, In n l -> derivable_pt_lim (fun p => c p n) p0 (d n)) ->
  derivable_pt_lim (fun p => F (c p)) p0 (total (fun n => g n * d n) l).
Proof.
  intros HF H0 Hc eps He.
  pose (K := total (fun n => Rabs (g n)) l). pose (D := total (fun n => Rabs (d n) + 1) l).
  assert (0 <= K) as HK by (apply total_nonneg; intros; apply Rabs_pos).
  assert (0 <= D) as HD by (apply total_nonneg; intros x _; pose proof (Rabs_pos (d x)); lra).
  pose (e1 := eps / (4 * (D + 1))). pose (eta := Rmin 1 (eps / (4 * (K + 1)))).
  assert (0 < e1) as He1 by (apply Rdiv_lt_0_compat; lra).
  assert (0 < eta) as Heta by (apply Rmin_pos; [lra|apply Rdiv_lt_0_compat; lra]).
  destruct (HF e1 He1) as (dl & Hdl & HF1). destruct (uniform c p0 d l Hc eta Heta) as (d2 & Hd2 & Q2).
  assert (0 < Rmin d2 (dl / (D + 1))) as Hpos by (apply Rmin_pos; [auto|apply Rdiv_lt_0_compat; lra]).
  exists (mkposreal _ Hpos). intros h Hh Hs. cbn in Hs.
  assert (Rabs h < d2) as Hs1 by (eapply Rlt_le_trans; [exact Hs|apply Rmin_l]).
  assert (Rabs h < dl / (D + 1)) as Hs2 by (eapply Rlt_le_trans; [exact Hs|apply Rmin_r]).
  assert (0 < Rabs h) as Hh' by now apply Rabs_pos_lt.
  assert (forall n, In n l -> Rabs (c (p0 + h) n - e n) <= (Rabs (d n) + 1) * Rabs h) as Hn.
  { intros n Hn. pose proof (Q2 h Hs1 n Hn) as Q. rewrite (H0 n Hn) in Q.
    replace (c (p0 + h) n - e n) with ((c (p0 + h) n - e n - h * d n) + h * d n) by ring.
    eapply Rle_trans; [apply Rabs_triang|]. rewrite (Rabs_mult h). assert (eta <= 1) by apply Rmin_l.
    pose proof (Rmult_le_compat_r (Rabs h) eta 1 (Rlt_le _ _ Hh') H). lra. }
  assert (forall n, In n l -> Rabs (d n) + 1 <= D) as HDn.
  { intros n Hn'. unfold D. clear -Hn'. induction l as [|a l IH]; [easy|]. cbn. destruct Hn' as [<- | H].
    - assert (0 <= total (fun n => Rabs (d n) + 1) l) by (apply total_nonneg; intros x _; pose proof (Rabs_pos (d x)); lra). lra.
    - specialize (IH H). pose proof (Rabs_pos (d a)). lra. }
  specialize (HF1 (c (p0 + h))).
  assert (forall n, In n l -> Rabs (c (p0 + h) n - e n) < dl) as Hclose.
  { intros n Hn'. eapply Rle_lt_trans; [apply Hn; auto|]. eapply Rle_lt_trans; [apply Rmult_le_compat_r; [lra|apply HDn; auto]|].
    assert (D * Rabs h <= D * (dl / (D + 1))) by (apply Rmult_le_compat_l; lra).
    assert (D * (dl / (D + 1)) < dl). { assert (dl / (D+1) * (D + 1) = dl) by (field; lra). assert (0 < dl / (D+1)) by (apply Rdiv_lt_0_compat; lra). lra. }
    lra. }
  specialize (HF1 Hclose).
  assert (F (c p0) = F e) as EF by (eapply same_point; eauto).
  set (L := total (fun n => g n * d n) l) in *.
  set (S1 := total (fun n => g n * (c (p0 + h) n - e n)) l) in *.
  assert (Rabs (S1 - h * L) <= K * (eta * Rabs h)) as B1.
  { unfold S1, L. rewrite <- total_scal, <- total_minus. eapply Rle_trans; [apply total_abs|].
    rewrite Rmult_comm. unfold K. rewrite <- total_scal. apply total_le. intros n Hn'.
    replace (g n * (c (p0 + h) n - e n) - h * (g n * d n)) with ((c (p0 + h) n - e n - h * d n) * g n) by ring.
    rewrite Rabs_mult. apply Rmult_le_compat_r; [apply Rabs_pos|]. rewrite <- (H0 n Hn'). now apply Q2. }
  assert (total (fun n => Rabs (c (p0 + h) n - e n)) l <= D * Rabs h) as B2.
  { unfold D. rewrite Rmult_comm, <- total_scal. apply total_le. intros n Hn'. rewrite Rmult_comm. now apply Hn. }
  assert (Rabs (F (c (p0 + h)) - F (c p0) - h * L) <= e1 * (D * Rabs h) + K * (eta * Rabs h)) as B.
  { rewrite EF. replace (F (c (p0 + h)) - F e - h * L) with ((F (c (p0 + h)) - F e - S1) + (S1 - h * L)) by ring.
    eapply Rle_trans; [apply Rabs_triang|]. apply Rplus_le_compat; [|auto].
    eapply Rle_trans; [exact HF1|]. apply Rmult_le_compat_l; [lra|auto]. }
  replace ((F (c (p0 + h)) - F (c p0)) / h - L) with ((F (c (p0 + h)) - F (c p0) - h * L) / h) by (field; auto).
  unfold Rdiv at 1. rewrite Rabs_mult, Rabs_inv.
  apply Rmult_lt_reg_r with (Rabs h); [auto|]. rewrite Rmult_assoc, Rinv_l by lra. rewrite Rmult_1_r.
  eapply Rle_lt_trans; [exact B|].
  assert (e1 * D <= eps / 4). { unfold e1. assert (eps / (4 * (D + 1)) * (D + 1) = eps / 4) by (field; lra). fold e1 in H. fold e1. lra. }
  assert (K * eta <= eps / 4).
  { assert (eta <= eps / (4 * (K + 1))) by apply Rmin_r. assert (eps / (4 * (K + 1)) * (K + 1) = eps / 4) by (field; lra).
    assert (K * eta <= K * (eps / (4 * (K + 1)))) by (apply Rmult_le_compat_l; lra). assert (0 < eps / (4 * (K+1))) by (apply Rdiv_lt_0_compat; lra). lra. }
  replace (e1 * (D * Rabs h) + K * (eta * Rabs h)) with ((e1 * D + K * eta) * Rabs h) by ring.
  apply Rmult_lt_compat_r; [auto|]. lra.
Qed.

(* a partial derivative is the derivative along the axis *)
Lemma partial_derivative F l e g n : NoDup l -> In n l -> differentiable F l e g ->
  derivable_pt_lim (fun x => F (change e n x)) (e n) (g n).
Proof.
  intros Hd Hn HF.
  assert (total (fun a => g a * (if node_eqb a n then 1 else 0)) l = g n) as E.
  { clear HF. induction l as [|a l IH]; [easy|]. inversion Hd; subst. cbn. destruct Hn as [<- | Hn].
    - rewrite node_eqb_refl, total_zero; [lra|]. intros x Hx. destruct (node_eqb x a) eqn:E; [|lra]. apply node_eqb_eq in E. congruence.
    - rewrite IH by auto. destruct (node_eqb a n) eqn:E; [|lra]. apply node_eqb_eq in E. congruence. }
  rewrite <- E. apply (chain F l e g (fun x => change e n x) (e n)); auto.
  - intros a _. unfold change. destruct (node_eqb a n) eqn:Ea; [apply node_eqb_eq in Ea; congruence|easy].
  - intros a _. unfold change. destruct (node_eqb a n); [apply derivable_pt_lim_id|apply derivable_pt_lim_const].
Qed.

(* ---- the call ---- *)
Lemma mod_total a b : mod_leb a b = true \/ mod_leb b a = true.
Proof. unfold mod_leb. destruct (Rle_dec (modulus a) (modulus b)); [auto|]. destruct (Rle_dec (modulus b) (modulus a)); [auto|lra]. Qed.
Lemma mod_trans a b c : mod_leb a b = true -> mod_leb b c = true -> mod_leb a c = true.
Proof.
  unfold mod_leb. destruct (Rle_dec (modulus a) (modulus b)); [|easy]. destruct (Rle_dec (modulus b) (modulus c)); [|easy].
  destruct (Rle_dec (modulus a) (modulus c)); [easy|lra].
Qed.

Lemma need_map d : forall names vs, need d names = Ok vs -> vs = map (rval d) names /\ forall n, In n names -> exists x, rget n d = Some x.
Proof.
  induction names as [|n names IH]; cbn; intros vs H. { injection H as <-. now split. }
  destruct (rget n d) as [x|] eqn:E; [|discriminate]. destruct (need d names) as [r|] eqn:E2; [|discriminate]. cbn in H. injection H as <-.
  destruct (IH _ eq_refl) as [-> Q]. split. { cbn. f_equal. unfold rval. now rewrite E. }
  intros n' [<- | Hn]; eauto.
Qed.

Lemma find_combine (f : node -> R) l n : In n l -> find (fun kv => node_eqb n (fst kv)) (combine l (map f l)) = Some (n, f n).
Proof.
  induction l as [|a l IH]; [easy|]. cbn. intros H. destruct (node_eqb n a) eqn:E; [apply node_eqb_eq in E; now subst|].
  destruct H as [<- | H]; [now rewrite node_eqb_refl in E|auto].
Qed.

Section Call.
Variable m : sens_model.
(* the environment a call evaluates at is the one the model's own methods give *)
Lemma call_inv given upd ds : eigenvalue_sensitivity m given upd = Ok ds ->
  exists ps ss e, parameters m upd = Ok ps /\ match given with None => s_solve m ps | Some s => Ok s end = Ok ss /\ s_nodes m <> [] /\
    (forall v, In v (s_vars m) -> e (NSS v) = rval (strip_keys ss) v /\ exists x, rget v (strip_keys ss) = Some x) /\
    (forall n, In n (s_nodes m) -> e (NPar n) = rval ps n /\ exists x, rget n ps = Some x) /\
    ds = DS (s_nodes m) (map (fun z => (fst z, snd z, modulus z)) (eigenvalues_at m e))
            (map (fun k => (map (s_jac_re m e k) (s_nodes m), map (s_jac_im m e k) (s_nodes m))) (seq 0 (length (eigenvalues_at m e)))).
Proof.
  unfold eigenvalue_sensitivity. destruct (parameters m upd) as [ps|] eqn:Ep; [|discriminate]. cbn [bind].
  set (so := match given with None => s_solve m ps | Some s => Ok s end). destruct so as [ss|] eqn:Es; [|discriminate]. cbn [bind].
  intros H. assert (s_nodes m <> []) as Hne by (destruct (s_nodes m); [discriminate|congruence]).
  assert (exists inp, input_vals m ss ps = Ok inp /\ ds = (let e := env_of inp in let zs := eigenvalues_at m e in
    DS (s_nodes m) (map (fun z => (fst z, snd z, modulus z)) zs)
       (map (fun k => (map (s_jac_re m e k) (s_nodes m), map (s_jac_im m e k) (s_nodes m))) (seq 0 (length zs))))) as (inp & Hi & ->).
  { destruct (s_nodes m); [easy|]. destruct (input_vals m ss ps) as [inp|]; [|discriminate]. cbn [bind] in H. exists inp. split; [easy|].
    injection H as <-. reflexivity. }
  unfold input_vals in Hi. destruct (need (strip_keys ss) (s_vars m)) as [vs|] eqn:E1; [|discriminate]. cbn [bind] in Hi.
  destruct (need ps (s_nodes m)) as [qs|] eqn:E2; [|discriminate]. cbn [bind] in Hi. injection Hi as <-.
  destruct (need_map _ _ _ E1) as [-> H1]. destruct (need_map _ _ _ E2) as [-> H2].
  pose (f := fun n => match n with NSS v => rval (strip_keys ss) v | NPar q => rval ps q end).
  assert (map (rval (strip_keys ss)) (s_vars m) ++ map (rval ps) (s_nodes m) = map f (map NSS (s_vars m) ++ map NPar (s_nodes m))) as Ef.
  { rewrite map_app, !map_map. reflexivity. }
  exists ps, ss, (env_of (combine (map NSS (s_vars m) ++ map NPar (s_nodes m)) (map (rval (strip_keys ss)) (s_vars m) ++ map (rval ps) (s_nodes m)))).
  refine (conj eq_refl (conj Es (conj Hne (conj _ (conj _ eq_refl))))).
  - intros v Hv. split; [|now apply H1]. unfold env_of. rewrite Ef, find_combine; [easy|]. apply in_app_iff. left. now apply in_map.
  - intros v Hv. split; [|now apply H2]. unfold env_of. rewrite Ef, find_combine; [easy|]. apply in_app_iff. right. now apply in_map.
Qed.
End Call.

Lemma gradient_of (m : sens_model) e k p n : In n (s_nodes m) -> (k < length (eigenvalues_at m e))%nat ->
  gradient (DS (s_nodes m) (map (fun z => (fst z, snd z, modulus z)) (eigenvalues_at m e))
            (map (fun k => (map (s_jac_re m e k) (s_nodes m), map (s_jac_im m e k) (s_nodes m))) (seq 0 (length (eigenvalues_at m e))))) k p n
  = match p with Re => s_jac_re m e k n | Im => s_jac_im m e k n end.
Proof.
  intros Hn Hk. unfold gradient, row. cbn [d_params d_gradients].
  match goal with |- context [nth k (map ?f ?l) ?d] => replace (nth k (map f l) d) with (f k) end.
  2:{ erewrite nth_indep by (rewrite map_length, seq_length; exact Hk). rewrite map_nth with (d := 0%nat). now rewrite seq_nth. }
  assert (forall f : chars -> R, find (fun kv => chars_eqb n (fst kv)) (combine (s_nodes m) (map f (s_nodes m))) = Some (n, f n)) as Q.
  { intros f. induction (s_nodes m) as [|a l IH]; [easy|]. cbn. destruct (chars_eqb n a) eqn:E; [apply chars_eqb_eq in E; now subst|].
    destruct Hn as [<- | H]; [now rewrite chars_eqb_refl in E|auto]. }
  destruct p; cbn [fst snd]; now rewrite Q.
Qed.

Lemma eigenvalue_of (m : sens_model) e k p ps gs :
  eigenvalue (DS ps (map (fun z => (fst z, snd z, modulus z)) (eigenvalues_at m e)) gs) k p = eig m k p e.
Proof.
  unfold eigenvalue, eig. cbn [d_eigenvalues].
  destruct (lt_dec k (length (eigenvalues_at m e))) as [H|H].
  - rewrite (nth_indep _ (0,0,0) ((fun z => (fst z, snd z, modulus z)) (0,0))) by now rewrite map_length.
    rewrite (map_nth (fun z => (fst z, snd z, modulus z)) (eigenvalues_at m e) (0,0) k). now destruct (nth k (eigenvalues_at m e) (0, 0)).
  - rewrite (nth_overflow (map _ _)) by (rewrite map_length; lia). rewrite (nth_overflow (eigenvalues_at m e)) by lia. now destruct p.
Qed.
