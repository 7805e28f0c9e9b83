(* C137.  eigenvalue_sensitivity: what its numbers are.  The model is Sens_Model.v, the vocabulary Sens_Spec.v. *)
From Verif Require Import Common Sort_Lib SymDict_Model SymDict_More Lin_Model Lin_Main Sens_Model Sens_Spec Sens_Proofs.
From Coq Require Import Reals Lra Permutation Sorted.
Local Open Scope list_scope.
Local Open Scope R_scope.

(* the eigenvalues are a function of the graph's inputs only *)
Definition reads_inputs (m : sens_model) : Prop :=
  forall e e', (forall n, In n (inputs m) -> e n = e' n) -> s_spectrum m e = s_spectrum m e'.

Lemma values_agree m updates ds : eigenvalue_sensitivity m None updates = Ok ds ->
  exists e, (forall n, In n (inputs m) -> e n = values m updates n) /\
    ds = DS (s_nodes m) (map (fun z => (fst z, snd z, modulus z)) (eigenvalues_at m e))
            (map (fun k => (map (s_jac_re m e k) (s_nodes m), map (s_jac_im m e k) (s_nodes m))) (seq 0 (length (eigenvalues_at m e)))).
Proof.
  intros H. destruct (call_inv _ _ _ _ H) as (ps & ss & e & Ep & Es & _ & Hv & Hn & ->). exists e. split; [|easy].
  intros n Hin. unfold inputs in Hin. apply in_app_iff in Hin. destruct Hin as [Hin|Hin]; apply in_map_iff in Hin; destruct Hin as (x & <- & Hx); cbn [values].
  - unfold steady_of. rewrite Ep, Es. now apply Hv.
  - unfold param_of. rewrite Ep. now apply Hn.
Qed.

(* The reported eigenvalues are those of the linear system at the steady state and the parameter values, each as often
   as it occurs, in order of modulus, with their moduli. *)
Theorem C137_eigenvalues m updates ds : reads_inputs m -> eigenvalue_sensitivity m None updates = Ok ds ->
  Permutation (map fst (d_eigenvalues ds)) (s_spectrum m (values m updates)) /\
  StronglySorted Rle (map snd (d_eigenvalues ds)) /\
  forall re im md, In (re, im, md) (d_eigenvalues ds) -> md = sqrt (re * re + im * im).
Proof.
  intros Hr H. destruct (values_agree _ _ _ H) as (e & He & ->). cbn [d_eigenvalues].
  assert (s_spectrum m (values m updates) = s_spectrum m e) as -> by (symmetry; apply Hr; auto).
  refine (conj _ (conj _ _)).
  - rewrite map_map. cbn. rewrite (map_ext _ (fun z => z)) by now intros []. rewrite map_id. symmetry. apply isort_perm.
  - rewrite map_map. cbn. assert (StronglySorted (le mod_leb) (eigenvalues_at m e)) as Hs.
    { apply isort_sorted; [apply mod_total|apply mod_trans]. }
    clear H. induction Hs as [|z l Hs IH Hf]; cbn; constructor; auto. apply (proj2 (Forall_map _ _ _)). eapply Forall_impl; [|exact Hf].
    intros a. unfold le, mod_leb. now destruct (Rle_dec (modulus z) (modulus a)).
  - intros re im md Hin. apply in_map_iff in Hin. destruct Hin as (z & E & _). injection E as <- <- <-. reflexivity.
Qed.

(* Each gradient entry is the derivative in that parameter alone: the steady state and every other parameter, including
   those computed from it, are held where they are. *)
Theorem C137_gradients_are_partial m updates ds k p n g :
  differentiates m -> NoDup (inputs m) -> eigenvalue_sensitivity m None updates = Ok ds ->
  In n (s_nodes m) -> (k < length (d_eigenvalues ds))%nat ->
  differentiable (eig m k p) (inputs m) (values m updates) g ->
  gradient ds k p n = g (NPar n) /\
  derivable_pt_lim (fun x => eig m k p (change (values m updates) (NPar n) x)) (param_of m updates n) (gradient ds k p n).
Proof.
  intros Hj Hd H Hn Hk HF. destruct (values_agree _ _ _ H) as (e & He & ->). cbn [d_eigenvalues] in Hk. rewrite map_length in Hk.
  assert (In (NPar n) (inputs m)) as Hin by (apply in_app_iff; right; now apply in_map).
  assert (differentiable (eig m k p) (inputs m) e g) as HFe.
  { pose proof (same_point _ _ _ e _ HF He) as E. intros eps Heps. destruct (HF eps Heps) as (dl & Hdl & Q). exists dl. split; [auto|].
    intros e' H'. rewrite E. specialize (Q e'). rewrite (total_ext _ (fun n => g n * (e' n - values m updates n))) by (intros; now rewrite He).
    rewrite (total_ext (fun n => Rabs (e' n - e n)) (fun n => Rabs (e' n - values m updates n))) by (intros; now rewrite He).
    apply Q. intros a Ha. rewrite <- He by auto. auto. }
  rewrite gradient_of by auto.
  pose proof (partial_derivative _ _ _ _ _ Hd Hin HFe) as P.
  assert (match p with Re => s_jac_re m e k n | Im => s_jac_im m e k n end = g (NPar n)) as E.
  { destruct p; now apply (Hj e k n). }
  rewrite E. split; [easy|]. exact (partial_derivative _ _ _ _ _ Hd Hin HF).
Qed.

(* lookups in the parameters of a call *)
Lemma rget_dget n (d : list (chars * R)) : rget n d = dget chars_eqb n d.
Proof. induction d as [|[k v] d IH]; [easy|]. unfold rget in *. cbn. destruct (chars_eqb n k); [easy|exact IH]. Qed.
Lemma dget_app n (d d' : list (chars * R)) : dget chars_eqb n (d ++ d') = match dget chars_eqb n d with Some x => Some x | None => dget chars_eqb n d' end.
Proof. induction d as [|[k v] d IH]; [easy|]. cbn. destruct (chars_eqb n k); [easy|exact IH]. Qed.
Lemma dupd_last q (u : list (chars * R)) : forall d, NoDup (map fst u) -> dget chars_eqb q (dupd chars_eqb d u) =
  match dget chars_eqb q u with Some x => Some x | None => dget chars_eqb q d end.
Proof.
  induction u as [|[k v] u IH]; intros d Hn; [easy|]. cbn in Hn. inversion Hn as [|? ? Hk Hu]; subst. change (dupd chars_eqb d ((k, v) :: u)) with (dupd chars_eqb (dset chars_eqb k v d) u).
  rewrite IH by auto. cbn [dget]. rewrite (dget_dset chars_eqb chars_eqb_eq). destruct (chars_eqb q k) eqn:E; [|easy].
  apply chars_eqb_eq in E. subst q. destruct (dget chars_eqb k u) as [y|] eqn:E; [|easy]. exfalso. apply Hk.
  clear -E. induction u as [|[a b] u IH]; [discriminate|]. cbn in E |- *. destruct (chars_eqb k a) eqn:Ea; [apply chars_eqb_eq in Ea; auto|auto].
Qed.
Lemma filter_keys_nodup (P : chars * R -> bool) u : NoDup (map fst u) -> NoDup (map fst (filter P u)).
Proof.
  induction u as [|x u IH]; [easy|]. cbn. intros H. inversion H; subst. destruct (P x); cbn; [|auto]. constructor; [|auto].
  intros Hin. apply H2. apply in_map_iff in Hin. destruct Hin as (y & E & Hy). apply filter_In in Hy. apply in_map_iff. exists y. tauto.
Qed.
Lemma dget_filter (P : chars -> bool) u q : P q = true -> dget chars_eqb q (filter (fun kv : chars * R => P (fst kv)) u) = dget chars_eqb q u.
Proof.
  intros Hq. induction u as [|[k v] u IH]; [easy|]. cbn. destruct (chars_eqb q k) eqn:E.
  - apply chars_eqb_eq in E. subst k. rewrite Hq. cbn. now rewrite chars_eqb_refl.
  - destruct (P k); cbn; [rewrite E|]; exact IH.
Qed.
Lemma param_set m updates q x ps : NoDup (map fst updates) -> ~ In q (map fst (s_det m)) ->
  parameters m (with_param updates q x) = Ok ps -> param_of m (with_param updates q x) q = x.
Proof.
  intros Hn Hq E. unfold param_of. rewrite E. unfold parameters in E.
  set (P := fun n => negb (existsb (chars_eqb n) (map fst (s_det m)))) in E.
  change (fun kv : chars * R => negb (existsb (chars_eqb (fst kv)) (map fst (s_det m)))) with (fun kv : chars * R => P (fst kv)) in E.
  destruct (existsb _ _); [discriminate|]. injection E as <-. unfold rval. rewrite rget_dget, dget_app, dupd_last.
  2:{ apply filter_keys_nodup. now apply (dset_nodup chars_eqb chars_eqb_eq). }
  rewrite dget_filter. 2:{ unfold P. apply negb_true_iff. destruct (existsb _ _) eqn:Ex; [|easy]. apply existsb_exists in Ex.
    destruct Ex as (y & Hy & Ey). apply chars_eqb_eq in Ey. now subst. }
  unfold with_param. rewrite (dget_dset chars_eqb chars_eqb_eq), chars_eqb_refl. reflexivity.
Qed.

Lemma dget_In n x (d : list (chars * R)) : NoDup (map fst d) -> In (n, x) d -> dget chars_eqb n d = Some x.
Proof.
  induction d as [|[k v] d IH]; intros H Hi; [destruct Hi|]. cbn [map fst] in H. inversion H; subst. cbn [dget]. destruct Hi as [E|Hi].
  - injection E as -> ->. now rewrite chars_eqb_refl.
  - destruct (chars_eqb n k) eqn:E; [|auto]. apply chars_eqb_eq in E. subst k. exfalso. apply H2. apply in_map_iff. exists (n, x). auto.
Qed.
Lemma dget_notin {V} n (d : list (chars * V)) : dget chars_eqb n d = None <-> ~ In n (map fst d).
Proof.
  induction d as [|[k v] d IH]; cbn [dget map fst In]; [tauto|]. destruct (chars_eqb n k) eqn:E.
  - apply chars_eqb_eq in E. subst. split; [discriminate|tauto].
  - apply chars_eqb_neq in E. rewrite IH. intuition congruence.
Qed.
(* The parameters of a call: what is passed for a free parameter, its default otherwise; a deterministic parameter is computed
   from these, and what is passed for it is ignored.  Any other name is refused. *)
Theorem C137_parameters m updates : NoDup (map fst updates) -> NoDup (map fst (s_defaults m)) -> NoDup (map fst (s_det m)) ->
  (forall n, In n (map fst (s_det m)) -> ~ In n (map fst (s_defaults m))) ->
  ((exists ps, parameters m updates = Ok ps) <-> forall n, In n (map fst updates) -> In n (map fst (s_det m)) \/ In n (map fst (s_defaults m))) /\
  forall ps, parameters m updates = Ok ps ->
  (forall n x, In (n, x) updates -> ~ In n (map fst (s_det m)) -> param_of m updates n = x) /\
  (forall n x, In (n, x) (s_defaults m) -> ~ In n (map fst updates) -> param_of m updates n = x) /\
  (forall n f, In (n, f) (s_det m) -> exists free, (forall k, In k (map fst (s_defaults m)) -> free k = param_of m updates k) /\ param_of m updates n = f free).
Proof.
  intros Nu Nd Nt Dis.
  set (P := fun n => negb (existsb (chars_eqb n) (map fst (s_det m)))).
  assert (HP : forall n, P n = true <-> ~ In n (map fst (s_det m))).
  { intros n. unfold P. rewrite negb_true_iff. destruct (existsb _ _) eqn:E.
    - apply existsb_exists in E as (y & Hy & E). apply chars_eqb_eq in E. subst y. split; [discriminate|tauto].
    - split; [|easy]. intros _ Hn. assert (existsb (chars_eqb n) (map fst (s_det m)) = true) by (apply existsb_exists; exists n; split; [exact Hn|apply chars_eqb_refl]). congruence. }
  split.
  - unfold parameters. change (fun kv : chars * R => negb (existsb (chars_eqb (fst kv)) (map fst (s_det m)))) with (fun kv : chars * R => P (fst kv)).
    destruct (existsb _ _) eqn:E.
    + split; [intros (ps & K); discriminate K|]. intros K. exfalso. apply existsb_exists in E as (kv & Hk & E). apply filter_In in Hk as (Hk & Hp).
      apply HP in Hp. apply negb_true_iff in E. destruct (K (fst kv)) as [K'|K']; [now apply in_map|contradiction|].
      assert (existsb (chars_eqb (fst kv)) (map fst (s_defaults m)) = true) by (apply existsb_exists; exists (fst kv); split; [exact K'|apply chars_eqb_refl]). congruence.
    + split; [|eauto]. intros _ n Hn. destruct (P n) eqn:Ep.
      * right. apply in_map_iff in Hn as (kv & <- & Hk). destruct (existsb (chars_eqb (fst kv)) (map fst (s_defaults m))) eqn:Ed.
        -- apply existsb_exists in Ed as (y & Hy & Ey). apply chars_eqb_eq in Ey. now rewrite Ey.
        -- assert (K : existsb (fun kv : chars * R => negb (existsb (chars_eqb (fst kv)) (map fst (s_defaults m)))) (filter (fun kv : chars * R => P (fst kv)) updates) = true).
           { apply existsb_exists. exists kv. split; [apply filter_In; auto|now rewrite Ed]. } congruence.
      * left. destruct (in_dec (list_eq_dec ascii_dec) n (map fst (s_det m))) as [K|K]; [exact K|]. apply HP in K. congruence.
  - intros ps E0. pose proof E0 as E. unfold parameters in E.
    change (fun kv : chars * R => negb (existsb (chars_eqb (fst kv)) (map fst (s_det m)))) with (fun kv : chars * R => P (fst kv)) in E.
    destruct (existsb _ _) eqn:Ex; [discriminate E|].
    set (free := dupd chars_eqb (s_defaults m) (filter (fun kv : chars * R => P (fst kv)) updates)) in E.
    injection E as E. assert (PO : forall n, param_of m updates n = rval (free ++ map (fun kv => (fst kv, snd kv (rval free))) (s_det m)) n).
    { intros n. unfold param_of. now rewrite E0, E. }
    assert (FD : forall n, P n = true -> dget chars_eqb n free = match dget chars_eqb n updates with Some x => Some x | None => dget chars_eqb n (s_defaults m) end).
    { intros n Hn. unfold free. rewrite dupd_last by now apply filter_keys_nodup. now rewrite dget_filter by exact Hn. }
    assert (FN : forall n, In n (map fst (s_det m)) -> dget chars_eqb n free = None).
    { intros n Hn. unfold free. rewrite dupd_last by now apply filter_keys_nodup.
      replace (dget chars_eqb n (filter (fun kv : chars * R => P (fst kv)) updates)) with (@None R); [apply dget_notin; now apply Dis|].
      symmetry. apply dget_notin. intros K. apply in_map_iff in K as (kv & <- & K). apply filter_In in K as (_ & K). apply HP in K. contradiction. }
    refine (conj _ (conj _ _)).
    + intros n x Hi Hn. rewrite PO. unfold rval. rewrite rget_dget, dget_app, FD by now apply HP. now rewrite (dget_In _ _ _ Nu Hi).
    + intros n x Hi Hn. rewrite PO. unfold rval. rewrite rget_dget, dget_app.
      assert (Hp : ~ In n (map fst (s_det m))) by (intros K; apply (Dis n K); apply in_map_iff; exists (n, x); auto).
      rewrite FD by now apply HP. rewrite (proj2 (dget_notin n updates) Hn). now rewrite (dget_In _ _ _ Nd Hi).
    + intros n f Hi. exists (rval free). split.
      * intros k Hk. rewrite PO. unfold rval. rewrite !rget_dget, dget_app. destruct (dget chars_eqb k free) as [y|] eqn:Ek; [reflexivity|].
        exfalso. assert (Hp : P k = true) by (apply HP; intros K; now apply (Dis k K)). rewrite (FD k Hp) in Ek.
        destruct (dget chars_eqb k updates); [discriminate Ek|]. apply dget_notin in Ek. contradiction.
      * rewrite PO. unfold rval at 1. rewrite rget_dget, dget_app, FN by (apply in_map_iff; exists (n, f); auto).
        rewrite (dget_In n (f (rval free)) (map (fun kv => (fst kv, snd kv (rval free))) (s_det m))); [reflexivity| |].
        -- rewrite map_map. exact Nt.
        -- apply in_map_iff. exists (n, f). auto.
Qed.

Lemma derivable_local f f' x d : derivable_pt_lim f x d -> (exists delta, 0 < delta /\ forall y, Rabs (y - x) < delta -> f' y = f y) ->
  derivable_pt_lim f' x d.
Proof.
  intros H (dl & Hdl & E) eps He. destruct (H eps He) as [[d1 P1] Q]. cbn in Q.
  assert (0 < Rmin d1 dl) as Hp by now apply Rmin_pos. exists (mkposreal _ Hp). cbn. intros h Hh Hs.
  rewrite (E (x + h)), (E x).
  - apply Q; [auto|]. eapply Rlt_le_trans; [exact Hs|apply Rmin_l].
  - unfold Rminus. now rewrite Rplus_opp_r, Rabs_R0.
  - replace (x + h - x) with h by ring. eapply Rlt_le_trans; [exact Hs|apply Rmin_r].
Qed.

(* How the k-th reported eigenvalue moves when the user moves one parameter q and calls again: the reported entry, plus
   the entries of the parameters computed from q times their response, plus a part that is not reported: the response
   of the steady state. *)
Theorem C137_total_response m updates q x0 k p g (run : R -> dataset) dpar dss :
  differentiates m -> reads_inputs m -> NoDup (inputs m) -> NoDup (map fst updates) ->
  In q (s_nodes m) -> ~ In q (map fst (s_det m)) ->
  (exists delta, 0 < delta /\ forall x, Rabs (x - x0) < delta ->
      eigenvalue_sensitivity m None (with_param updates q x) = Ok (run x)) ->
  (k < length (d_eigenvalues (run x0)))%nat ->
  differentiable (eig m k p) (inputs m) (values m (with_param updates q x0)) g ->
  (forall v, In v (s_vars m) -> derivable_pt_lim (fun x => steady_of m (with_param updates q x) v) x0 (dss v)) ->
  (forall n, In n (s_nodes m) -> n <> q -> derivable_pt_lim (fun x => param_of m (with_param updates q x) n) x0 (dpar n)) ->
  derivable_pt_lim (fun x => eigenvalue (run x) k p) x0
    (gradient (run x0) k p q
     + total (fun n => if chars_eqb n q then 0 else gradient (run x0) k p n * dpar n) (s_nodes m)
     + total (fun v => g (NSS v) * dss v) (s_vars m)).
Proof.
  intros Hj Hr Hd Hu Hq Hdet (dl & Hdl & Hrun) Hk HF Hss Hpar.
  assert (eigenvalue_sensitivity m None (with_param updates q x0) = Ok (run x0)) as H0.
  { apply Hrun. unfold Rminus. now rewrite Rplus_opp_r, Rabs_R0. }
  assert (forall n, In n (s_nodes m) -> gradient (run x0) k p n = g (NPar n)) as Hg.
  { intros n Hn. now apply (C137_gradients_are_partial m _ _ k p n g Hj Hd H0 Hn Hk HF). }
  pose (d := fun n => match n with NSS v => dss v | NPar n => if chars_eqb n q then 1 else dpar n end).
  assert (derivable_pt_lim (fun x => eig m k p (values m (with_param updates q x))) x0 (total (fun n => g n * d n) (inputs m))) as C.
  { apply (chain (eig m k p) (inputs m) (values m (with_param updates q x0)) g (fun x => values m (with_param updates q x)) x0 d HF).
    - easy.
    - intros n Hn. unfold inputs in Hn. apply in_app_iff in Hn. destruct Hn as [Hn|Hn]; apply in_map_iff in Hn; destruct Hn as (a & <- & Ha); cbn [values d].
      + now apply Hss.
      + destruct (chars_eqb a q) eqn:E; [|apply Hpar; auto; intros ->; now rewrite chars_eqb_refl in E].
        apply chars_eqb_eq in E. subst a. eapply derivable_local; [apply derivable_pt_lim_id|]. exists dl. split; [auto|]. intros y Hy.
        destruct (call_inv _ _ _ _ (Hrun y Hy)) as (ps & _ & _ & Ep & _). unfold id. eapply param_set; eauto. }
  unfold inputs in C. rewrite total_app, !total_map in C. cbn [d] in C.
  assert (total (fun n => g (NPar n) * (if chars_eqb n q then 1 else dpar n)) (s_nodes m) =
    gradient (run x0) k p q + total (fun n => if chars_eqb n q then 0 else gradient (run x0) k p n * dpar n) (s_nodes m)) as E.
  { rewrite (total_ext _ (fun n => (if chars_eqb n q then gradient (run x0) k p q else 0) + (if chars_eqb n q then 0 else gradient (run x0) k p n * dpar n))).
    2:{ intros n Hn. destruct (chars_eqb n q) eqn:E; [apply chars_eqb_eq in E; subst|]; rewrite (Hg _ Hn); lra. }
    rewrite total_plus. f_equal.
    assert (NoDup (s_nodes m)) as Hnd.
    { unfold inputs in Hd. clear -Hd. induction (s_vars m); cbn in Hd; [|inversion Hd; auto]. eapply NoDup_map_inv; exact Hd. }
    generalize (gradient (run x0) k p q) as c. clear -Hq Hnd. induction (s_nodes m) as [|a l IH]; intros c; [easy|]. inversion Hnd; subst. cbn. destruct Hq as [-> | Hq].
    - rewrite chars_eqb_refl, total_zero; [lra|]. intros x Hx. destruct (chars_eqb x q) eqn:E; [|easy]. apply chars_eqb_eq in E. congruence.
    - destruct (chars_eqb a q) eqn:E; [apply chars_eqb_eq in E; congruence|]. rewrite IH by auto. lra. }
  rewrite E, Rplus_comm in C. eapply derivable_local; [exact C|]. exists dl. split; [auto|]. intros y Hy.
  destruct (values_agree _ _ _ (Hrun y Hy)) as (e & He & ->). rewrite eigenvalue_of. unfold eig, eigenvalues_at.
  now rewrite (Hr _ _ He).
Qed.

(* So the entry is the full response when nothing else moves: the steady state does not react to q in any variable that
   matters for this eigenvalue, and no parameter in the equations is computed from q. *)
Theorem C137_exact_when_nothing_else_moves m updates q x0 k p g (run : R -> dataset) dss :
  differentiates m -> reads_inputs m -> NoDup (inputs m) -> NoDup (map fst updates) ->
  In q (s_nodes m) -> ~ In q (map fst (s_det m)) ->
  (exists delta, 0 < delta /\ forall x, Rabs (x - x0) < delta ->
      eigenvalue_sensitivity m None (with_param updates q x) = Ok (run x)) ->
  (k < length (d_eigenvalues (run x0)))%nat ->
  differentiable (eig m k p) (inputs m) (values m (with_param updates q x0)) g ->
  (forall v, In v (s_vars m) -> derivable_pt_lim (fun x => steady_of m (with_param updates q x) v) x0 (dss v)) ->
  (forall v, In v (s_vars m) -> dss v = 0 \/ g (NSS v) = 0) ->
  (forall n x, In n (s_nodes m) -> n <> q -> param_of m (with_param updates q x) n = param_of m (with_param updates q x0) n) ->
  derivable_pt_lim (fun x => eigenvalue (run x) k p) x0 (gradient (run x0) k p q).
Proof.
  intros Hj Hr Hd Hu Hq Hdet Hrun Hk HF Hss H0 Hp.
  assert (derivable_pt_lim (fun x => eigenvalue (run x) k p) x0 (gradient (run x0) k p q
     + total (fun n => if chars_eqb n q then 0 else gradient (run x0) k p n * 0) (s_nodes m)
     + total (fun v => g (NSS v) * dss v) (s_vars m))) as C.
  { apply (C137_total_response m updates q x0 k p g run (fun _ => 0) dss); auto. intros n Hn Hne.
    eapply derivable_local; [apply (derivable_pt_lim_const (param_of m (with_param updates q x0) n))|].
    exists 1. split; [lra|]. intros y _. unfold fct_cte. now apply Hp. }
  rewrite !total_zero in C.
  - now rewrite !Rplus_0_r in C.
  - intros v Hv. destruct (H0 v Hv) as [-> | ->]; ring.
  - intros n _. destruct (chars_eqb n q); ring.
Qed.

(* A parameter the Jacobians do not contain has no column, and a model whose Jacobians contain no parameter raises. *)
Theorem C137_columns m given updates ds : eigenvalue_sensitivity m given updates = Ok ds ->
  d_params ds = s_nodes m /\ length (d_gradients ds) = length (d_eigenvalues ds) /\
  forall g, In g (d_gradients ds) -> length (fst g) = length (d_params ds) /\ length (snd g) = length (d_params ds).
Proof.
  intros H. destruct (call_inv _ _ _ _ H) as (ps & ss & e & _ & _ & _ & _ & _ & ->). cbn. refine (conj eq_refl (conj _ _)).
  - now rewrite !map_length, seq_length.
  - intros g Hg. apply in_map_iff in Hg. destruct Hg as (k & <- & _). cbn. now rewrite !map_length.
Qed.
Theorem C137_fails_without_parameters m given updates ds : s_nodes m = [] -> eigenvalue_sensitivity m given updates <> Ok ds.
Proof. intros E H. destruct (call_inv _ _ _ _ H) as (_ & _ & _ & _ & _ & Hne & _). congruence. Qed.
(* A supplied steady state must have every variable, under its plain or its _ss name; parameters it holds are ignored. *)
Theorem C137_needs_every_value m s updates ds : eigenvalue_sensitivity m (Some s) updates = Ok ds ->
  forall v, In v (s_vars m) -> exists k x, In (k, x) s /\ removesuffix k = v.
Proof.
  intros H v Hv. destruct (call_inv _ _ _ _ H) as (ps & ss & e & _ & Es & _ & Q & _ & _). injection Es as <-.
  destruct (Q v Hv) as (_ & x & Ex). destruct (strip_In _ _ _ Ex) as (k & Hk & E). eauto.
Qed.

(* ---- the documented reading fails ----
   x[] + p * x[-1]^2 = 0 with steady state x = -1/p: the linear system is 2 p x_ss dx[-1] + dx[] = 0, and the regularised
   pencil gives the single eigenvalue 2 p x_ss / (eps - 1), which at the steady state is 2 / (1 - eps) whatever p is. *)
Definition eps8 : R := / 10 ^ 8.
Definition nx : chars := str "x".
Definition npar : chars := str "p".
Definition demo : sens_model :=
  SM [nx] [(npar, 1)] [] (fun ps => Ok [(nx ++ suffix_ss, - / rval ps npar)]) [npar]
     (fun e => [(2 * e (NPar npar) * e (NSS nx) / (eps8 - 1), 0)])
     (fun e k n => if (Nat.eqb k 0 && chars_eqb n npar)%bool then 2 * e (NSS nx) / (eps8 - 1) else 0)
     (fun _ _ _ => 0).
Lemma eps_lt : 0 < eps8 < 1.
Proof. unfold eps8. assert (0 < 10 ^ 8) by (apply pow_lt; lra). split; [now apply Rinv_0_lt_compat|]. rewrite <- Rinv_1. apply Rinv_lt_contravar; [lra|]. assert (10 <= 10 ^ 8) by (simpl; lra). lra. Qed.
Lemma deriv_scal a b x : derivable_pt_lim (fun y => a * y * b) x (a * b).
Proof.
  intros e He. exists (mkposreal 1 Rlt_0_1). intros h Hh _. replace ((a * (x + h) * b - a * x * b) / h - a * b) with 0 by (field; auto).
  now rewrite Rabs_R0.
Qed.
Lemma deriv_unique f x d d' : derivable_pt_lim f x d -> derivable_pt_lim f x d' -> d' = d.
Proof. intros H H'. symmetry. eapply uniqueness_limite; eauto. Qed.
Lemma demo_diff : differentiates demo.
Proof.
  intros e k n d. split; intros H; cbn [s_jac_re s_jac_im demo].
  - destruct k as [|k]; cbn [Nat.eqb andb].
    + destruct (chars_eqb n npar) eqn:E.
      * apply chars_eqb_eq in E. subst n. symmetry. eapply deriv_unique; [|exact H].
        replace (2 * e (NSS nx) / (eps8 - 1)) with (2 * (e (NSS nx) / (eps8 - 1))) by (unfold Rdiv; ring).
        eapply derivable_local; [apply deriv_scal|]. exists 1. split; [lra|]. intros y _. unfold eig, change. cbn. unfold Rdiv. ring.
      * symmetry. eapply deriv_unique; [|exact H]. eapply derivable_local; [apply derivable_pt_lim_const|]. exists 1. split; [lra|].
        intros y _. unfold eig, change, fct_cte. cbn - [npar chars_eqb nx]. cbn [node_eqb]. 
        assert (chars_eqb npar n = false) as -> by (destruct (chars_eqb npar n) eqn:E2; [apply chars_eqb_eq in E2; subst; now rewrite chars_eqb_refl in E|easy]). reflexivity.
    + symmetry. eapply deriv_unique; [|exact H]. eapply derivable_local; [apply (derivable_pt_lim_const 0)|]. exists 1. split; [lra|].
      intros y _. unfold eig, fct_cte. cbn. now destruct k.
  - symmetry. eapply deriv_unique; [|exact H]. eapply derivable_local; [apply (derivable_pt_lim_const 0)|]. exists 1. split; [lra|].
    intros y _. unfold eig, fct_cte. cbn. destruct k as [|k]; cbn; [easy|now destruct k].
Qed.
Definition demo_run (x : R) : dataset :=
  DS [npar] [(2 * x * - / x / (eps8 - 1), 0, modulus (2 * x * - / x / (eps8 - 1), 0))] [([2 * (- / x) / (eps8 - 1)], [0])].
Lemma demo_call x : eigenvalue_sensitivity demo None (with_param [] npar x) = Ok (demo_run x).
Proof. reflexivity. Qed.
Theorem C137_sensitivity_refuted :
  differentiates demo /\ reads_inputs demo /\
  (* every call succeeds *)
  (forall x, eigenvalue_sensitivity demo None (with_param [] npar x) = Ok (demo_run x)) /\
  (* the eigenvalue does not depend on the parameter, yet its reported sensitivity at 1 exceeds 2 *)
  (forall x, 0 < x -> eigenvalue (demo_run x) 0 Re = 2 / (1 - eps8)) /\
  2 < gradient (demo_run 1) 0 Re npar.
Proof.
  pose proof eps_lt as He. refine (conj demo_diff (conj _ (conj demo_call (conj _ _)))).
  - intros e e' H. unfold demo. cbn [s_spectrum]. rewrite (H (NPar npar)), (H (NSS nx)); [easy| |]; unfold inputs, demo; cbn [s_vars s_nodes map app]; cbn [In]; auto.
  - intros x Hx. unfold eigenvalue, demo_run. cbn [d_eigenvalues nth fst snd take]. field. split; lra.
  - assert (gradient (demo_run 1) 0 Re npar = 2 * (- / 1) / (eps8 - 1)) as -> by reflexivity.
    replace (2 * - / 1 / (eps8 - 1)) with (2 / (1 - eps8)) by (field; split; lra).
    apply Rmult_lt_reg_r with (1 - eps8); [lra|]. unfold Rdiv. rewrite Rmult_assoc, Rinv_l by lra. lra.
Qed.
(* the hypotheses of the general theorems are met by it *)
Theorem C137_case : NoDup (inputs demo) /\
  differentiable (eig demo 0 Re) (inputs demo) (values demo (with_param [] npar 1))
    (fun n => match n with NSS _ => 2 / (eps8 - 1) | NPar _ => - 2 / (eps8 - 1) end) /\
  derivable_pt_lim (fun x => steady_of demo (with_param [] npar x) nx) 1 1.
Proof.
  pose proof eps_lt as He. assert (eps8 - 1 <> 0) as Hz by lra. refine (conj _ (conj _ _)).
  - repeat constructor; cbn; intuition congruence.
  - intros eps Hp. pose (c := Rabs (2 / (eps8 - 1)) + 1). assert (0 < c) as Hc by (unfold c; pose proof (Rabs_pos (2 / (eps8 - 1))); lra).
    exists (eps / c). split; [now apply Rdiv_lt_0_compat|]. intros e' H. unfold eig. cbn - [eps8 Rabs Rdiv npar nx values with_param].
    pose proof (H (NSS nx) (or_introl eq_refl)) as H1. pose proof (H (NPar npar) (or_intror (or_introl eq_refl))) as H2.
    change (values demo (with_param [] npar 1) (NSS nx)) with (- / 1) in *. change (values demo (with_param [] npar 1) (NPar npar)) with 1 in *.
    set (u := e' (NSS nx)) in *. set (w := e' (NPar npar)) in *.
    match goal with |- Rabs ?a <= _ => replace a with (2 / (eps8 - 1) * ((u - - / 1) * (w - 1))) by (field; auto) end.
    rewrite !Rabs_mult. set (U := Rabs (u - - / 1)) in *. set (W := Rabs (w - 1)) in *.
    assert (0 <= U) by apply Rabs_pos. assert (0 <= W) by apply Rabs_pos.
    assert (Rabs (2 / (eps8 - 1)) * (eps / c) <= eps). { assert (c * (eps / c) = eps) as E1 by (field; lra). assert (0 < eps / c) by now apply Rdiv_lt_0_compat. set (r := eps / c) in *. assert ((Rabs (2 / (eps8 - 1)) + 1) * r = eps) as E2 by exact E1. rewrite Rmult_plus_distr_r in E2. lra. }
    assert (Rabs (2 / (eps8 - 1)) * (U * W) <= Rabs (2 / (eps8 - 1)) * (U * (eps / c))).
    { apply Rmult_le_compat_l; [apply Rabs_pos|]. apply Rmult_le_compat_l; lra. }
    assert (U * (Rabs (2 / (eps8 - 1)) * (eps / c)) <= U * eps) by (apply Rmult_le_compat_l; lra).
    assert (0 <= eps * W) by (apply Rmult_le_pos; lra).
    cbn [total]. lra.
  - intros eps Hp. assert (0 < Rmin (/ 2) (eps / 2)) as Hm by (apply Rmin_pos; lra). exists (mkposreal _ Hm). cbn [pos]. intros h Hh Hs.
    change (steady_of demo (with_param [] npar (1 + h)) nx) with (- / (1 + h)). change (steady_of demo (with_param [] npar 1) nx) with (- / 1).
    assert (Rabs h < / 2) as H1 by (eapply Rlt_le_trans; [exact Hs|apply Rmin_l]). assert (Rabs h < eps / 2) as H2 by (eapply Rlt_le_trans; [exact Hs|apply Rmin_r]).
    assert (/ 2 < 1 + h) as H3 by (pose proof (Rle_abs (- h)); rewrite Rabs_Ropp in *; lra).
    replace ((- / (1 + h) - - / 1) / h - 1) with (- (h / (1 + h))) by (field; lra).
    rewrite Rabs_Ropp. unfold Rdiv. rewrite Rabs_mult, Rabs_inv, (Rabs_pos_eq (1 + h)) by lra.
    apply Rmult_lt_reg_r with (1 + h); [lra|]. rewrite Rmult_assoc, Rinv_l by lra.
    assert (eps * / 2 < eps * (1 + h)) by (apply Rmult_lt_compat_l; lra). lra.
Qed.

(* A parameter can move an eigenvalue only through the steady state: y[] = c; x[] = p * y[] * x[-1] has the eigenvalue
   p * y_ss / (1 - eps) = p * c / (1 - eps), and c is not in the dataset at all. *)
Definition ny : chars := str "y".
Definition ncc : chars := str "c".
Definition demo2 : sens_model :=
  SM [nx; ny] [(ncc, 1); (npar, 1)] [] (fun ps => Ok [(nx ++ suffix_ss, 0); (ny ++ suffix_ss, rval ps ncc)]) [npar]
     (fun e => [(e (NPar npar) * e (NSS ny) / (1 - eps8), 0); (0, 0)])
     (fun e k n => if (Nat.eqb k 1 && chars_eqb n npar)%bool then e (NSS ny) / (1 - eps8) else 0)
     (fun _ _ _ => 0).
Lemma mod0 a : (if Rle_dec (modulus (a, 0)) (modulus (0, 0)) then true else false) = true -> a = 0.
Proof.
  destruct (Rle_dec (modulus (a, 0)) (modulus (0, 0))) as [H|]; [|easy]. intros _. unfold modulus in H. cbn in H.
  rewrite !Rmult_0_l, !Rplus_0_r, sqrt_0 in H. fold (Rsqr a) in H. rewrite sqrt_Rsqr_abs in H. pose proof (Rabs_pos a).
  destruct (Req_dec a 0) as [|Hz]; [auto|]. apply Rabs_pos_lt in Hz. lra.
Qed.
Lemma demo2_eig e k : nth k (eigenvalues_at demo2 e) (0, 0) = if Nat.eqb k 1 then (e (NPar npar) * e (NSS ny) / (1 - eps8), 0) else (0, 0).
Proof.
  unfold eigenvalues_at. cbn [s_spectrum demo2]. set (a := e (NPar npar) * e (NSS ny) / (1 - eps8)).
  unfold isort. cbn [fold_right insert]. unfold mod_leb. destruct (if Rle_dec (modulus (a, 0)) (modulus (0, 0)) then true else false) eqn:E.
  - apply mod0 in E. rewrite E. destruct k as [|[|[|k]]]; reflexivity.
  - destruct k as [|[|[|k]]]; reflexivity.
Qed.
Theorem C137_missing_column_refuted : exists run : R -> dataset,
  differentiates demo2 /\
  (forall x, eigenvalue_sensitivity demo2 None (with_param [] ncc x) = Ok (run x)) /\
  (forall x, ~ In ncc (d_params (run x))) /\
  (forall x, eigenvalue (run x) 1 Re = x / (1 - eps8)).
Proof.
  pose proof eps_lt as He.
  pose (run := fun x => match eigenvalue_sensitivity demo2 None (with_param [] ncc x) with Ok d => d | Err _ => DS [] [] [] end).
  assert (forall x, eigenvalue_sensitivity demo2 None (with_param [] ncc x) = Ok (run x)) as Hr by reflexivity.
  exists run. refine (conj _ (conj Hr (conj _ _))).
  - intros e k n d. split; intros H.
    + assert (derivable_pt_lim (fun x => if (Nat.eqb k 1 && chars_eqb n npar)%bool then 1 * x * (e (NSS ny) / (1 - eps8)) else
               (if Nat.eqb k 1 then e (NPar npar) * e (NSS ny) / (1 - eps8) else 0)) (e (NPar n)) d) as H'.
      { eapply derivable_local; [exact H|]. exists 1. split; [lra|]. intros y _. unfold eig. rewrite demo2_eig.
        destruct (Nat.eqb k 1); cbn [andb take fst]; [|easy]. unfold change. cbn [node_eqb].
        destruct (chars_eqb n npar) eqn:E.
        - apply chars_eqb_eq in E. subst n. rewrite chars_eqb_refl. unfold Rdiv. ring.
        - assert (chars_eqb npar n = false) as -> by (destruct (chars_eqb npar n) eqn:E2; [apply chars_eqb_eq in E2; subst; now rewrite chars_eqb_refl in E|easy]). reflexivity. }
      cbn [s_jac_re demo2]. destruct (Nat.eqb k 1 && chars_eqb n npar)%bool.
      * rewrite <- (Rmult_1_l (e (NSS ny) / (1 - eps8))). symmetry. eapply deriv_unique; [|exact H']. apply deriv_scal.
      * symmetry. eapply deriv_unique; [|exact H']. apply derivable_pt_lim_const.
    + cbn [s_jac_im demo2]. symmetry. eapply deriv_unique; [|exact H]. eapply derivable_local; [apply (derivable_pt_lim_const 0)|]. exists 1. split; [lra|].
      intros y _. unfold eig, fct_cte. rewrite demo2_eig. now destruct (Nat.eqb k 1).
  - intros x H. destruct (C137_columns _ _ _ _ (Hr x)) as (E & _). rewrite E in H. cbn in H. destruct H as [H|[]]. discriminate H.
  - intros x. destruct (values_agree _ _ _ (Hr x)) as (e & Hv & E). rewrite E, eigenvalue_of. unfold eig. rewrite demo2_eig. cbn [Nat.eqb take fst].
    rewrite (Hv (NPar npar)), (Hv (NSS ny)) by (cbn; auto). change (values demo2 (with_param [] ncc x) (NPar npar)) with 1.
    change (values demo2 (with_param [] ncc x) (NSS ny)) with x. field. lra.
Qed.
