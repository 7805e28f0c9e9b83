(* solve_perfect_foresight up to the call of the root solver; the initial guess. *)
From Verif Require Import Common Sort_Lib Sym_Model Sym_Spec Sym_Proofs Build_Model Build_Order Lin_Model Lin_Spec Lin_Proofs Lin_Main PF_Model PF_Spec PF_Assemble PF_Proofs PF_System PF_Request.
From Coq Require Import Reals Lra.
Local Open Scope list_scope.

Lemma same_values_eq T paths ik tk : (forall k p, In (k, p) paths -> match p with Array l => length l = T | _ => True end) ->
  boundary_kwargs paths = Ok (ik, tk) -> same_values tk ik = true -> tk = ik.
Proof.
  intros Hl H. destruct (boundary_kwargs_spec T paths ik tk Hl H) as (-> & -> & _). clear.
  unfold same_values. induction paths as [|(k & p) paths IH]; cbn [map combine forallb fst snd]; [reflexivity|].
  destruct (Req_EM_T _ _) as [E|]; [|discriminate]. cbn [andb]. intro H. rewrite (IH H), E. reflexivity.
Qed.
Section Prepare.
Variable steady_state : dict R -> result (dict R).
Lemma compute_ss_ok a extra d : compute_ss steady_state a extra = Ok d -> steady_state (g_updates a ++ extra) = Ok d.
Proof. unfold compute_ss. destruct (existsb _ extra); [discriminate|auto]. Qed.
Definition first_dict (a : pf_args) (t : nat) : dict R := map (fun kv => (fst kv, path_value (snd kv) t)) (g_paths a).

Lemma prepare_inv ord m a r : prepare steady_state ord m a = Ok r ->
  compile ord m = Ok (r_problem r) /\
  (exists ik tk, boundary_kwargs (g_paths a) = Ok (ik, tk)) /\
  validate a (normalize (g_initial a)) (normalize (g_terminal a)) (r_problem r) = Ok tt /\
  (exists iss, boundary (q_vars (r_problem r)) (normalize (g_initial a)) iss = Ok (r_initial r) /\
     forall d, iss = Some d -> covers (q_vars (r_problem r)) (normalize (g_initial a)) = false -> boundary_steady_state steady_state a 0 d) /\
  (exists tss, boundary (q_vars (r_problem r)) (normalize (g_terminal a)) tss = Ok (r_terminal r) /\
     forall d, tss = Some d -> covers (q_vars (r_problem r)) (normalize (g_terminal a)) = false -> boundary_steady_state steady_state a (g_length a - 1) d) /\
  build_shock_matrix (g_shocks a) (map par_name (q_shocks (r_problem r))) (g_length a) = Ok (r_shocks r) /\
  build_param_matrix (g_paths a) (q_params (r_problem r)) (p_defaults m []) (g_length a) = Ok (r_params r).
Proof.
  unfold prepare. destruct (compile ord m) as [P|] eqn:EP; [|discriminate]. cbn [bind].
  destruct (boundary_kwargs (g_paths a)) as [(ik & tk)|] eqn:EK; [|discriminate]. cbn [bind].
  match goal with |- (bind ?s _ = _ -> _) => destruct s as [((g0 & iss) & tss)|] eqn:ES; [|discriminate] end. cbn [bind].
  destruct (validate a (normalize (g_initial a)) (normalize (g_terminal a)) P) as [[]|] eqn:EV; [|discriminate]. cbn [bind].
  destruct (boundary (q_vars P) (normalize (g_initial a)) iss) as [yi|] eqn:EI; [|discriminate]. cbn [bind].
  destruct (boundary (q_vars P) (normalize (g_terminal a)) tss) as [yt|] eqn:ET; [|discriminate]. cbn [bind].
  destruct (build_shock_matrix _ _ _) as [x|] eqn:EX; [|discriminate]. cbn [bind].
  destruct (build_param_matrix _ _ _ _) as [ps|] eqn:EQ; [|discriminate]. cbn [bind].
  intro H. injection H as <-. cbn [r_problem r_initial r_terminal r_shocks r_params].
  split; [reflexivity|]. split; [eauto|]. split; [assumption|].
  assert (Hl : forall k p, In (k, p) (g_paths a) -> match p with Array l => length l = g_length a | _ => True end).
  { intros k p Hkp. apply validate_ok in EV. destruct EV as (_ & _ & _ & H). exact (proj2 (H k p Hkp)). }
  destruct (boundary_kwargs_spec (g_length a) (g_paths a) ik tk Hl EK) as (Eik & Etk & _).
  assert (HF : forall ni nt, (ni = negb (covers (q_vars P) (normalize (g_initial a)))) -> (nt = negb (covers (q_vars P) (normalize (g_terminal a)))) ->
    ss_if_needed steady_state a ni nt ik tk = Ok (iss, tss) ->
    (forall d, iss = Some d -> covers (q_vars P) (normalize (g_initial a)) = false -> steady_state (g_updates a ++ ik) = Ok d) /\
    (forall d, tss = Some d -> covers (q_vars P) (normalize (g_terminal a)) = false -> steady_state (g_updates a ++ tk) = Ok d)).
  { intros ni nt -> -> Hss. unfold ss_if_needed in Hss.
    destruct (covers (q_vars P) (normalize (g_initial a))); cbn [negb] in Hss.
    - cbn [bind] in Hss. destruct (covers (q_vars P) (normalize (g_terminal a))); cbn [negb] in Hss.
      + cbn [bind] in Hss. injection Hss as <- <-. split; intros; discriminate.
      + destruct (compute_ss steady_state a tk) as [d'|] eqn:Ed; [|discriminate]. cbn [bind] in Hss. injection Hss as <- <-.
        split; [intros; discriminate|]. intros d Hd _. injection Hd as <-. now apply compute_ss_ok.
    - destruct (compute_ss steady_state a ik) as [d0|] eqn:Ed0; [|discriminate]. cbn [bind] in Hss.
      destruct (covers (q_vars P) (normalize (g_terminal a))); cbn [negb] in Hss.
      + cbn [bind] in Hss. injection Hss as <- <-. split; [|intros; discriminate]. intros d Hd _. injection Hd as <-. now apply compute_ss_ok.
      + destruct (same_values tk ik) eqn:Esv.
        * apply (same_values_eq (g_length a) _ _ _ Hl EK) in Esv. cbn [bind] in Hss. injection Hss as <- <-.
          split; intros d Hd _; injection Hd as <-; [|rewrite Esv]; now apply compute_ss_ok.
        * destruct (compute_ss steady_state a tk) as [d'|] eqn:Ed; [|discriminate]. cbn [bind] in Hss. injection Hss as <- <-.
          split; intros d Hd _; injection Hd as <-; now apply compute_ss_ok. }
  assert (HB : (forall d, iss = Some d -> covers (q_vars P) (normalize (g_initial a)) = false -> boundary_steady_state steady_state a 0 d) /\
     (forall d, tss = Some d -> covers (q_vars P) (normalize (g_terminal a)) = false -> boundary_steady_state steady_state a (g_length a - 1) d)).
  { unfold boundary_steady_state. destruct (g_guess a) as [|d0|cols rows|rows nc].
    - destruct (compute_ss steady_state a ik) as [d1|] eqn:E1; [|discriminate]. cbn [bind] in ES.
      destruct (same_values tk ik) eqn:Esv.
      + cbn [bind] in ES. injection ES as _ <- <-. apply (same_values_eq (g_length a) _ _ _ Hl EK) in Esv. apply compute_ss_ok in E1.
        split; intros d Hd _; injection Hd as <-; [rewrite <- Eik; assumption|]. rewrite <- Etk, Esv. assumption.
      + destruct (compute_ss steady_state a tk) as [d2|] eqn:E2; [|discriminate]. cbn [bind] in ES. injection ES as _ <- <-.
        apply compute_ss_ok in E1, E2. split; intros d Hd _; injection Hd as <-; [rewrite <- Eik|rewrite <- Etk]; assumption.
    - injection ES as _ <- <-. split; intros d Hd _; congruence.
    - destruct (Nat.eqb (length rows) (g_length a)); [|discriminate]. destruct (reindex cols rows (q_vars P)) as [v|]; [|discriminate]. cbn [bind] in ES.
      destruct (ss_if_needed _ _ _ _ _ _) as [(i0 & t0)|] eqn:Ess; [|discriminate]. cbn [bind fst snd] in ES. injection ES as _ -> ->.
      rewrite <- Eik, <- Etk. exact (HF _ _ eq_refl eq_refl Ess).
    - destruct (_ && _)%bool; [|discriminate].
      destruct (ss_if_needed _ _ _ _ _ _) as [(i0 & t0)|] eqn:Ess; [|discriminate]. cbn [bind fst snd] in ES. injection ES as _ -> ->.
      rewrite <- Eik, <- Etk. exact (HF _ _ eq_refl eq_refl Ess). }
  destruct HB as [HB1 HB2]. split; [exists iss; auto|]. split; [exists tss; auto|]. auto.
Qed.

(* everything the call needs, assembled *)
Lemma prepared_rows ord m a r : set_order_ok ord -> NoDup (p_params m) -> NoDup (map fst (g_paths a)) -> prepare steady_state ord m a = Ok r ->
  rows_from (g_length a) (r_shocks r) (fun t => map (fun s => user_shock a (par_name s) t) (q_shocks (r_problem r))) /\
  rows_from (g_length a) (r_params r) (fun t => map (fun n => user_param m a n t) (q_params (r_problem r))).
Proof.
  intros Hord Hp Hk H. apply prepare_inv in H. destruct H as (HC & (ik & tk & HK) & HV & _ & _ & HX & HP).
  apply validate_ok in HV. destruct HV as (_ & _ & V3 & V4). split.
  - apply shock_matrix_spec in HX; [|intros k p Hkp; exact (proj2 (V3 k p Hkp))].
    destruct HX as [X1 X2]. split; [assumption|]. intros t Ht. rewrite (X2 t Ht), map_map. reflexivity.
  - destruct (boundary_kwargs_spec (g_length a) (g_paths a) ik tk (fun k p Hkp => proj2 (V4 k p Hkp)) HK) as (_ & _ & HS).
    eapply param_matrix_spec; [|assumption| |exact HP].
    + revert HC. unfold compile. destruct (substitute_ss _ _ _) as [eqs|]; [|discriminate]. cbn [bind].
      destruct (classify ord eqs (p_shocks m)) as [[[[tm1 t0] tp1] sh]|]; [|discriminate]. cbn [bind].
      destruct (forallb _ _); [|discriminate]. intro H. injection H as <-. cbn [q_params]. apply NoDup_filter. assumption.
    + intros k p Hkp. pose proof (proj2 (V4 k p Hkp)) as Hq. pose proof (HS k p Hkp) as Hs. destruct p; cbn [path_fits]; [exact I|assumption|destruct Hs].
Qed.
End Prepare.

(* ---- the two separately compiled functions ---- *)
Lemma smap_id e : smap (fun s => Sy s) e = e.
Proof. induction e; cbn [smap]; congruence. Qed.
Lemma smap_smap f g e : smap f (smap g e) = smap (fun s => smap f (g s)) e.
Proof. induction e; cbn [smap]; congruence. Qed.
Lemma smap_absent f v : (forall s, In s (atoms v) -> f s = Sy s) -> smap f v = v.
Proof. intro H. transitivity (smap (fun s => Sy s) v); [apply smap_ext; assumption|apply smap_id]. Qed.
Lemma subs_seq_smap d : (forall k v, In (k, v) d -> param_only v /\ exists b, k = SSs b) ->
  forall e, subs_seq d e = smap (fun s => match slookup s d with Some v => v | None => Sy s end) e.
Proof.
  unfold subs_seq. induction d as [|(k & v) d IH]; intros H e; cbn [fold_left].
  - cbn. symmetry. apply smap_id.
  - cbn [fst snd]. rewrite IH by (intros; apply H; right; assumption). rewrite subs1_smap, smap_smap. apply smap_ext. intros s _.
    unfold slookup. cbn [find fst]. destruct (sym_eqb s k) eqn:E.
    + cbn [snd]. apply smap_absent. intros s' Hs'. destruct (H k v (or_introl eq_refl)) as [Hv _]. destruct (Hv s' Hs') as (n & ->).
      destruct (find _ d) as [(k' & v')|] eqn:Ef; [|reflexivity]. apply find_some in Ef. destruct Ef as [Ef1 Ef2]. cbn in Ef2. apply sym_eqb_eq in Ef2. subst.
      destruct (H _ _ (or_intror Ef1)) as [_ (b & Hb)]. discriminate.
    + reflexivity.
Qed.
Lemma substitute_canonical ord ord' eqs d : set_order_ok ord -> set_order_ok ord' -> (forall k v, In (k, v) d -> param_only v) ->
  substitute_ss ord eqs d = substitute_ss ord' eqs d.
Proof.
  intros Ho Ho' Hd. unfold substitute_ss. set (L := ss_atoms eqs).
  assert (Hin : forall s, In s (ord L) <-> In s (ord' L)) by (intro s; rewrite (ord_in ord Ho), (ord_in ord' Ho'); reflexivity).
  assert (Hss : forall o, set_order_ok o -> forall s, In s (o L) -> exists b, s = SSs b).
  { intros o Hok s Hs. apply (proj1 (ord_in o Hok _ _)) in Hs. apply filter_In in Hs. destruct Hs as [_ Hs]. destruct s; try discriminate. eauto. }
  assert (Hlook : forall o, set_order_ok o -> forall s, slookup s (ss_subs d (o L)) = if smem s (o L) then ss_value d s else None).
  { intros o Hok s. unfold ss_subs. induction (o L) as [|a l IH]; [reflexivity|]. cbn [flat_map].
    unfold smem in *. destruct (in_dec sym_eq_dec s (a :: l)) as [Hi|Hi].
    - destruct (sym_eq_dec s a) as [->|N].
      + destruct (ss_value d a) as [v|] eqn:Ev; cbn [app].
        * unfold slookup. cbn [find fst]. rewrite sym_eqb_refl. reflexivity.
        * rewrite IH. destruct (in_dec _ _ _); congruence.
      + destruct Hi as [Hi|Hi]; [congruence|]. destruct (in_dec sym_eq_dec s l) as [_|]; [|contradiction].
        destruct (ss_value d a) as [v|]; cbn [app]; [|assumption]. unfold slookup. cbn [find fst].
        replace (sym_eqb s a) with false by (symmetry; apply sym_eqb_neq; assumption). exact IH.
    - destruct (in_dec sym_eq_dec s l) as [Hl|Hl]; [destruct Hi; right; assumption|].
      destruct (ss_value d a) as [v|]; cbn [app]; [|assumption]. unfold slookup. cbn [find fst].
      destruct (sym_eqb s a) eqn:Ea; [apply sym_eqb_eq in Ea; subst; destruct Hi; left; reflexivity|]. exact IH. }
  assert (Hsub : forall o, set_order_ok o -> forall k v, In (k, v) (ss_subs d (o L)) -> param_only v /\ exists b, k = SSs b).
  { intros o Hok k v Hkv. unfold ss_subs in Hkv. apply in_flat_map in Hkv. destruct Hkv as (a & H1 & H2). destruct (ss_value d a) as [v'|] eqn:Ev; [|destruct H2].
    destruct H2 as [H2|[]]. injection H2 as <- <-. split; [|eapply Hss; eassumption]. apply ss_value_In in Ev. destruct Ev as (k' & Ev). eapply Hd, Ev. }
  assert (Hmem : forall s, smem s (ord L) = smem s (ord' L)).
  { intro s. unfold smem. destruct (in_dec _ s (ord L)) as [H|H], (in_dec _ s (ord' L)) as [H'|H']; try reflexivity; apply Hin in H || apply Hin in H'; contradiction. }
  assert (Hmap : map (subs_seq (ss_subs d (ord L))) eqs = map (subs_seq (ss_subs d (ord' L))) eqs).
  { apply map_ext. intro e. rewrite (subs_seq_smap _ (Hsub ord Ho)), (subs_seq_smap _ (Hsub ord' Ho')). apply smap_ext. intros s _.
    rewrite (Hlook ord Ho), (Hlook ord' Ho'), Hmem. reflexivity. }
  assert (Hall : forallb (fun a => match ss_value d a with Some _ => true | None => false end) (ord L) =
                 forallb (fun a => match ss_value d a with Some _ => true | None => false end) (ord' L)).
  { apply eq_iff_eq_true. rewrite !forallb_forall. split; intros H s Hs; apply H, Hin, Hs. }
  destruct (ord L) as [|s1 l1] eqn:E1, (ord' L) as [|s2 l2] eqn:E2.
  - reflexivity.
  - exfalso. apply (proj2 (Hin s2)). left. reflexivity.
  - exfalso. apply (proj1 (Hin s1)). left. reflexivity.
  - rewrite <- E1, <- E2 in *. rewrite Hall, Hmap. reflexivity.
Qed.
Lemma compile_canonical ord ord' m P : set_order_ok ord -> set_order_ok ord' ->
  (forall k v, In (k, v) (p_ss m) -> param_only v) ->
  (forall s s', mentioned m s -> mentioned m s' -> natural_key (par_name s) = natural_key (par_name s') -> par_name s = par_name s') ->
  current_shocks m -> (forall s, mentioned m s -> match s with SDate _ _ => True | _ => ~ In (par_name s) (p_shocks m) end) ->
  compile ord m = Ok P -> compile ord' m = Ok P.
Proof.
  intros Ho Ho' Hpo Hkey Hcur Hns HC. destruct (substituted ord m P Ho HC) as (eqs & E1 & E2 & f & Ef & Hf & _).
  rewrite <- HC. unfold compile. rewrite <- (substitute_canonical ord ord') by assumption. rewrite E1. cbn [bind].
  assert (Hm : forall s, In s (flat_map atoms eqs) -> mentioned m s).
  { intros s Hs. apply in_flat_map in Hs. destruct Hs as (e & He & Hs). subst eqs. rewrite Ef in He. apply in_map_iff in He. destruct He as (e0 & <- & He).
    destruct (Hf e0 He s Hs) as [H|H]; [left; eauto|right; assumption]. }
  rewrite (classify_canonical ord ord' eqs (p_shocks m) Ho Ho'); [reflexivity| |].
  - intros s s' Hs Hs'. apply Hkey; auto.
  - intros s Hs Hin. pose proof (Hns s (Hm s Hs)) as Hsh. destruct s as [n|b k|b]; cbn [par_name] in *; try contradiction.
    exists b. f_equal. eapply Hcur; [apply Hm; eassumption|assumption].
Qed.

(* ---- make_piecewise_x0 ---- *)
Lemma weight_bounds n k : k < n -> 2 <= n -> (0 <= weight n k <= 1)%R.
Proof.
  intros Hk Hn. unfold weight. assert (0 < INR (n - 1))%R by (apply lt_0_INR; lia). split.
  - apply Rmult_le_pos; [apply pos_INR|]. left. now apply Rinv_0_lt_compat.
  - apply (Rmult_le_reg_r (INR (n - 1))); [assumption|]. unfold Rdiv. rewrite Rmult_assoc, Rinv_l by lra. rewrite Rmult_1_r, Rmult_1_l. apply le_INR. lia.
Qed.
Lemma weight_first n : weight n 0 = 0%R.
Proof. unfold weight. cbn. unfold Rdiv. ring. Qed.
Lemma weight_last n : 2 <= n -> weight n (n - 1) = 1%R.
Proof. intro H. unfold weight. apply Rinv_r. apply not_0_INR. lia. Qed.
