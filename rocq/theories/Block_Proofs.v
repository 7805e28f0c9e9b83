From Verif Require Import Common Sym_Model Sym_Spec Sym_Proofs Sym_Flatten Sym_Diff SymDict_Model SymDict_More Block_Model Block_Spec.
From Coq Require Import Permutation.
Local Open Scope list_scope.

(* ---------- numbering ---------- *)
Lemma neqb_eq : forall a b, Nat.eqb a b = true <-> a = b. Proof. apply Nat.eqb_eq. Qed.
Lemma numbered_keys {A} n (l : list A) : map fst (numbered n l) = seq n (length l).
Proof. unfold numbered. revert n. induction l as [|x l IH]; intro n; cbn; [reflexivity|]. f_equal. apply IH. Qed.
Lemma numbered_app {A} n (l l' : list A) : numbered n (l ++ l') = numbered n l ++ numbered (n + length l) l'.
Proof.
  revert n. induction l as [|x l IH]; intro n; cbn; [now rewrite Nat.add_0_r|].
  unfold numbered in *. cbn. f_equal. rewrite IH. now rewrite Nat.add_succ_r.
Qed.
Lemma numbered_snd {A} n (l : list A) : map snd (numbered n l) = l.
Proof. unfold numbered. revert n. induction l as [|x l IH]; intro n; cbn; [reflexivity|]. f_equal. apply IH. Qed.
Lemma numbered_map {A B} (f : A -> B) n (l : list A) : numbered n (map f l) = map (fun kx => (fst kx, f (snd kx))) (numbered n l).
Proof. unfold numbered. revert n. induction l as [|x l IH]; intro n; cbn; [reflexivity|]. f_equal. apply IH. Qed.
Lemma nset_new {V} n (v : V) d : (forall k, In k (map fst d) -> k < n)%nat -> nset n v d = d ++ [(n, v)].
Proof. intro H. apply dset_fresh. exact neqb_eq. intro Hin. specialize (H n Hin). lia. Qed.
Lemma nget_numbered {V} n (l : list V) i : nget (n + i) (numbered n l) = nth_error l i.
Proof.
  revert n i. induction l as [|x l IH]; intros n i; cbn; [now destruct i|].
  destruct i as [|i]; cbn.
  - rewrite Nat.add_0_r, Nat.eqb_refl. reflexivity.
  - replace (Nat.eqb (n + S i) n) with false by (symmetry; apply Nat.eqb_neq; lia).
    unfold nget in *. rewrite <- (IH (S n) i). f_equal. lia.
Qed.

Definition ent := (eqn * flags * option sym)%type.
Definition e_eqn (x : ent) := fst (fst x).
Definition e_flags (x : ent) := snd (fst x).
Definition e_mult (x : ent) := snd x.
Definition run_conv (l : list ent) (st : ntab eqn * conv) : ntab eqn * conv :=
  fold_left (fun st efm => let '(e, f, m) := efm in convert_one e f m st) l st.

Lemma run_conv_spec l : forall res n fl mu,
  (forall k, In k (map fst res) -> k < n)%nat -> (forall k, In k (map fst fl) -> k < n)%nat ->
  (forall k, In k (map fst mu) -> k < n)%nat ->
  run_conv l (res, Conv n fl mu) =
  (res ++ numbered n (map e_eqn l),
   Conv (n + length l) (fl ++ numbered n (map e_flags l)) (mu ++ numbered n (map e_mult l))).
Proof.
  induction l as [|[[e f] m] l IH]; intros res n fl mu Hr Hf Hm; cbn [run_conv fold_left].
  - cbn. now rewrite !app_nil_r, Nat.add_0_r.
  - cbn [convert_one cv_num cv_flags cv_mult]. rewrite !nset_new by assumption.
    unfold run_conv in IH. rewrite IH.
    + unfold numbered, e_eqn, e_flags, e_mult. cbn [map length seq combine fst snd].
      rewrite <- !app_assoc. cbn [app]. now rewrite Nat.add_succ_r.
    + intros k Hk. rewrite map_app in Hk. apply in_app_or in Hk as [Hk|[<-|[]]]; [specialize (Hr k Hk); lia|cbn; lia].
    + intros k Hk. rewrite map_app in Hk. apply in_app_or in Hk as [Hk|[<-|[]]]; [specialize (Hf k Hk); lia|cbn; lia].
    + intros k Hk. rewrite map_app in Hk. apply in_app_or in Hk as [Hk|[<-|[]]]; [specialize (Hm k Hk); lia|cbn; lia].
Qed.

Definition ent_of (e : geq) : ent := (equation_to_sympy e, extract_flags e, extract_multiplier e).
Lemma convert_list_run eqs c : convert_list eqs c = run_conv (map ent_of eqs) ([], c).
Proof.
  unfold convert_list, run_conv. generalize (@nil (nat * eqn), c). induction eqs as [|e eqs IH]; intro st; cbn; [reflexivity|].
  rewrite IH. reflexivity.
Qed.
Definition opt_list {A} (l : list A) : option (list A) := match l with [] => None | _ => Some l end.
Lemma numbered_opt {A B} (f : A -> B) n (l : list A) :
  match l with [] => None | _ => Some (numbered n (map f l)) end = opt_list (numbered n (map f l)).
Proof. destruct l; reflexivity. Qed.

Definition low (l : list ent) (n : nat) (c : conv) : Prop :=
  c = Conv n (numbered 0 (map e_flags l)) (numbered 0 (map e_mult l)) /\ n = length l.
Lemma keys_low {V} (l : list V) k : In k (map fst (numbered 0 l)) -> (k < length l)%nat.
Proof. rewrite numbered_keys. intro H. apply in_seq in H. lia. Qed.

Lemma convert_opt_spec eqs (pre : list ent) c : low pre (length pre) c ->
  exists c', convert_opt eqs c = (opt_list (numbered (length pre) (map equation_to_sympy eqs)), c') /\
             low (pre ++ map ent_of eqs) (length (pre ++ map ent_of eqs)) c'.
Proof.
  intros [-> _]. destruct eqs as [|e eqs].
  - eexists. split; [reflexivity|]. rewrite app_nil_r. split; reflexivity.
  - unfold convert_opt. rewrite convert_list_run. set (es := e :: eqs).
    rewrite run_conv_spec.
    + rewrite app_nil_l. eexists. split.
      * f_equal. rewrite map_map. reflexivity.
      * split; [|reflexivity]. rewrite !map_app, !numbered_app, !map_length, app_length, map_length. f_equal.
    + easy.
    + intros k Hk. apply keys_low in Hk. now rewrite map_length in Hk.
    + intros k Hk. apply keys_low in Hk. now rewrite map_length in Hk.
Qed.
Lemma convert_calibration_spec items (pre : list ent) c : low pre (length pre) c ->
  exists c', convert_calibration items c = (opt_list (numbered (length pre) (map e_eqn (flat_map calib_entry items))), c') /\
             low (pre ++ flat_map calib_entry items) (length (pre ++ flat_map calib_entry items)) c'.
Proof.
  intros [-> _]. unfold convert_calibration. destruct (flat_map calib_entry items) as [|e l] eqn:E.
  - eexists. split; [reflexivity|]. rewrite app_nil_r. split; reflexivity.
  - change (fold_left _ (e :: l) ?st) with (run_conv (e :: l) st). rewrite run_conv_spec.
    + rewrite app_nil_l. eexists. split; [reflexivity|].
      split; [|reflexivity]. rewrite !map_app, !numbered_app, !map_length, app_length. f_equal.
    + easy.
    + intros k Hk. apply keys_low in Hk. now rewrite map_length in Hk.
    + intros k Hk. apply keys_low in Hk. now rewrite map_length in Hk.
Qed.

Lemma opt_list_tab {A} (l : list (nat * A)) : tab (opt_list l) = l.
Proof. destruct l; reflexivity. Qed.

Section B.
Variables ord sord : set_order.

(* the block before validation and consolidation *)
Definition raw_block (a : ablock) (short : chars) : block :=
  let nd := length (ab_defs a) in let no := length (ab_obj a) in let nc := length (ab_cons a) in let ni := length (ab_ids a) in
  Block short (opt_list (ab_controls a)) (ab_shocks a)
    (opt_list (numbered 0 (map equation_to_sympy (ab_defs a))))
    (opt_list (numbered nd (map equation_to_sympy (ab_obj a))))
    (opt_list (numbered (nd + no) (map equation_to_sympy (ab_cons a))))
    (opt_list (numbered (nd + no + nc) (map equation_to_sympy (ab_ids a))))
    (opt_list (numbered (nd + no + nc + ni) (map e_eqn (flat_map calib_entry (ab_calib a)))))
    (numbered 0 (map e_mult (entries a))) (numbered 0 (map e_flags (entries a))) [].

Lemma to_block_unfold a : to_block ord sord a =
  bind (short_name (ab_name a)) (fun short =>
  bind (validate (raw_block a short)) (fun _ =>
  bind (consolidate ord sord (k_defs (raw_block a short))) (fun d' =>
  Ok (Block short (opt_list (ab_controls a)) (ab_shocks a) d' (k_obj (raw_block a short)) (k_cons (raw_block a short))
            (k_ids (raw_block a short)) (k_cal (raw_block a short)) (k_mult (raw_block a short)) (k_flags (raw_block a short)) [])))).
Proof.
  unfold to_block.
  destruct (convert_opt_spec (ab_defs a) [] (Conv 0 [] [])) as (c1 & -> & L1); [split; reflexivity|].
  destruct (convert_opt_spec (ab_obj a) _ c1 L1) as (c2 & -> & L2).
  destruct (convert_opt_spec (ab_cons a) _ c2 L2) as (c3 & -> & L3).
  destruct (convert_opt_spec (ab_ids a) _ c3 L3) as (c4 & -> & L4).
  destruct (convert_calibration_spec (ab_calib a) _ c4 L4) as (c5 & -> & L5).
  destruct L5 as [-> _]. cbn [cv_mult cv_flags].
  assert (E : ((((([] ++ map ent_of (ab_defs a)) ++ map ent_of (ab_obj a)) ++ map ent_of (ab_cons a)) ++ map ent_of (ab_ids a))
               ++ flat_map calib_entry (ab_calib a)) = entries a).
  { unfold entries. rewrite !map_app, <- !app_assoc. reflexivity. }
  rewrite E. destruct (short_name (ab_name a)) as [short|x]; [|reflexivity]. cbn [bind].
  assert (R : Block short (match ab_controls a with [] => None | l => Some l end) (ab_shocks a)
    (opt_list (numbered (length (@nil ent)) (map equation_to_sympy (ab_defs a))))
    (opt_list (numbered (length ([] ++ map ent_of (ab_defs a))) (map equation_to_sympy (ab_obj a))))
    (opt_list (numbered (length (([] ++ map ent_of (ab_defs a)) ++ map ent_of (ab_obj a))) (map equation_to_sympy (ab_cons a))))
    (opt_list (numbered (length ((([] ++ map ent_of (ab_defs a)) ++ map ent_of (ab_obj a)) ++ map ent_of (ab_cons a))) (map equation_to_sympy (ab_ids a))))
    (opt_list (numbered (length (((([] ++ map ent_of (ab_defs a)) ++ map ent_of (ab_obj a)) ++ map ent_of (ab_cons a)) ++ map ent_of (ab_ids a))) (map e_eqn (flat_map calib_entry (ab_calib a)))))
    (numbered 0 (map e_mult (entries a))) (numbered 0 (map e_flags (entries a))) [] = raw_block a short).
  { unfold raw_block. rewrite !app_length, !map_length. cbn [length Nat.add]. destruct (ab_controls a); reflexivity. }
  rewrite R. destruct (validate (raw_block a short)) as [u|x]; [|reflexivity]. cbn [bind].
  unfold raw_block. cbn [k_defs k_obj k_cons k_ids k_cal k_mult k_flags k_controls]. rewrite !app_length, !map_length. reflexivity.
Qed.

Lemma to_block_inv a b : to_block ord sord a = Ok b ->
  exists short d', short_name (ab_name a) = Ok short /\ validate (raw_block a short) = Ok tt /\
    consolidate ord sord (k_defs (raw_block a short)) = Ok d' /\
    b = Block short (opt_list (ab_controls a)) (ab_shocks a) d' (k_obj (raw_block a short)) (k_cons (raw_block a short))
            (k_ids (raw_block a short)) (k_cal (raw_block a short)) (k_mult (raw_block a short)) (k_flags (raw_block a short)) [].
Proof.
  rewrite to_block_unfold. destruct (short_name (ab_name a)) as [short|]; cbn [bind]; [|discriminate].
  destruct (validate _) as [[]|] eqn:E1; cbn [bind]; [|discriminate].
  destruct (consolidate _ _ _) as [d'|] eqn:E2; cbn [bind]; [|discriminate].
  intro H. injection H as <-. exists short, d'. auto.
Qed.

Lemma consolidate_keys o d' : consolidate ord sord o = Ok d' -> map fst (tab d') = map fst (tab o) /\
  map (fun ke => lhs (snd ke)) (tab d') = map (fun ke => lhs (snd ke)) (tab o) /\ (o = None <-> d' = None).
Proof.
  unfold consolidate. destruct o as [d|]; [|intro H; injection H as <-; repeat split; auto].
  destruct (def_dict d); cbn [bind]; [|discriminate]. destruct (flatten _ _ _); cbn [bind]; [|discriminate].
  intro H. injection H as <-. cbn [tab]. rewrite !map_map. cbn. repeat split; discriminate.
Qed.

Theorem numbering a b : to_block ord sord a = Ok b ->
  let nd := length (ab_defs a) in let no := length (ab_obj a) in let nc := length (ab_cons a) in let ni := length (ab_ids a) in
  map fst (tab (k_defs b)) = seq 0 nd /\
  tab (k_obj b) = numbered nd (map equation_to_sympy (ab_obj a)) /\
  tab (k_cons b) = numbered (nd + no) (map equation_to_sympy (ab_cons a)) /\
  tab (k_ids b) = numbered (nd + no + nc) (map equation_to_sympy (ab_ids a)) /\
  tab (k_cal b) = numbered (nd + no + nc + ni) (map e_eqn (flat_map calib_entry (ab_calib a))) /\
  k_flags b = numbered 0 (map e_flags (entries a)) /\
  k_mult b = numbered 0 (map e_mult (entries a)).
Proof.
  intros H nd no nc ni. apply to_block_inv in H as (short & d' & _ & _ & Hc & ->).
  cbn [k_defs k_obj k_cons k_ids k_cal k_flags k_mult].
  apply consolidate_keys in Hc as [Hk _]. rewrite Hk. unfold raw_block. cbn [k_defs k_obj k_cons k_ids k_cal k_flags k_mult].
  rewrite !opt_list_tab, numbered_keys, map_length. repeat split; reflexivity.
Qed.
End B.
