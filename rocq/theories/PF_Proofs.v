(* Proofs about the compiled period functions and the stacked system. *)
From Verif Require Import Common Sort_Lib Sym_Model Sym_Spec Sym_Proofs SS_Proofs Build_Model Build_Order Lin_Model Lin_Spec Lin_Proofs Lin_Main PF_Model PF_Spec PF_Assemble.
From Coq Require Import Reals Lra Permutation.
Local Open Scope list_scope.

(* ---- list positions ---- *)
Lemma index_of_Some {A} (eqb : A -> A -> bool) (Heq : forall a b, eqb a b = true <-> a = b) x l i :
  index_of eqb x l = Some i -> nth_error l i = Some x.
Proof.
  revert i. induction l as [|y l IH]; intros i; cbn [index_of]; [discriminate|]. destruct (eqb x y) eqn:E.
  - intro H. injection H as <-. apply Heq in E. subst. reflexivity.
  - destruct (index_of eqb x l); [|discriminate]. intro H. injection H as <-. cbn. now apply IH.
Qed.
Lemma index_of_None {A} (eqb : A -> A -> bool) (Heq : forall a b, eqb a b = true <-> a = b) x l :
  index_of eqb x l = None <-> ~ In x l.
Proof.
  induction l as [|y l IH]; cbn [index_of]; [split; [intros _ []|reflexivity]|]. destruct (eqb x y) eqn:E.
  - apply Heq in E. subst. split; [discriminate|]. intro H. destruct H. left. reflexivity.
  - assert (x <> y) by (intro H; apply Heq in H; congruence).
    destruct (index_of eqb x l) eqn:E'.
    + split; [discriminate|]. intro H'. assert (E2 : Some n = None) by (apply IH; intro H''; apply H'; right; assumption). discriminate.
    + split; [|reflexivity]. intros _ [H'|H']; [congruence|]. now apply (proj1 IH eq_refl).
Qed.
Lemma index_of_nodup {A} (eqb : A -> A -> bool) (Heq : forall a b, eqb a b = true <-> a = b) x l i :
  NoDup l -> nth_error l i = Some x -> index_of eqb x l = Some i.
Proof.
  intros Hn Hi. destruct (index_of eqb x l) as [j|] eqn:E.
  - f_equal. apply (index_of_Some eqb Heq) in E. apply (proj1 (NoDup_nth_error l) Hn); [apply nth_error_Some; congruence|congruence].
  - apply (index_of_None eqb Heq) in E. destruct E. eapply nth_error_In, Hi.
Qed.
Lemma position_Some x l i : position x l = Some i -> nth_error l i = Some x.
Proof. apply index_of_Some, chars_eqb_eq. Qed.
Lemma position_None x l : position x l = None <-> ~ In x l.
Proof. apply index_of_None, chars_eqb_eq. Qed.
Lemma position_In x l : In x l -> exists i, position x l = Some i.
Proof. intro H. destruct (position x l) eqn:E; [eauto|]. apply position_None in E. contradiction. Qed.
Lemma position_nodup x l i : NoDup l -> nth_error l i = Some x -> position x l = Some i.
Proof. apply index_of_nodup, chars_eqb_eq. Qed.

(* ---- rows of the stacked vector ---- *)
Definition row (n : nat) (y : list R) (t : nat) : list R := firstn n (skipn (t * n) y).
Lemma row_nth n y t j : j < n -> (t + 1) * n <= length y -> nth j (row n y t) 0%R = nth (t * n + j) y 0%R.
Proof.
  intros Hj Hl. assert (E : nth_error (row n y t) j = nth_error y (t * n + j)).
  { unfold row. apply row_slice; lia. }
  destruct (nth_error y (t * n + j)) as [x|] eqn:E'.
  - rewrite (nth_error_nth _ _ _ E), (nth_error_nth _ _ _ E'). reflexivity.
  - apply nth_error_None in E'. nia.
Qed.
Lemma set_nth_length {A} i (x : A) l : length (set_nth i x l) = length l.
Proof. revert i. induction l as [|y l IH]; intros [|i]; cbn; auto. Qed.
Lemma set_nth_nth {A} i (x d : A) l k : i < length l -> nth k (set_nth i x l) d = if Nat.eqb k i then x else nth k l d.
Proof.
  revert i k. induction l as [|y l IH]; intros i k H; [cbn in H; lia|]. destruct i, k; cbn; try reflexivity.
  cbn in H. apply IH. lia.
Qed.
Lemma set_nth_error {A} i (x : A) l k : i < length l -> nth_error (set_nth i x l) k = if Nat.eqb k i then Some x else nth_error l k.
Proof.
  revert i k. induction l as [|y l IH]; intros i k H; [cbn in H; lia|]. destruct i, k; cbn; try reflexivity.
  cbn in H. apply IH. lia.
Qed.

(* ---- mapM ---- *)
Lemma mapM_all {A B} (f : A -> result B) (g : A -> B) l : (forall a, In a l -> f a = Ok (g a)) -> mapM f l = Ok (map g l).
Proof.
  induction l as [|a l IH]; intro H; cbn [mapM map]; [reflexivity|].
  rewrite (H a (or_introl eq_refl)). cbn [bind]. rewrite IH; [reflexivity|]. intros b Hb. apply H. right. assumption.
Qed.
Lemma mapM_inv {A B} (f : A -> result B) l bs : mapM f l = Ok bs -> length bs = length l /\
  forall i a, nth_error l i = Some a -> exists b, f a = Ok b /\ nth_error bs i = Some b.
Proof.
  revert bs. induction l as [|a l IH]; intros bs; cbn [mapM].
  - intro H. injection H as <-. split; [reflexivity|]. intros [|i] a; discriminate.
  - destruct (f a) as [b|] eqn:E; [|discriminate]. cbn [bind]. destruct (mapM f l) as [bs'|] eqn:E'; [|discriminate].
    cbn [bind]. intro H. injection H as <-. destruct (IH bs' eq_refl) as [H1 H2]. split; [cbn; congruence|].
    intros [|i] a' H; cbn in H.
    + injection H as <-. exists b. split; [assumption|reflexivity].
    + apply H2 in H. exact H.
Qed.

(* ---- the compiled problem ---- *)
Lemma atoms_subs1 x r e s : In s (atoms (subs1 x r e)) -> In s (atoms e) \/ In s (atoms r).
Proof.
  rewrite subs1_smap, atoms_smap. intros (s0 & H1 & H2). destruct (sym_eqb s0 x); [right; assumption|].
  destruct H2 as [<-|[]]. left. assumption.
Qed.
Lemma atoms_subs_seq d : forall e s, In s (atoms (subs_seq d e)) -> In s (atoms e) \/ exists k v, In (k, v) d /\ In s (atoms v).
Proof.
  unfold subs_seq. induction d as [|(k & v) d IH]; intros e s; cbn [fold_left]; [left; assumption|].
  cbn [fst snd]. intro H. apply IH in H. destruct H as [H|(k' & v' & H1 & H2)].
  - apply atoms_subs1 in H. destruct H as [H|H]; [left; assumption|right; exists k, v; split; [left; reflexivity|assumption]].
  - right. exists k', v'. split; [right; assumption|assumption].
Qed.
Lemma subs_seq_holds {V} (A : alg V) env d : (forall k v, In (k, v) d -> env k = ev A env v) -> forall e, ev A env (subs_seq d e) = ev A env e.
Proof.
  unfold subs_seq. induction d as [|(k & v) d IH]; intros H e; cbn [fold_left]; [reflexivity|]. cbn [fst snd].
  rewrite IH by (intros k' v' H'; apply H; right; assumption). apply subs1_holds. apply H. left. reflexivity.
Qed.
Lemma ss_value_In d a v : ss_value d a = Some v -> exists k, In (k, v) d.
Proof.
  unfold ss_value. destruct (find _ d) as [(k & v')|] eqn:E; [|discriminate]. intro H. injection H as <-.
  apply find_some in E. exists k. apply E.
Qed.
Lemma denotes_iff b k : denotes b k <-> chars_eqb (node_name (to_ss_sym k)) (node_name (SSs b)) = true.
Proof.
  rewrite chars_eqb_eq. change (node_name (SSs b)) with (b ++ str "_ss"). unfold denotes. split.
  - intros [-> | [[t ->] | ->]]; reflexivity.
  - destruct k as [n|c t|c]; cbn [to_ss_sym node_name]; intro H; [right; right; now f_equal| |];
      (change (c ++ str "_ss" = b ++ str "_ss") in H; apply app_inv_tail in H; subst c); [right; left; eauto|left; reflexivity].
Qed.
Lemma ss_value_first d b v : ss_value d (SSs b) = Some v ->
  exists before k after, d = before ++ (k, v) :: after /\ denotes b k /\ forall k' v', In (k', v') before -> ~ denotes b k'.
Proof.
  unfold ss_value. induction d as [|[k0 v0] d IH]; cbn [find fst]; [discriminate|]. destruct (chars_eqb _ _) eqn:E; intro H.
  - injection H as <-. exists [], k0, d. split; [reflexivity|]. split; [now apply denotes_iff|intros ? ? []].
  - destruct (IH H) as (before & k & after & -> & Hk & Hb). exists ((k0, v0) :: before), k, after. split; [reflexivity|]. split; [exact Hk|].
    intros k' v' [C|Hin]; [|eapply Hb, Hin]. injection C as <- <-. rewrite denotes_iff, E. discriminate.
Qed.

Section Compile.
Variables (ord : set_order) (m : pf_model) (P : problem).
Hypothesis Hord : set_order_ok ord.
Hypothesis HC : compile ord m = Ok P.

Lemma ss_subs_In a v : In (a, v) (ss_subs (p_ss m) (ord (ss_atoms (p_eqs m)))) ->
  ss_value (p_ss m) a = Some v /\ exists b eq, a = SSs b /\ In eq (p_eqs m) /\ In a (atoms eq).
Proof.
  unfold ss_subs. rewrite in_flat_map. intros (a' & H1 & H2). destruct (ss_value (p_ss m) a') as [v'|] eqn:E; [|destruct H2].
  destruct H2 as [H2|[]]. injection H2 as -> ->. split; [assumption|].
  apply (proj1 (ord_in ord Hord _ _)) in H1. unfold ss_atoms in H1. apply filter_In in H1. destruct H1 as [H1 H2].
  apply in_flat_map in H1. destruct H1 as (eq & H1 & H3). destruct a; try discriminate. exists b, eq. auto.
Qed.
Definition steady_ok {V} (A : alg V) (env : sym -> V) : Prop :=
  forall eq b v, In eq (p_eqs m) -> In (SSs b) (atoms eq) -> ss_value (p_ss m) (SSs b) = Some v -> env (SSs b) = ev A env v.
Lemma substituted : exists eqs, substitute_ss ord (p_eqs m) (p_ss m) = Ok eqs /\ q_eqs P = eqs /\ exists f, eqs = map f (p_eqs m) /\
  (forall e, In e (p_eqs m) -> forall s, In s (atoms (f e)) -> In s (atoms e) \/ exists k v, In (k, v) (p_ss m) /\ In s (atoms v)) /\
  forall V (A : alg V) env e, steady_ok A env -> In e (p_eqs m) -> ev A env (f e) = ev A env e.
Proof.
  revert HC. unfold compile. destruct (substitute_ss ord (p_eqs m) (p_ss m)) as [eqs|] eqn:E; [|discriminate].
  cbn [bind]. destruct (classify ord eqs (p_shocks m)) as [[[[tm1 t0] tp1] sh]|]; [|discriminate]. cbn [bind].
  destruct (forallb _ _); [|discriminate]. intro H. exists eqs. split; [reflexivity|].
  assert (Hq : q_eqs P = eqs) by (injection H as <-; reflexivity). split; [assumption|]. clear H.
  unfold substitute_ss in E. destruct (ord (ss_atoms (p_eqs m))) as [|a ats] eqn:EA.
  - injection E as <-. exists (fun e => e). split; [symmetry; apply map_id|]. split; [auto|reflexivity].
  - destruct (forallb _ (a :: ats)); [|discriminate]. injection E as <-. exists (subs_seq (ss_subs (p_ss m) (a :: ats))).
    split; [reflexivity|]. rewrite <- EA. split.
    + intros e He s Hs. apply atoms_subs_seq in Hs. destruct Hs as [Hs|(k & v & H1 & H2)]; [left; assumption|]. right.
      apply ss_subs_In in H1. destruct H1 as [H1 _]. apply ss_value_In in H1. destruct H1 as (k' & H1). exists k', v. auto.
    + intros V A env e Hst He. apply subs_seq_holds. intros k v Hkv. apply ss_subs_In in Hkv.
      destruct Hkv as (H1 & b & eq & -> & H2 & H3). eapply Hst; eassumption.
Qed.
Lemma compile_facts :
  NoDup (q_vars P) /\ (forall b, In b (q_vars P) -> ~ In b (p_shocks m)) /\ NoDup (q_shocks P) /\
  (forall s, In s (q_shocks P) -> exists b k, s = SDate b k /\ In b (p_shocks m) /\ mentioned m s) /\
  (forall n, In n (q_params P) -> In n (p_params m)) /\
  (forall b, In b (q_vars P) <-> ~ In b (p_shocks m) /\ exists eq, In eq (q_eqs P) /\ In (SDate b 0) (atoms eq)) /\
  forall eq s, In eq (q_eqs P) -> In s (atoms eq) ->
    match s with
    | SPar n => In n (q_params P)
    | SDate b k => (k = -1 \/ k = 0 \/ k = 1)%Z /\ (In b (p_shocks m) -> In s (q_shocks P)) /\ (~ In b (p_shocks m) -> In b (q_vars P))
    | SSs _ => False
    end.
Proof.
  destruct substituted as (eqs & E1 & E2 & f & Ef & Hf & _). rewrite E2.
  revert HC. unfold compile. rewrite E1. cbn [bind]. pose proof (classify_spec ord eqs (p_shocks m) Hord) as HS.
  destruct (classify ord eqs (p_shocks m)) as [[[[tm1 t0] tp1] sh]|]; [|discriminate]. cbn [bind].
  destruct HS as (S1 & S2 & S3 & S4 & S5 & (N1 & N2 & N3 & N4) & _).
  destruct (forallb _ _) eqn:EB; [|discriminate]. intro H. injection H as <-. cbn [q_eqs q_vars q_shocks q_params].
  assert (W : forall eq s, In eq eqs -> In s (atoms eq) -> In s (flat_map atoms eqs)) by (intros; apply in_flat_map; eauto).
  assert (HV : forall b, In b (map par_name t0) <-> ~ In b (p_shocks m) /\ exists eq, In eq eqs /\ In (SDate b 0) (atoms eq)).
  { intro b. rewrite in_map_iff. split.
    - intros (s & Hb & Hs). apply S3 in Hs. destruct Hs as (Hs1 & Hs2 & b' & ->). cbn in Hb. subst. split; [assumption|exact Hs1].
    - intros [Hb He]. exists (SDate b 0). split; [reflexivity|]. apply S3. split; [exact He|]. split; [assumption|eauto]. }
  split; [|split; [|split; [|split; [|split; [|split]]]]].
  - assert (Hinj : forall s s', In s t0 -> In s' t0 -> par_name s = par_name s' -> s = s').
    { intros s s' Hs Hs' He. apply S3 in Hs, Hs'. destruct Hs as (_ & _ & b & ->). destruct Hs' as (_ & _ & b' & ->). cbn in He. congruence. }
    clear - N2 Hinj. induction t0 as [|s t0 IH]; [constructor|]. inversion N2; subst. cbn [map]. constructor.
    + intro H. apply in_map_iff in H. destruct H as (s' & H1' & H2'). apply H1.
      rewrite <- (Hinj s' s); [assumption|right; assumption|left; reflexivity|assumption].
    + apply IH; [assumption|]. intros s1 s2 Hs1 Hs2. apply Hinj; right; assumption.
  - intros b Hb. apply HV in Hb. tauto.
  - assumption.
  - intros s Hs. apply S5 in Hs. destruct Hs as ((eq & He & Hs) & Hb & Ht). destruct s as [|b k|b]; try discriminate.
    + exists b, k. split; [reflexivity|]. split; [exact Hb|]. subst eqs. apply in_map_iff in He. destruct He as (e & <- & He).
      destruct (Hf e He _ Hs) as [H|H]; [left; eauto|right; assumption].
    + destruct (S1 (SSs b)) as (? & ? & ? & _); [exists eq; auto|reflexivity|discriminate].
  - intros n Hn. apply filter_In in Hn. tauto.
  - exact HV.
  - intros eq s He Hs. rewrite forallb_forall in EB. pose proof (EB s (W eq s He Hs)) as Hb. destruct s as [n|b k|b]; cbn [bound] in Hb.
    + apply existsb_chars in Hb. assumption.
    + assert (Hw : exists e, In e eqs /\ In (SDate b k) (atoms e)) by eauto. split; [|split].
      * destruct (S1 (SDate b k) Hw eq_refl) as (b' & k' & H & H'). injection H as -> ->. assumption.
      * intro Hsh. apply S5. auto.
      * intro Hsh. apply orb_true_iff in Hb. destruct Hb as [Hb|Hb]; [|now apply existsb_chars in Hb].
        unfold smem in Hb. destruct (in_dec _ _ sh) as [Hin|]; [|discriminate]. apply S5 in Hin. tauto.
    + discriminate.
Qed.
End Compile.
