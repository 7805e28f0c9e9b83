(* The state-space form: linearised observation equations, stationary covariance, what configure accepts and which parameters it exposes. *)
From Verif Require Import Common Sym_Model Sym_Spec Sym_Proofs Sym_More SR_Model SR_Proofs Kal_Model Kal_Spec Kal_Proofs Kal_Config Kal_Trans Kal_Obs Kal_Lin Kal_Props Kal_Accept.
From Coq Require Import Reals Lra Permutation.
Local Open Scope R_scope.
Local Open Scope list_scope.

(* ---------- C90 ---------- *)
(* A user's observation equation is stored as a constant and one coefficient for each variable and lag that occurs in it: at every draw
   of the parameters the constant is the equation's value with all variables at their steady state and each coefficient is its
   derivative there with respect to the deviation of that variable at that lag, in logs for log-linearised variables. *)
Theorem C90_linearised_equation : forall m W ord c0 a c name e, configured m W ord c0 a c -> placeholder_free m -> true_exp (w_fun W) ->
  In (name, Ok e) (or_nil (a_obs a)) ->
  exists constant_term coefficients, get name (c_obs c) = Some (constant_term, coefficients) /\
    NoDup (map fst coefficients) /\ (forall v lag, In (v, lag) (map fst coefficients) <-> In (SDate v lag) (atoms e)) /\
    forall draw, value m W c draw constant_term = ev (Ralg (w_fun W)) (steady m W c draw) e /\
      forall v lag k, In ((v, lag), k) coefficients -> defined (w_fun W) (steady m W c draw) e ->
        derivable_pt_lim (fun x => ev (Ralg (w_fun W)) (moved m W c draw v lag x) e) 0 (value m W c draw k).
Proof.
  intros m W ord c0 a c name e (Ho & Hp & Hc) Hf He Hin. destruct (configure_wf _ _ _ _ _ _ Ho Hp Hc) as (_ & _ & _ & _ & _ & _ & _ & _ & _ & Hfill & _).
  destruct Hp as (_ & _ & Pn). destruct (fill_get m ord _ Ho _ _ Hfill Pn _ _ Hin) as (e' & E & Hck & Hg). assert (e' = e) by congruence. subst e'. clear E.
  exists (fst (linearize_equation m ord e)), (snd (linearize_equation m ord e)). split; [rewrite Hg; now rewrite <- surjective_pairing|].
  assert (Ek : map fst (snd (linearize_equation m ord e)) = appearing ord e) by (unfold linearize_equation; cbn [snd]; rewrite map_map; apply map_id).
  split; [rewrite Ek; exact (keys_nodup ord e Ho)|]. split; [intros v lag; rewrite Ek; exact (keys_spec ord e Ho v lag)|].
  intro draw. split; [exact (base_value_lin m W c draw ord e Ho Hck Hf He)|]. intros v lag k Hk Hd. exact (coefficient_lin m W c draw ord e Ho Hck Hf He v lag k Hk Hd).
Qed.

(* ---------- C91 ---------- *)
Lemma base_sum N k (f : nat -> R) : (k <= N)%nat -> (forall j, (k <= j < N)%nat -> f j = 0) -> rsum N f = rsum k f.
Proof. intros H H0. replace N with (k + (N - k))%nat by lia. rewrite rsum_split. rewrite (rsum_0 (N - k)) by (intros; apply H0; lia). ring. Qed.
(* Any stationary covariance of the augmented system is, on the model's variables, a stationary covariance of the model's own policy
   function, and gives two hidden states that stand for variables at the same lag the covariance of those variables. *)
Theorem C91_stationary_covariance : forall m W ord c0 a c draw F b q P, configured m W ord c0 a c ->
  make_symbolic_graph m W c draw F = Ok b -> stationary (k_states m c) q (b_T b) (b_R b) (b_Q b) P ->
  stationary (length (k_vars m)) q (fst (policy m W c draw)) (snd (policy m W c draw)) (b_Q b) P /\
  forall j i1 i2 v1 v2 p1 p2, nth_error (meaning m c) i1 = Some (v1, j) -> nth_error (meaning m c) i2 = Some (v2, j) ->
    nth_error (k_vars m) p1 = Some v1 -> nth_error (k_vars m) p2 = Some v2 -> P i1 i2 = P p1 p2.
Proof.
  intros m W ord c0 a c draw F b q P (Ho & Hp & Hc) Hb HP. destruct (configure_wf _ _ _ _ _ _ Ho Hp Hc) as (Hw & _). destruct (graph_parts _ _ _ _ _ _ Hb) as (T & R0 & T1 & Ep & E1 & E2 & E3 & _).
  rewrite Ep. cbn [fst snd]. destruct (transition_rows m c Hw T T1 (b_T b) E1 E2) as [TB TL]. cbv zeta in TB, TL. rewrite E3 in HP. set (k := length (k_vars m)) in *. set (N := k_states m c) in *. assert (HkN : (k <= N)%nat) by (unfold k, N, k_states; lia). split.
  - intros i j Hi Hj. rewrite (HP i j) by lia. f_equal.
    + unfold mmul, transp. destruct (TB i Hi) as [A1 A2]. destruct (TB j Hj) as [B1 B2]. rewrite (base_sum N k) by (try exact HkN; intros l Hl; rewrite B2 by exact Hl; ring).
      apply rsum_ext. intros l Hl. rewrite B1 by exact Hl. f_equal. rewrite (base_sum N k) by (try exact HkN; intros l' Hl'; rewrite A2 by exact Hl'; ring). apply rsum_ext. intros l' Hl'. now rewrite A1.
    + unfold mmul, transp. apply rsum_ext. intros l _. destruct (selection_rows m c R0 j l) as [[_ ->]|[C _]]; [fold N; lia| |fold k in C; lia]. f_equal. apply rsum_ext. intros l' _. destruct (selection_rows m c R0 i l') as [[_ ->]|[C _]]; [fold N; lia|reflexivity|fold k in C; lia].
  - assert (HR : forall i v j l, nth_error (meaning m c) i = Some (v, S j) -> (k <= i < N)%nat /\ augment_selection m c R0 i l = 0).
    { intros i v j l Hi. assert (Hlt : (i < N)%nat) by (unfold N; rewrite <- (meaning_length m c); apply nth_error_Some; congruence). assert (Hge : (k <= i)%nat).
      { destruct (le_lt_dec k i) as [|Hl]; [assumption|]. rewrite meaning_eq, nth_error_app1 in Hi by (rewrite map_length; exact Hl). rewrite nth_error_map in Hi. destruct (nth_error (k_vars m) i); discriminate. }
      split; [lia|]. destruct (selection_rows m c R0 i l Hlt) as [[C _]|[_ E]]; [fold k in C; lia|exact E]. }
    induction j as [|j IH]; intros i1 i2 v1 v2 p1 p2 H1 H2 Hp1 Hp2.
    + assert (Hz : forall i v p, nth_error (meaning m c) i = Some (v, 0%nat) -> nth_error (k_vars m) p = Some v -> i = p).
      { intros i v p Hi Hpv. rewrite meaning_eq in Hi. destruct (lt_dec i k) as [Hl|Hl].
        - rewrite nth_error_app1 in Hi by (rewrite map_length; exact Hl). rewrite nth_error_map in Hi. destruct (nth_error (k_vars m) i) as [w|] eqn:Ei; [|discriminate]. injection Hi as ->.
          apply (proj1 (NoDup_nth_error _) (wf_vars m c Hw)); [exact Hl|congruence].
        - rewrite nth_error_app2 in Hi by (rewrite map_length; fold k; lia). apply nth_error_In, in_app_or in Hi. destruct Hi as [Hi|Hi]; apply In_nth_error in Hi; destruct Hi as [r Hr]; destruct (lay_nth _ _ _ _ Hr) as (? & ? & _ & ? & _); lia. }
      rewrite (Hz _ _ _ H1 Hp1), (Hz _ _ _ H2 Hp2). reflexivity.
    + destruct (HR _ _ _ 0%nat H1) as [L1 _]. destruct (HR _ _ _ 0%nat H2) as [L2 _]. destruct (TL i1 L1 _ _ H1) as (r1 & Q1 & M1 & C1). destruct (TL i2 L2 _ _ H2) as (r2 & Q2 & M2 & C2).
      rewrite <- (IH r1 r2 v1 v2 p1 p2 M1 M2 Hp1 Hp2). rewrite (HP i1 i2) by lia.
      assert (Ez : mmul q (mmul q (augment_selection m c R0) (b_Q b)) (transp (augment_selection m c R0)) i1 i2 = 0).
      { unfold mmul, transp. apply rsum_0. intros l _. rewrite (proj2 (HR _ _ _ l H2)). ring. }
      rewrite Ez. unfold mmul, transp. rewrite (rsum_ext N _ (fun l => (if Nat.eqb l r2 then 1 else 0) * rsum N (fun l' => (if Nat.eqb l' r1 then 1 else 0) * P l' l))).
      2:{ intros l Hl. rewrite (C2 l Hl), Rmult_comm. f_equal. apply rsum_ext. intros l' Hl'. now rewrite (C1 l' Hl'). }
      rewrite (rsum_unit N r2 (fun l => rsum N (fun l' => (if Nat.eqb l' r1 then 1 else 0) * P l' l)) Q2). rewrite (rsum_unit N r1 (fun l' => P l' r2) Q1). ring.
Qed.

(* ---------- C94: the policy function in the user's order ---------- *)
Lemma place_nth l : NoDup l -> forall k, (k < length l)%nat -> place (nth k l 0%nat) l = k.
Proof.
  induction l as [|x l IH]; intros Hn k Hk; [cbn in Hk; lia|]. inversion Hn as [|? ? N1 N2]; subst. destruct k as [|k]; cbn [nth place]; [now rewrite Nat.eqb_refl|].
  destruct (Nat.eqb_spec x (nth k l 0%nat)) as [E|N]; [exfalso; apply N1; rewrite E; apply nth_In; cbn in Hk; lia|]. f_equal. apply IH; [exact N2|cbn in Hk; lia].
Qed.
Lemma lsum_perm {A} (f : A -> R) l l' : Permutation l l' -> lsum f l = lsum f l'.
Proof. induction 1; cbn; lra. Qed.
Lemma lsum_nth f (l : list nat) : lsum f l = rsum (length l) (fun k => f (nth k l 0%nat)).
Proof. induction l as [|x l IH]; [reflexivity|]. cbn [lsum length]. rewrite rsum_S_first. cbn [nth]. now rewrite IH. Qed.
Lemma rsum_reorder n (o : list nat) f : Permutation o (seq 0 n) -> rsum n f = rsum n (fun k => f (nth k o 0%nat)).
Proof. intro H. rewrite <- lsum_seq, <- (lsum_perm f _ _ H), lsum_nth. apply Permutation_length in H. rewrite seq_length in H. now rewrite H. Qed.
(* The solver works on the variables in another order.  The policy function that enters the state-space form is the solver's, entry by
   entry, with the variables renamed to the user's order; so the same paths follow both. *)
Theorem C94_policy_order : forall m W c draw, Permutation (k_var_order m) (seq 0 (length (k_vars m))) ->
  let o k := nth k (k_var_order m) 0%nat in let n := length (k_vars m) in
  let solver := w_policy W (inputs_at m c draw) in let user := policy m W c draw in
  (forall k l, (k < n)%nat -> (l < n)%nat -> fst user (o k) (o l) = fst solver k l) /\
  (forall k q, (k < n)%nat -> snd user (o k) q = snd solver k q) /\
  forall q s u e, (forall t k, (k < n)%nat -> s t (o k) = u t k) -> follows n q (fst solver) (snd solver) u e <-> follows n q (fst user) (snd user) s e.
Proof.
  intros m W c draw Hperm o n solver user. assert (Hlen : length (k_var_order m) = n) by (apply Permutation_length in Hperm; now rewrite seq_length in Hperm).
  assert (Hnd : NoDup (k_var_order m)) by (apply (Permutation_NoDup (Permutation_sym Hperm)), seq_NoDup).
  assert (Hent : (forall k l, (k < n)%nat -> (l < n)%nat -> fst user (o k) (o l) = fst solver k l) /\ (forall k q, (k < n)%nat -> snd user (o k) q = snd solver k q)).
  { unfold user, policy. fold solver. destruct solver as [T R0]. unfold is_identity. destruct (list_eq_dec Nat.eq_dec (k_var_order m) (seq 0 (length (k_var_order m)))) as [Eid|_]; cbn [fst snd].
    - assert (Eo : forall k, (k < n)%nat -> o k = k) by (intros k Hk; unfold o; rewrite Eid; rewrite seq_nth by lia; lia). split; intros; rewrite ?Eo by assumption; reflexivity.
    - assert (Eo : forall k, (k < n)%nat -> inv_order m (o k) = k) by (intros k Hk; apply place_nth; [exact Hnd|lia]). split; intros; rewrite ?Eo by assumption; reflexivity. }
  destruct Hent as [HT HR]. split; [exact HT|]. split; [exact HR|]. intros q s u e Hsu.
  assert (Hstep : forall t k, (k < n)%nat -> rsum n (fun j => fst user (o k) j * s t j) + rsum q (fun j => snd user (o k) j * e (S t) j) = rsum n (fun j => fst solver k j * u t j) + rsum q (fun j => snd solver k j * e (S t) j)).
  { intros t k Hk. f_equal; [|apply rsum_ext; intros; now rewrite HR]. rewrite (rsum_reorder n (k_var_order m)) by exact Hperm. apply rsum_ext. intros l Hl. change (nth l (k_var_order m) 0%nat) with (o l). now rewrite HT, Hsu. }
  split; intros Hf t.
  - intros i Hi. assert (Hin : In i (k_var_order m)) by (apply (Permutation_in _ (Permutation_sym Hperm)), in_seq; lia). destruct (In_nth _ _ 0%nat Hin) as (k & Hk & <-). rewrite Hlen in Hk. change (nth k (k_var_order m) 0%nat) with (o k). rewrite Hstep, Hsu by exact Hk. now apply Hf.
  - intros k Hk. rewrite <- Hstep, <- Hsu by exact Hk. apply Hf. assert (Hin : In (o k) (k_var_order m)) by (apply nth_In; lia). apply (Permutation_in _ Hperm), in_seq in Hin. lia.
Qed.

(* ---------- C92: what configure accepts ---------- *)
Lemma nodup_right {A} (l l' : list A) : NoDup (l ++ l') -> NoDup l'.
Proof. induction l as [|x l IH]; intro H; [exact H|]. cbn in H. inversion H; subst. auto. Qed.
Lemma next_obs m ord a obs : set_order_ok ord -> fill_equations m ord (or_nil (a_obs a)) [] = (obs, Ok tt) -> forall x, get x obs = None <-> ~ In x (map fst (or_nil (a_obs a))).
Proof.
  intros Ho Hf x. destruct (fill_spec m ord _ Ho _ _ Hf) as (_ & F3 & _); [split; [constructor|intros; discriminate]|]. rewrite get_None. specialize (F3 x). cbn in F3. tauto.
Qed.
(* configure succeeds exactly when: its arguments are acceptable; every observation equation parses, has no lead and mentions only known
   names; every other observed series is a variable of the model; every variable whose steady state is asked for has one; and the
   names of the exposed parameters are distinct. *)
Theorem C92_configure_succeeds_iff : forall m W ord c0 a, set_order_ok ord -> proper m a -> NoDup (k_inputs m) ->
  ((exists c, configure m W ord c0 a = (c, Ok tt)) <->
   acceptable m c0 a /\ (forall name p, In (name, p) (or_nil (a_obs a)) -> good_equation m p) /\
   (forall x, In x (a_observed a) -> ~ In x (map fst (or_nil (a_obs a))) -> In x (k_vars m)) /\
   incl (or_nil (a_ssint a)) (k_has_ss m) /\ NoDup (exposed m a)).
Proof.
  intros m W ord c0 a Ho Hp Hn. rewrite configure_next. destruct (valid m c0 a) eqn:Ev; cbn [negb].
  2:{ split; [intros [c C]; discriminate|]. intros [H _]. apply valid_iff in H. congruence. }
  assert (Ha : acceptable m c0 a) by now apply valid_iff. destruct (fill_equations m ord (or_nil (a_obs a)) []) as [obs r] eqn:Ef. destruct r as [[]|x].
  2:{ split; [intros [c C]; discriminate|]. intros (_ & H & _). exfalso. destruct (proj2 (fill_iff m ord (or_nil (a_obs a)) []) H) as [obs' C]. congruence. }
  pose proof (next_wf m ord c0 a obs Ho Hp Ha Ef) as Hw. pose proof (next_obs m ord a obs Ho Ef) as Hobs.
  assert (Hss : incl (or_nil (a_ssint a)) (a_observed a) /\ forall x, In x (or_nil (a_ssint a)) -> ~ In x (map fst (or_nil (a_obs a)))).
  { destruct Ha as (_ & _ & _ & A3 & _ & _ & _ & _ & A8 & _). split; [exact A3|]. intros x Hx C. exact (A8 x C Hx). }
  assert (Hb : buildable m (next m a obs) <-> (forall x, In x (a_observed a) -> ~ In x (map fst (or_nil (a_obs a))) -> In x (k_vars m)) /\ incl (or_nil (a_ssint a)) (k_has_ss m) /\ NoDup (exposed m a)).
  { unfold buildable. change (c_observed (next m a obs)) with (a_observed a). change (c_obs (next m a obs)) with obs. change (c_ssint (next m a obs)) with (or_nil (a_ssint a)). change (c_error (next m a obs)) with (or_nil (a_error a)).
    change (names_of m (next m a obs)) with (exposed m a). split.
    - intros (B1 & B2 & B3 & _). split; [intros x Hx Hnx; apply B1; [exact Hx|now apply Hobs]|]. split; [|exact B3]. intros x Hx. apply B2; [now apply (proj1 Hss)|apply Hobs; now apply (proj2 Hss)|exact Hx].
    - intros (B1 & B2 & B3). split; [intros x Hx Hg; apply B1; [exact Hx|now apply Hobs]|]. split; [intros x _ _ Hx; now apply B2|]. split; [exact B3|]. apply NoDup_incl_length; [|apply Ha].
      unfold exposed in B3. apply nodup_right, nodup_right in B3. clear - B3. induction (or_nil (a_error a)) as [|y l IH]; [constructor|]. cbn in B3. inversion B3 as [|? ? N1 N2]; subst. constructor; [|now apply IH]. intro C. apply N1. now apply (in_map (fun s => str "error_sigma_" ++ s)) in C. }
  split.
  - intros [c C]. destruct (make_symbolic_graph m W (next m a obs) (fun _ => 0) (fun _ _ => 0)) as [b|] eqn:Eb; [|discriminate]. split; [exact Ha|]. split; [apply (fill_iff m ord _ []); eauto|]. apply Hb. exact (graph_buildable _ _ _ _ _ _ Hn Hw Eb).
  - intros (_ & _ & H). apply Hb in H. destruct (buildable_graph m W a obs (fun _ => 0) (fun _ _ => 0) Hn Hw H) as [b ->]. eauto.
Qed.
(* Arguments that are not acceptable change nothing.  A call that fails later does change the object: after a bad observation equation
   it has the new observed series but the old layout of states; a call whose state-space form cannot be built is stored as configured. *)
Theorem C92_failed_configure : forall m W ord c0 a, 
  (~ acceptable m c0 a -> configure m W ord c0 a = (c0, Err ValueError)) /\
  (acceptable m c0 a -> forall c x, configure m W ord c0 a = (c, Err x) ->
    c_observed c = a_observed a /\ c_error c = or_nil (a_error a) /\ c_agg c = or_nil (a_agg a) /\
    ((exists name p, In (name, p) (or_nil (a_obs a)) /\ ~ good_equation m p) -> c_states c = c_states c0 /\ c_depths c = c_depths c0 /\ c_starts c = c_starts c0 /\ c_configured c = c_configured c0) /\
    ((forall name p, In (name, p) (or_nil (a_obs a)) -> good_equation m p) -> c_states c = state_names m c /\ c_configured c = true)).
Proof.
  intros m W ord c0 a. rewrite configure_next. split.
  - intro H. destruct (valid m c0 a) eqn:Ev; [exfalso; apply H; now apply valid_iff|reflexivity].
  - intros Ha c x. apply valid_iff in Ha. rewrite Ha. cbn [negb]. destruct (fill_equations m ord (or_nil (a_obs a)) []) as [obs r] eqn:Ef. destruct r as [[]|y]; intro H.
    + assert (Ec : c = next m a obs) by congruence. subst c. do 3 (split; [reflexivity|]). assert (Hg : forall name p, In (name, p) (or_nil (a_obs a)) -> good_equation m p) by (apply (fill_iff m ord _ []); eauto). split; [|split; reflexivity].
      intros (name & p & Hin & C). exfalso. exact (C (Hg name p Hin)).
    + injection H as <- _. do 3 (split; [reflexivity|]). split; [intros _; repeat split|]. intro Hg. exfalso. destruct (proj2 (fill_iff m ord _ []) Hg) as [obs' C]. congruence.
Qed.
(* so "a call that raises leaves the object as it was" is false: an equation with a lead; and, on an object configured before, a name
   of one of its own lag states, which passes the checks *)
Definition lead_args : cargs := CA [kGr] None NoConst false None 4 None (Some [(kGr, Ok (Sy (SDate kC 1)))]) (str "gensys").
Definition stale_args : cargs := CA [str "C_cumulator_lag1"] None NoConst false None 4 None None (str "gensys").
Theorem C92_unchanged_refuted :
  (let '(c, r) := configure toy toy_world id_ord toy_config lead_args in r = Err ValueError /\ c_observed c = [kGr] /\ c_error c = [] /\ c_states c = c_states toy_config /\ c_observed toy_config <> [kGr]) /\
  (acceptable toy toy_config stale_args /\ ~ acceptable toy (new_object toy) stale_args /\
   let '(c, r) := configure toy toy_world id_ord toy_config stale_args in r = Err ValueError /\ c_observed c = [str "C_cumulator_lag1"] /\ c_configured c = true /\ c_states c = [kY; kC]).
Proof.
  split; [vm_compute; repeat split; discriminate|]. split; [apply valid_iff; vm_compute; reflexivity|]. split; [intro H; apply valid_iff in H; vm_compute in H; discriminate|]. vm_compute. repeat split.
Qed.

(* ---------- C93: the parameters ---------- *)
Lemma inputs_agree m c draw draw' : incl (k_inputs m) (map fst (k_defaults m)) -> (forall n, In n (free_inputs m c) -> draw n = draw' n) -> forall n, In n (k_inputs m) -> inputs_at m c draw n = inputs_at m c draw' n.
Proof.
  intros Hd Ha n Hn. unfold inputs_at. destruct (mem n (c_const c)) eqn:E; [|apply Ha; unfold free_inputs; apply filter_In; split; [exact Hn|now rewrite E]].
  destruct (get n (k_defaults m)) eqn:Eg; [reflexivity|]. apply get_None in Eg. exfalso. apply Eg, Hd, Hn.
Qed.
Lemma loop_ext {A S} (f g : S -> A -> result S) l : (forall s a, In a l -> f s a = g s a) -> forall s, loop f l s = loop g l s.
Proof. induction l as [|a l IH]; intros H s; [reflexivity|]. cbn. rewrite (H s a (or_introl eq_refl)). destruct (g s a); [|reflexivity]. cbn. apply IH. intros; apply H; now right. Qed.
Lemma all_ok_ext {A B} (f g : A -> result B) l : (forall a, In a l -> f a = g a) -> all_ok f l = all_ok g l.
Proof. induction l as [|a l IH]; intros H; [reflexivity|]. cbn. rewrite (H a (or_introl eq_refl)), IH by (intros; apply H; now right). reflexivity. Qed.
Lemma graph_agree m W c draw draw' F : uses_inputs m W -> incl (k_inputs m) (map fst (k_defaults m)) -> (forall n, In n (names_of m c) -> draw n = draw' n) ->
  (forall name i co, In (name, (i, co)) (c_obs c) -> value m W c draw i = value m W c draw' i /\ forall vl k, In (vl, k) co -> value m W c draw k = value m W c draw' k) ->
  make_symbolic_graph m W c draw F = make_symbolic_graph m W c draw' F.
Proof.
  intros Hu Hd Ha Hv. assert (Hi : forall n, In n (k_inputs m) -> inputs_at m c draw n = inputs_at m c draw' n) by (apply inputs_agree; [exact Hd|]; intros n Hn; apply Ha; unfold names_of; apply in_or_app; now left).
  destruct (Hu _ _ Hi) as [Hpol Hss].
  assert (E1 : policy m W c draw = policy m W c draw') by (unfold policy; now rewrite Hpol).
  assert (E2 : design m W c draw = design m W c draw').
  { unfold design. destruct (c_obs c) as [|o os] eqn:Eo; [reflexivity|]. rewrite <- Eo in *. apply loop_ext. intros M [i name] _. unfold symbolic_row. destruct (get name (c_obs c)) as [[e co]|] eqn:Eg; [|reflexivity].
    destruct (Hv _ _ _ (get_In _ _ _ Eg)) as [_ Hk]. apply loop_ext. intros M' [[v lag] k] Hin. unfold add_coefficient. apply loop_ext. intros M'' d _. now rewrite (Hk _ _ Hin). }
  assert (E3 : obs_intercept m W c draw = obs_intercept m W c draw').
  { unfold obs_intercept. assert (E : all_ok (intercept_entry m W c draw) (c_observed c) = all_ok (intercept_entry m W c draw') (c_observed c)).
    { apply all_ok_ext. intros name _. unfold intercept_entry. destruct (get name (c_obs c)) as [[e co]|] eqn:Eg; [destruct (Hv _ _ _ (get_In _ _ _ Eg)) as [-> _]; reflexivity|]. rewrite Hss. reflexivity. }
    rewrite E. reflexivity. }
  assert (E4 : obs_cov c draw = obs_cov c draw').
  { unfold obs_cov. assert (E : map (fun s => draw (error_name s) * draw (error_name s)) (c_error c) = map (fun s => draw' (error_name s) * draw' (error_name s)) (c_error c)).
    { apply map_ext_in. intros s Hs. rewrite (Ha (error_name s)); [reflexivity|]. unfold names_of. apply in_or_app; right. apply in_or_app; right. now apply in_map. }
    destruct (c_error c) as [|x l]; [reflexivity|]. rewrite E. reflexivity. }
  assert (E5 : state_cov m c draw F = state_cov m c draw' F).
  { unfold state_cov. destruct (c_full c) eqn:Ef; [reflexivity|]. f_equal. apply map_ext_in. intros s Hs. rewrite (Ha (sigma_name s)); [reflexivity|]. unfold names_of. rewrite Ef. apply in_or_app; right. apply in_or_app; left. now apply in_map. }
  unfold make_symbolic_graph. rewrite E1, E2, E3, E4, E5. reflexivity.
Qed.
(* The exposed parameters have distinct names, and are the model's input parameters except the ones held constant, the shocks' standard
   deviations (or one covariance matrix) and the measurement errors' standard deviations.  Every input parameter is either exposed or
   held constant, not both; 'auto' holds constant exactly the ones without a prior.  The state-space form is determined by the exposed
   parameters (as long as no observation equation mentions a hyperparameter), with constants at their default values. *)
Theorem C93_parameters : forall m W ord c0 a c, configured m W ord c0 a c -> uses_inputs m W -> incl (k_inputs m) (map fst (k_defaults m)) -> NoDup (k_inputs m) ->
  registered m c = Ok (exposed m a) /\ NoDup (exposed m a) /\
  (forall n draw, In n (k_inputs m) -> In n (constants m a) -> Some (inputs_at m c draw n) = get n (k_defaults m)) /\
  (forall n draw, In n (k_inputs m) -> ~ In n (constants m a) -> In n (exposed m a) /\ inputs_at m c draw n = draw n) /\
  (a_const a = Auto -> forall n, In n (k_inputs m) -> (In n (constants m a) <-> ~ In n (k_priors m))) /\
  ((forall name e n, In (name, Ok e) (or_nil (a_obs a)) -> In (SPar n) (atoms e) -> In n (k_inputs m)) ->
   forall draw draw' F, (forall n, In n (exposed m a) -> draw n = draw' n) -> make_symbolic_graph m W c draw F = make_symbolic_graph m W c draw' F).
Proof.
  intros m W ord c0 a c (Ho & Hp & Hc) Hu Hd Hn. destruct (configure_wf _ _ _ _ _ _ Ho Hp Hc) as (Hw & Eo & Ee & Ek & _ & _ & _ & Efu & _ & Hfill & Hva & [b Hb]).
  assert (En : names_of m c = exposed m a) by (unfold names_of, exposed, free_inputs; rewrite Ee, Ek, Efu; reflexivity).
  destruct (graph_parts _ _ _ _ _ _ Hb) as (_ & _ & _ & _ & _ & _ & _ & _ & _ & [names Er] & _). pose proof (registered_names _ _ _ Er) as E. rewrite En in E. subst names.
  split; [exact Er|]. split; [rewrite <- En; apply registered_iff; [exact Hn|eauto]|]. split; [|split; [|split]].
  - intros n draw Hin Hco. unfold inputs_at. rewrite Ek. apply mem_In in Hco. rewrite Hco. destruct (get n (k_defaults m)) eqn:Eg; [reflexivity|]. apply get_None in Eg. exfalso. apply Eg, Hd, Hin.
  - intros n draw Hin Hco. apply mem_false in Hco. split; [unfold exposed; apply in_or_app; left; apply filter_In; split; [exact Hin|now rewrite Hco]|]. unfold inputs_at. rewrite Ek, Hco. reflexivity.
  - intros Hau n Hin. unfold constants. rewrite Hau, filter_In, negb_true_iff, mem_false. tauto.
  - intros Hpar draw draw' F Hag. rewrite <- En in Hag. apply graph_agree; [exact Hu|exact Hd|exact Hag|]. intros name i co Hin.
    assert (Hi : forall n, In n (k_inputs m) -> inputs_at m c draw n = inputs_at m c draw' n) by (apply inputs_agree; [exact Hd|]; intros n Hnn; apply Hag; unfold names_of; apply in_or_app; now left).
    destruct (Hu _ _ Hi) as [_ Hss].
    assert (Hname : exists p, In (name, p) (or_nil (a_obs a))).
    { destruct (fill_spec m ord _ Ho _ _ Hfill) as (_ & F3 & _); [split; [constructor|intros; discriminate]|]. apply (in_map fst) in Hin. apply F3 in Hin. destruct Hin as [Hin|[]]. apply in_map_iff in Hin. destruct Hin as ([n' p] & En' & Hin). cbn in En'. subst n'. eauto. }
    destruct Hname as [p Hpn]. destruct (fill_get m ord _ Ho _ _ Hfill (proj2 (proj2 Hp)) _ _ Hpn) as (e & -> & Hck & Hg). pose proof (get_nodup _ _ _ (wf_obs m c Hw) Hin) as Hg2. rewrite Hg in Hg2. assert (Hlin : linearize_equation m ord e = (i, co)) by congruence.
    assert (Hat : forall keys s, In s (atoms e) \/ (exists w, s = SSs w) \/ (exists v lag, s = tilde v lag /\ In (v, lag) keys) -> ev (Ralg (w_fun W)) (at_draw m W c draw) (zero_subs keys s) = ev (Ralg (w_fun W)) (at_draw m W c draw') (zero_subs keys s)).
    { intros keys s Hs. unfold zero_subs. destruct (existsb (fun k => sym_eqb s (tilde (fst k) (snd k))) keys) eqn:Ex; [reflexivity|]. cbn [ev]. destruct s as [n|v t|v]; cbn [at_draw]; [|reflexivity|apply Hss].
      destruct Hs as [Hs|[[w C]|(v & lag & Es & Hk)]]; [apply Hi; now apply (Hpar name e)|discriminate|].
      exfalso. assert (existsb (fun k => sym_eqb (SPar n) (tilde (fst k) (snd k))) keys = true) by (rewrite existsb_exists; exists (v, lag); split; [exact Hk|rewrite Es; apply sym_eqb_refl]). congruence. }
    assert (Hval : forall g, (forall s, In s (atoms g) -> In s (atoms (smap (forward m) e))) -> value m W c draw (smap (zero_subs (appearing ord e)) g) = value m W c draw' (smap (zero_subs (appearing ord e)) g)).
    { intros g Hsub. unfold value. rewrite !ev_smap. apply ev_ext. intros s Hs. apply Hat. apply Hsub, atoms_smap in Hs. destruct Hs as (s0 & H0 & Hs). destruct s0 as [n|v t|v]; cbn [forward] in Hs.
      - destruct Hs as [<-|[]]. now left.
      - right. destruct (mem v (k_logged m)); cbn [atoms app] in Hs; (destruct Hs as [<-|[<-|[]]]; [left; eauto|right; exists v, t; split; [reflexivity|apply (keys_spec ord e Ho); exact H0]]).
      - destruct Hs as [<-|[]]. right. left. eauto. }
    assert (E1 : fst (linearize_equation m ord e) = i) by (rewrite Hlin; reflexivity). assert (E2 : snd (linearize_equation m ord e) = co) by (rewrite Hlin; reflexivity). unfold linearize_equation in E1, E2. cbn [fst snd] in E1, E2. split; [rewrite <- E1; apply Hval; auto|]. intros vl k Hk. rewrite <- E2 in Hk. apply in_map_iff in Hk. destruct Hk as (key & Eq & Hk). injection Eq as _ <-. apply Hval.
    assert (Hatd : forall x g s, In s (atoms (diff x g)) -> In s (atoms g)).
    { clear. intros x. induction g as [z|s1|g1 IH1 g2 IH2|g1 IH1 g2 IH2|g1 IH1|h q g1 IH1]; intros s Hs; cbn [diff atoms] in *; rewrite ?in_app_iff in *; try tauto.
      - destruct (sym_eqb s1 x); destruct Hs.
      - destruct Hs as [Hs|Hs]; [left; auto|right; auto].
      - destruct Hs as [[Hs|Hs]|[Hs|Hs]]; auto.
      - auto.
      - destruct Hs as [Hs|Hs]; auto. }
    intros s. apply Hatd.
Qed.

(* ---------- concrete cases ---------- *)
(* Gr = Y[] * C[-1] + rho, with Y log-linearised *)
Definition product : sx := Ad (Mu (Sy (SDate kY 0)) (Sy (SDate kC (-1)))) (Sy (SPar krho)).
Definition product_args : cargs := CA [kGr] None Auto false None 4 None (Some [(kGr, Ok product)]) (str "gensys").
Definition product_config : config := fst (configure toy toy_world id_ord (new_object toy) product_args).
Lemma product_configured : configured toy toy_world id_ord (new_object toy) product_args product_config.
Proof.
  split; [apply id_ord_ok|]. split; [repeat split; cbn; repeat constructor; cbn; intuition; discriminate|]. unfold product_config.
  assert (E : snd (configure toy toy_world id_ord (new_object toy) product_args) = Ok tt) by (vm_compute; reflexivity). rewrite <- E. apply surjective_pairing.
Qed.
Theorem C90_case : configured toy toy_world id_ord (new_object toy) product_args product_config /\ placeholder_free toy /\ true_exp (w_fun toy_world) /\
  In (kGr, Ok product) (or_nil (a_obs product_args)) /\ (forall env, defined (w_fun toy_world) env product) /\
  exists i k1 k2, get kGr (c_obs product_config) = Some (i, [((kY, 0%Z), k1); ((kC, (-1)%Z), k2)]) /\
    forall draw, value toy toy_world product_config draw i = 3 * draw krho /\ value toy toy_world product_config draw k1 = 2 * draw krho /\ value toy toy_world product_config draw k2 = 2.
Proof.
  split; [exact product_configured|]. split; [intros n x [E|[]] C; subst n; discriminate C|]. split; [intro x; split; [exact I|reflexivity]|]. split; [now left|]. split; [intro env; cbn; tauto|].
  assert (E : get kGr (c_obs product_config) = Some (linearize_equation toy id_ord product)) by (vm_compute; reflexivity). rewrite E.
  assert (Ek : c_const product_config = []) by (vm_compute; reflexivity).
  eexists _, _, _. split; [reflexivity|]. intro draw. unfold value. cbn. unfold inputs_at. rewrite Ek. cbn. rewrite exp_0. repeat split; ring.
Qed.
(* one variable with X = X[-1] / 2 + e, observed as a two-period sum *)
Definition kX := str "X".
Definition one : kmodel := KM [kX] [str "e"] [] [] [] [] [] [kX] [0]%nat.
Definition one_world : world := World (fun _ => (fun _ _ => / 2, fun _ _ => 1)) (fun _ _ => 1) expworld.
Definition one_args : cargs := CA [kX] None NoConst false (Some [(kX, str "sum")]) 2 None None (str "gensys").
Definition one_config : config := fst (configure one one_world id_ord (new_object one) one_args).
Theorem C91_case : configured one one_world id_ord (new_object one) one_args one_config /\ meaning one one_config = [(kX, 0); (kX, 1)]%nat /\
  exists b P, make_symbolic_graph one one_world one_config (fun _ => 1) zeros = Ok b /\ stationary (k_states one one_config) 1 (b_T b) (b_R b) (b_Q b) P /\ P 0%nat 0%nat = 4 / 3 /\ P 0%nat 1%nat = 2 / 3.
Proof.
  split; [split; [apply id_ord_ok|]; split; [repeat split; cbn; repeat constructor; cbn; intuition; discriminate|]; unfold one_config;
    assert (E : snd (configure one one_world id_ord (new_object one) one_args) = Ok tt) by (vm_compute; reflexivity); rewrite <- E; apply surjective_pairing|].
  split; [vm_compute; reflexivity|]. assert (Ec : one_config = CF [kX] [] [] [(kX, str "sum")] 2 [] [] [] [] false true (str "gensys") [kX; str "X_cumulator_lag1"]) by (vm_compute; reflexivity). rewrite Ec.
  eexists _, (fun i j => if Nat.eqb i j then 4 / 3 else 2 / 3). split; [reflexivity|]. split; [|split; reflexivity]. cbn [b_T b_R b_Q]. change (k_states one _) with 2%nat.
  intros i j Hi Hj. unfold mmul, transp. destruct i as [|[|i]]; [| |lia]; (destruct j as [|[|j]]; [| |lia]); cbn [rsum]; cbn; unfold augment_selection; cbn; change (Pos.to_nat 1) with 1%nat; cbn; unfold kron_eye, shift; cbn; field.
Qed.
Theorem C93_case : configured toy toy_world id_ord (new_object toy) toy_args toy_config /\ uses_inputs toy toy_world /\ incl (k_inputs toy) (map fst (k_defaults toy)) /\ NoDup (k_inputs toy) /\
  exposed toy toy_args = [krho; str "sigma_e"; str "error_sigma_Gr"].
Proof.
  split; [exact (proj1 C37_case)|]. split; [|split; [intros n H; exact H|split; [repeat constructor; intros []|reflexivity]]].
  intros p p' H. assert (E : p krho = p' krho) by (apply H; now left). split; [cbn; unfold toy_policy; now rewrite E|]. intro v. cbn [toy_world w_ss]. now rewrite E.
Qed.
(* a hyperparameter in an observation equation is accepted, but is not among the exposed parameters *)
Definition hyp : kmodel := KM [kX] [str "e"] [] [] [str "theta"] [] [] [kX] [0]%nat.
Definition hyp_args : cargs := CA [kGr] None NoConst false None 2 None (Some [(kGr, Ok (Mu (Sy (SPar (str "theta"))) (Sy (SDate kX 0))))]) (str "gensys").
Definition hyp_config : config := fst (configure hyp one_world id_ord (new_object hyp) hyp_args).
Theorem C93_hyperparameter_refuted : configured hyp one_world id_ord (new_object hyp) hyp_args hyp_config /\ ~ In (str "theta") (exposed hyp hyp_args) /\
  forall theta, exists b, make_symbolic_graph hyp one_world hyp_config (fun n => if chars_eqb n (str "theta") then theta else 0) zeros = Ok b /\ b_Z b 0%nat 0%nat = theta.
Proof.
  split; [split; [apply id_ord_ok|]; split; [repeat split; cbn; repeat constructor; cbn; intuition; discriminate|]; unfold hyp_config;
    assert (E : snd (configure hyp one_world id_ord (new_object hyp) hyp_args) = Ok tt) by (vm_compute; reflexivity); rewrite <- E; apply surjective_pairing|].
  split; [cbn; intuition discriminate|]. intro theta.
  assert (Ec : hyp_config = CF [kGr] [] [] [] 2 [] [(kGr, linearize_equation hyp id_ord (Mu (Sy (SPar (str "theta"))) (Sy (SDate kX 0))))] [] [] false true (str "gensys") [kX]) by (vm_compute; reflexivity). rewrite Ec.
  eexists. split; [reflexivity|]. cbn. unfold inc_at, zeros, value. cbn. ring.
Qed.
Theorem C94_case : Permutation (k_var_order toy) (seq 0 (length (k_vars toy))) /\ k_var_order toy <> seq 0 (length (k_vars toy)).
Proof. split; [apply perm_swap|discriminate]. Qed.
