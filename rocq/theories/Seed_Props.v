(* C145.  Seeds, generators and the bounds taken from priors. *)
From Verif Require Import Common Seed_Model.
From Coq Require Import Reals Lra.
Local Open Scope R_scope.
Local Open Scope list_scope.

Section C.
Variable St : Type.
Variable from_seed : Z -> St.
Variable entropy : nat -> St.
Variable uniform : nat -> nat -> St -> list (list R) * St.
Variable engine : method -> nat -> nat -> St -> list (list R).
Variable clip : R -> R.
Notation call := (call St from_seed entropy uniform engine clip).
Notation run := (run St from_seed entropy uniform engine clip).
Notation prior := (prior St).
Notation request := (request St).
(* the requests that draw from numpy; all others use a quasi-random engine *)
Definition by_numpy (r : request) : Prop := match r with RUniform _ _ Random | RPriorUniform _ _ Random _ | RPriors _ _ => True | _ => False end.

Lemma uniform_int b n z m w w' : fst (sample_uniform St from_seed entropy uniform engine b n (Int z) m w) = fst (sample_uniform St from_seed entropy uniform engine b n (Int z) m w') /\
  snd (sample_uniform St from_seed entropy uniform engine b n (Int z) m w) = w.
Proof. unfold sample_uniform. destruct m; cbn; try (destruct (power_of_two_or_zero n); cbn; auto; fail); destruct (uniform n (length b) (from_seed z)); auto. Qed.
(* With a Python integer as seed the answer is the same in every state of the world, and the world is unchanged: in every
   history, whatever was drawn before. *)
Theorem C145_int_seed r z w w' : fst (call r (Int z) w) = fst (call r (Int z) w') /\ snd (call r (Int z) w) = w.
Proof.
  destruct r as [b n m|p n m h|p n|p n m]; cbn [Seed_Model.call].
  - apply uniform_int.
  - unfold sample_uniform_from_priors. destruct (bounds_from_priors p h); [apply uniform_int|auto].
  - unfold sample_from_priors. cbn. destruct (columns St p n (from_seed z)); auto.
  - unfold sample_from_priors_qmc. destruct m; cbn; auto. destruct (power_of_two_or_zero n); cbn; auto.
Qed.
Theorem C145_history h h' w w' i j r z x y : nth_error h i = Some (r, Int z) -> nth_error h' j = Some (r, Int z) ->
  nth_error (fst (run h w)) i = Some x -> nth_error (fst (run h' w')) j = Some y -> x = y.
Proof.
  assert (forall h w i x, nth_error h i = Some (r, Int z) -> nth_error (fst (run h w)) i = Some x -> exists w0, x = fst (call r (Int z) w0)) as G.
  { clear. induction h as [|[r' s'] t IH]; intros w [|i] x H1 H2; cbn [nth_error Seed_Model.run] in *; try discriminate;
      destruct (call r' s' w) as [x1 w1] eqn:E; destruct (run t w1) as [o w2] eqn:E2; cbn [fst nth_error] in H2.
    - injection H1 as -> ->. injection H2 as <-. exists w. now rewrite E.
    - apply (IH w1 i); [easy|]. now rewrite E2. }
  intros H1 H2 H3 H4. destruct (G _ _ _ _ H1 H3) as [a ->], (G _ _ _ _ H2 H4) as [b ->]. apply C145_int_seed.
Qed.
(* A generator object given to the requests that draw from numpy: the answer depends on its state only; it is the only
   thing that changes, and its new state depends on its state only. *)
Theorem C145_generator r g w w' : by_numpy r -> generators w g = generators w' g ->
  fst (call r (Generator g) w) = fst (call r (Generator g) w') /\
  generators (snd (call r (Generator g) w)) g = generators (snd (call r (Generator g) w')) g /\
  (forall i, i <> g -> generators (snd (call r (Generator g) w)) i = generators w i) /\
  drawn (snd (call r (Generator g) w)) = drawn w.
Proof.
  assert (forall b n, generators w g = generators w' g ->
    fst (sample_uniform St from_seed entropy uniform engine b n (Generator g) Random w) = fst (sample_uniform St from_seed entropy uniform engine b n (Generator g) Random w') /\
    generators (snd (sample_uniform St from_seed entropy uniform engine b n (Generator g) Random w)) g = generators (snd (sample_uniform St from_seed entropy uniform engine b n (Generator g) Random w')) g /\
    (forall i, i <> g -> generators (snd (sample_uniform St from_seed entropy uniform engine b n (Generator g) Random w)) i = generators w i) /\
    drawn (snd (sample_uniform St from_seed entropy uniform engine b n (Generator g) Random w)) = drawn w) as U.
  { intros b n E. unfold sample_uniform. cbn. rewrite <- E. destruct (uniform n (length b) (generators w g)) as [u st]. cbn. rewrite Nat.eqb_refl. repeat split. intros i Hi. now rewrite (proj2 (Nat.eqb_neq i g) Hi). }
  intros N E. destruct r as [b n m|p n m h|p n|p n m]; cbn [by_numpy Seed_Model.call] in *.
  - destruct m; try easy. now apply U.
  - destruct m; try easy. unfold sample_uniform_from_priors. destruct (bounds_from_priors p h); [now apply U|cbn; auto].
  - unfold sample_from_priors. cbn. rewrite <- E. destruct (columns St p n (generators w g)) as [c st]. cbn. rewrite Nat.eqb_refl. repeat split. intros i Hi. now rewrite (proj2 (Nat.eqb_neq i g) Hi).
  - destruct N.
Qed.
(* A numpy integer is as good as a Python one for these requests only. *)
Theorem C145_numpy_integer r z w : by_numpy r -> call r (NumpyInt z) w = call r (Int z) w.
Proof.
  destruct r as [b n m|p n m h|p n|p n m]; cbn; intros N; try easy; destruct m; try easy.
Qed.
(* All other requests ignore a generator or a numpy integer: they do what they do without a seed. *)
Theorem C145_ignored r s w : ~ by_numpy r -> (forall z, s <> Int z) -> call r s w = call r NoSeed w.
Proof.
  intros N H. destruct s as [|z|z|g]; try easy; [destruct (H z eq_refl)| |]; destruct r as [b n m|p n m h|p n|p n m]; cbn in *; try tauto; destruct m; try tauto; try reflexivity;
    unfold sample_uniform_from_priors; destruct (bounds_from_priors p h); reflexivity.
Qed.

(* ---- bounds ---- *)
(* One pair of bounds per prior, under its name and in order: the interval the prior gives, or if it raises ValueError the
   quantiles 1-p and p; any other error stops. *)
Theorem C145_bounds (priors : list (chars * prior)) p bs : bounds_from_priors priors p = Ok bs <->
  Forall2 (fun np b => fst b = fst np /\ (hdi (snd np) p = Ok (snd b) \/ (hdi (snd np) p = Err ValueError /\ snd b = (ppf (snd np) (1 - p), ppf (snd np) p)))) priors bs.
Proof.
  revert bs. induction priors as [|[nm d] t IH]; intros bs; cbn [bounds_from_priors].
  - split; [intros H; injection H as <-; constructor|intros H; now inversion H].
  - split.
    + intros H. destruct (match hdi d p with Err ValueError => Ok (ppf d (1 - p), ppf d p) | r => r end) as [b|e] eqn:E; cbn [bind] in H; [|discriminate].
      destruct (bounds_from_priors t p) as [r|e]; cbn [bind] in H; [|discriminate]. injection H as <-. constructor; [|now apply IH]. cbn [fst snd]. split; [easy|].
      destruct (hdi d p) as [x|e]; [left; congruence|]. destruct e; try discriminate. right. split; [easy|congruence].
    + intros H. inversion H as [|? [nm' b] ? r [H1 H2] H3]; subst. cbn [fst snd] in *. subst nm'. apply IH in H3. destruct H2 as [->|[-> ->]]; cbn [bind]; rewrite H3; reflexivity.
Qed.
(* How much probability the fallback covers, for a prior with a continuous distribution function F: 2p - 1, not p. *)
Definition quantiles (d : prior) (F : R -> R) : Prop := (forall q, 0 < q < 1 -> F (ppf d q) = q) /\ (forall x y, x < y -> F x <= F y).
Theorem C145_fallback_mass name d F p lo hi : quantiles d F -> hdi d p = Err ValueError -> 0 < p < 1 ->
  bounds_from_priors [(name, d)] p = Ok [(name, (lo, hi))] -> F hi - F lo = 2 * p - 1 /\ (p < 1 / 2 -> hi < lo).
Proof.
  intros [Q M] E Hp H. apply C145_bounds in H. inversion H as [|? ? ? ? [_ [H1|[_ H1]]] _]; subst; cbn [fst snd] in *; [congruence|]. injection H1 as -> ->.
  rewrite !Q by lra. split; [lra|]. intros Hl. destruct (Rlt_le_dec (ppf d p) (ppf d (1 - p))) as [L|[L|L]]; [easy| |].
  - apply M in L. rewrite !Q in L by lra. lra.
  - pose proof (Q p ltac:(lra)) as Q1. pose proof (Q (1 - p) ltac:(lra)) as Q2. rewrite <- L, Q2 in Q1. lra.
Qed.
(* and below one half no sample can be drawn at all *)
Theorem C145_fallback_refused name d F p n s w : quantiles d F -> hdi d p = Err ValueError -> 0 < p < 1 / 2 ->
  fst (call (RPriorUniform [(name, d)] n Lhs p) s w) = Err ValueError.
Proof.
  intros Q E Hp. cbn [Seed_Model.call]. unfold sample_uniform_from_priors. cbn [bounds_from_priors]. rewrite E. cbn [bind].
  destruct (C145_fallback_mass name d F p (ppf d (1 - p)) (ppf d p) Q E ltac:(lra)) as [_ L]; [cbn; now rewrite E|].
  unfold sample_uniform. cbn [is_sobol andb]. destruct (qmc_state St from_seed entropy s w) as [st w']. cbn [fst map snd]. unfold scale. cbn [forallb fst snd].
  unfold Rltb. destruct (Rlt_dec (ppf d (1 - p)) (ppf d p)) as [L'|]; [|easy]. specialize (L ltac:(lra)). lra.
Qed.
End C.

(* ---- refutations: a linear congruential source over the integers, whose states show in the draws ---- *)
Definition zuniform (n d : nat) (st : Z) : list (list R) * Z := (repeat (repeat (IZR st / 100) d) n, (st + 1)%Z).
Definition zengine (m : method) (d n : nat) (st : Z) : list (list R) := repeat (repeat (IZR st / 100) d) n.
Notation zcall := (call Z (fun z => z) (fun k => Z.of_nat k + 10)%Z zuniform zengine (fun x => x)).
Definition bounds01 : list (chars * (R * R)) := [(str "alpha", (0, 1))].
(* Passing a generator in the same state twice does not reproduce a Latin hypercube, although the docstring accepts it. *)
Theorem C145_reproducible_refuted : ~ (forall r g w w', generators w g = generators w' g -> fst (zcall r (Generator g) w) = fst (zcall r (Generator g) w')).
Proof.
  intros H. specialize (H (RUniform bounds01 1%nat Lhs) 0%nat (World (fun _ => 5%Z) 0) (World (fun _ => 5%Z) 1) eq_refl).
  cbn in H. unfold scale in H. cbn in H. unfold Rltb in H. destruct (Rlt_dec 0 1) as [_|N]; [|apply N; lra]. cbn in H. injection H as H. lra.
Qed.
Theorem C145_numpy_refuted : ~ (forall r z w w', fst (zcall r (NumpyInt z) w) = fst (zcall r (NumpyInt z) w')).
Proof.
  intros H. specialize (H (RUniform bounds01 1%nat Sobol) 3%Z (World (fun _ => 5%Z) 0) (World (fun _ => 5%Z) 1)).
  cbn in H. unfold scale in H. cbn in H. unfold Rltb in H. destruct (Rlt_dec 0 1) as [_|N]; [|apply N; lra]. cbn in H. injection H as H. lra.
Qed.
(* a uniform prior whose interval computation raises *)
Definition flat : prior Z := Prior (fun n st => (repeat 0 n, st)) (fun q => q) (fun _ => Err ValueError).
Theorem C145_mass_refuted : ~ (forall (d : prior Z) F p lo hi, quantiles Z d F -> 0 < p < 1 -> bounds_from_priors [(str "a", d)] p = Ok [(str "a", (lo, hi))] -> p <= F hi - F lo).
Proof.
  intros H. specialize (H flat (fun x => x) (99 / 100) (1 - 99 / 100) (99 / 100)). assert (99 / 100 <= 99 / 100 - (1 - 99 / 100)) as Q; [|lra]. apply H; [|lra|reflexivity].
  split; [easy|]. intros; lra.
Qed.
Theorem C145_case : quantiles Z flat (fun x => x) /\ hdi flat (1 / 4) = Err ValueError /\ by_numpy Z (RUniform bounds01 1%nat Random) /\
  fst (zcall (RUniform bounds01 1%nat Random) (Generator 3) (World (fun i => Z.of_nat i) 0)) = Ok [[3 / 100 * (1 - 0) + 0]] /\
  generators (snd (zcall (RUniform bounds01 1%nat Random) (Generator 3) (World (fun i => Z.of_nat i) 0))) 3 = 4%Z.
Proof.
  split; [split; [easy|intros; lra]|]. split; [easy|]. split; [easy|]. split; [|reflexivity]. cbn. unfold scale. cbn. unfold Rltb. destruct (Rlt_dec 0 1) as [_|N]; [reflexivity|]. destruct N. lra.
Qed.
