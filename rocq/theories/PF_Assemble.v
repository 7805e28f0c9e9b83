(* Proofs about assemble_stacked_jacobian. *)
From Verif Require Import Common Sym_Model Sym_Spec Lin_Model Lin_Spec Lin_Proofs PF_Model.
From Coq Require Import Reals Lra.
Local Open Scope list_scope.

Definition val (J : matrix R) (i k : nat) : R := nth k (nth i J []) 0%R.

Lemma isnz_iff x : isnz x = true <-> x <> 0%R.
Proof. unfold isnz. destruct (Req_EM_T x 0); split; congruence. Qed.

Lemma combine_seq_nth {A} (l : list A) k i a : In (i, a) (combine (seq k (length l)) l) <-> k <= i /\ nth_error l (i - k) = Some a.
Proof.
  revert k. induction l as [|b l IH]; intro k; cbn [length seq combine].
  - split; [intros []|]. intros [_ H]. destruct (i - k); discriminate.
  - cbn [In]. rewrite IH. split.
    + intros [H|[H1 H2]].
      * injection H as -> ->. split; [lia|]. replace (i - i) with 0 by lia. reflexivity.
      * split; [lia|]. replace (i - k) with (S (i - S k)) by lia. exact H2.
    + intros [H1 H2]. destruct (Nat.eq_dec i k) as [->|N].
      * left. rewrite Nat.sub_diag in H2. injection H2 as ->. reflexivity.
      * right. split; [lia|]. replace (i - k) with (S (i - S k)) in H2 by lia. exact H2.
Qed.

Lemma row_slice (row : list R) lo n k : lo + n <= length row -> k < n -> nth_error (firstn n (skipn lo row)) k = nth_error row (lo + k).
Proof.
  intros H1 H2.
  assert (E : forall (l : list R) n k, k < n -> nth_error (firstn n l) k = nth_error l k).
  { induction l as [|x l IH]; intros n0 k0 H; destruct n0, k0; try lia; try reflexivity. cbn. apply IH. lia. }
  rewrite E by assumption. clear. revert row. induction lo as [|lo IH]; intro row; [reflexivity|].
  destruct row; [destruct k; reflexivity|]. cbn. apply IH.
Qed.
Lemma val_nth (J : matrix R) e c i k : has_shape J e c -> i < e -> k < c -> exists row, nth_error J i = Some row /\ nth_error row k = Some (val J i k).
Proof.
  intros [H1 H2] Hi Hk. destruct (nth_error J i) as [row|] eqn:E.
  - exists row. split; [reflexivity|]. unfold val. erewrite (nth_error_nth J i [] E).
    apply nth_error_nth'. rewrite (H2 row); [assumption|]. eapply nth_error_In, E.
  - apply nth_error_None in E. lia.
Qed.

Section Shape.
Variables (n e : nat).
Lemma nonzero_In J lo i j : has_shape J e (3 * n) -> lo + n <= 3 * n ->
  In (i, j) (nonzeros J lo n) <-> i < e /\ j < n /\ val J i (lo + j) <> 0%R.
Proof.
  intros HJ Hlo. unfold nonzeros. rewrite in_flat_map. destruct HJ as [HL HR]. split.
  - intros ((i' & row) & H1 & H2). cbn [fst snd] in H2. apply in_flat_map in H2. destruct H2 as ((j' & x) & H2 & H3).
    cbn [fst snd] in H3. destruct (isnz x) eqn:Ex; [|destruct H3]. destruct H3 as [H3|[]]. injection H3 as -> ->.
    apply (combine_seq_nth J 0) in H1. destruct H1 as [_ H1]. rewrite Nat.sub_0_r in H1.
    assert (Hrow : length row = 3 * n) by (apply HR; eapply nth_error_In, H1).
    assert (Hl : length (firstn n (skipn lo row)) = n) by (rewrite firstn_length, skipn_length; lia).
    rewrite <- Hl in H2 at 1. apply combine_seq_nth in H2. destruct H2 as [_ H2]. rewrite Nat.sub_0_r in H2.
    assert (Hj : j < n). { rewrite <- Hl. apply nth_error_Some. congruence. }
    rewrite row_slice in H2 by lia.
    split; [rewrite <- HL; apply nth_error_Some; congruence|]. split; [assumption|].
    unfold val. rewrite (nth_error_nth J i [] H1). rewrite (nth_error_nth row _ 0%R H2). now apply isnz_iff.
  - intros (Hi & Hj & Hv). destruct (val_nth J e (3 * n) i (lo + j) (conj HL HR) Hi ltac:(lia)) as (row & H1 & H2).
    assert (Hrow : length row = 3 * n) by (apply HR; eapply nth_error_In, H1).
    assert (Hl : length (firstn n (skipn lo row)) = n) by (rewrite firstn_length, skipn_length; lia).
    exists (i, row). split; [apply (combine_seq_nth J 0); rewrite Nat.sub_0_r; split; [lia|assumption]|].
    cbn [fst snd]. apply in_flat_map. exists (j, val J i (lo + j)). split.
    + rewrite <- Hl at 1. apply combine_seq_nth. rewrite Nat.sub_0_r. split; [lia|]. rewrite row_slice by lia. assumption.
    + cbn [fst snd]. apply isnz_iff in Hv. rewrite Hv. left. reflexivity.
Qed.

Lemma nodup_flat_map {A B} (f : A -> list B) (l : list A) : NoDup l -> (forall a, In a l -> NoDup (f a)) ->
  (forall a b x, In a l -> In b l -> In x (f a) -> In x (f b) -> a = b) -> NoDup (flat_map f l).
Proof.
  induction l as [|a l IH]; intros H1 H2 H3; cbn [flat_map]; [constructor|]. inversion H1; subst.
  apply NoDup_app_intro.
  - apply H2. left. reflexivity.
  - apply IH; [assumption| |].
    + intros b Hb. apply H2. right. assumption.
    + intros b c x Hb Hc. apply H3; right; assumption.
  - intros x Hx Hy. apply in_flat_map in Hy. destruct Hy as (b & Hb & Hy).
    assert (a = b) by (apply (H3 a b x); [left; reflexivity|right; assumption|assumption|assumption]). congruence.
Qed.
Lemma combine_seq_nodup {A} (l : list A) k m : NoDup (combine (seq k m) l).
Proof.
  revert k m. induction l as [|a l IH]; intros k m; destruct m; cbn [seq combine]; try constructor; [|apply IH].
  intro H. apply in_combine_l in H. apply in_seq in H. lia.
Qed.
Lemma combine_seq_fun {A} (l : list A) k m i a b : In (i, a) (combine (seq k m) l) -> In (i, b) (combine (seq k m) l) -> a = b.
Proof.
  revert k m. induction l as [|c l IH]; intros k m; destruct m; cbn [seq combine]; try (intros []; fail).
  intros [H|H] [H'|H'].
  - congruence.
  - injection H as -> ->. apply in_combine_l in H'. apply in_seq in H'. lia.
  - injection H' as -> ->. apply in_combine_l in H. apply in_seq in H. lia.
  - eapply IH; eassumption.
Qed.
Lemma nonzero_nodup J lo : NoDup (nonzeros J lo n).
Proof.
  unfold nonzeros. apply nodup_flat_map.
  - apply combine_seq_nodup.
  - intros (i & row) _. apply nodup_flat_map.
    + apply combine_seq_nodup.
    + intros (j & x) _. cbn [fst snd]. destruct (isnz x); repeat constructor. intros [].
    + intros (j & x) (j' & x') p H1 H2 H3 H4. cbn [fst snd] in *. destruct (isnz x); [|destruct H3]. destruct (isnz x'); [|destruct H4].
      destruct H3 as [<-|[]]. destruct H4 as [H4|[]]. injection H4 as ->. f_equal. eapply combine_seq_fun; eassumption.
  - intros (i & row) (i' & row') p H1 H2 H3 H4. apply in_flat_map in H3. apply in_flat_map in H4.
    destruct H3 as ((j & x) & _ & H3). destruct H4 as ((j' & x') & _ & H4). cbn [fst snd] in *.
    destruct (isnz x); [|destruct H3]. destruct (isnz x'); [|destruct H4].
    destruct H3 as [<-|[]]. destruct H4 as [H4|[]]. injection H4 as -> _. f_equal. eapply combine_seq_fun; eassumption.
Qed.

(* ---- the fill loop ---- *)
Definition trips (J : matrix R) (lo ro co : nat) (pat : list (nat * nat)) : list triple :=
  map (fun p => (ro + fst p, co + snd p, val J (fst p) (lo + snd p))) pat.
Lemma block_ok J lo ro co pat : has_shape J e (3 * n) -> (forall i j, In (i, j) pat -> i < e /\ lo + j < 3 * n) ->
  PF_Model.block J lo ro co pat = Ok (trips J lo ro co pat).
Proof.
  intros HJ H. unfold PF_Model.block, trips. induction pat as [|(i & j) pat IH]; [reflexivity|].
  cbn [mapM map]. destruct (H i j (or_introl eq_refl)) as [Hi Hj].
  destruct (val_nth J e (3 * n) i (lo + j) HJ Hi Hj) as (row & H1 & H2).
  unfold at_pos at 1. cbn [fst snd]. rewrite H1, H2. cbn [bind]. rewrite IH; [reflexivity|].
  intros i' j' H'. apply H. right. assumption.
Qed.
Lemma write_ok done vals rest :
  write (map Some done ++ repeat None (length vals + rest)) (length done) vals = Ok (map Some (done ++ vals) ++ repeat None rest).
Proof.
  unfold write. rewrite app_length, map_length, repeat_length.
  replace (Nat.leb _ _) with true by (symmetry; apply Nat.leb_le; lia). f_equal.
  rewrite firstn_app, map_length, Nat.sub_diag, firstn_O, app_nil_r.
  rewrite (firstn_all2 (map Some done)) by (rewrite map_length; lia).
  rewrite skipn_app, map_length. rewrite (skipn_all2 (map Some done)) by (rewrite map_length; lia).
  replace (length done + length vals - length done) with (length vals) by lia.
  rewrite repeat_app, skipn_app, repeat_length, Nat.sub_diag.
  rewrite (skipn_all2 (repeat None _)) by (rewrite repeat_length; lia). cbn [skipn app].
  now rewrite map_app, <- app_assoc.
Qed.
Variables (T : nat) (pm p0 pp : list (nat * nat)).
Hypothesis Hpm : forall i j, In (i, j) pm -> i < e /\ j < n.
Hypothesis Hp0 : forall i j, In (i, j) p0 -> i < e /\ j < n.
Hypothesis Hpp : forall i j, In (i, j) pp -> i < e /\ j < n.
Definition period_trips (t : nat) (J : matrix R) : list triple :=
  (if Nat.ltb 0 t then trips J 0 (t * e) ((t - 1) * n) pm else []) ++ trips J n (t * e) (t * n) p0 ++
  (if Nat.ltb t (T - 1) then trips J (2 * n) (t * e) ((t + 1) * n) pp else []).
Fixpoint all_trips (t : nat) (Js : list (matrix R)) : list triple :=
  match Js with [] => [] | J :: Js' => period_trips t J ++ all_trips (S t) Js' end.
Lemma trips_length J lo ro co pat : length (trips J lo ro co pat) = length pat.
Proof. apply map_length. Qed.

Lemma fill_period_ok t J done rest : has_shape J e (3 * n) ->
  fill_period T n e pm p0 pp t J (map Some done ++ repeat None (length (period_trips t J) + rest), length done) =
  Ok (map Some (done ++ period_trips t J) ++ repeat None rest, length (done ++ period_trips t J)).
Proof.
  intros HJ.
  assert (Bm : PF_Model.block J 0 (t * e) ((t - 1) * n) pm = Ok (trips J 0 (t * e) ((t - 1) * n) pm)).
  { apply block_ok; [assumption|]. intros i j H. apply Hpm in H. lia. }
  assert (B0 : PF_Model.block J n (t * e) (t * n) p0 = Ok (trips J n (t * e) (t * n) p0)).
  { apply block_ok; [assumption|]. intros i j H. apply Hp0 in H. lia. }
  assert (Bp : PF_Model.block J (2 * n) (t * e) ((t + 1) * n) pp = Ok (trips J (2 * n) (t * e) ((t + 1) * n) pp)).
  { apply block_ok; [assumption|]. intros i j H. apply Hpp in H. lia. }
  unfold fill_period, period_trips. cbv zeta.
  set (A := if Nat.ltb 0 t then trips J 0 (t * e) ((t - 1) * n) pm else []).
  set (C := if Nat.ltb t (T - 1) then trips J (2 * n) (t * e) ((t + 1) * n) pp else []).
  set (B := trips J n (t * e) (t * n) p0) in *.
  assert (S1 : (if Nat.ltb 0 t then
           b <- PF_Model.block J 0 (t * e) ((t - 1) * n) pm ;;
           buf <- write (map Some done ++ repeat None (length (A ++ B ++ C) + rest)) (length done) b ;; Ok (buf, length done + length pm)
         else Ok (map Some done ++ repeat None (length (A ++ B ++ C) + rest), length done)) =
         Ok (map Some (done ++ A) ++ repeat None (length (B ++ C) + rest), length (done ++ A))).
  { subst A. destruct (Nat.ltb 0 t).
    - rewrite Bm. cbn [bind]. rewrite (app_length (trips _ _ _ _ _)), <- Nat.add_assoc, write_ok. cbn [bind].
      rewrite (app_length done), trips_length. reflexivity.
    - rewrite app_nil_r. reflexivity. }
  cbn [fst snd] in *. match goal with |- bind ?x _ = _ => replace x with (@Ok (buffer * nat) (map Some (done ++ A) ++ repeat None (length (B ++ C) + rest), length (done ++ A))) by (symmetry; exact S1) end. cbn [bind fst snd]. rewrite B0. cbn [bind].
  rewrite (app_length B), <- Nat.add_assoc, write_ok. cbn [bind fst snd].
  replace (length (done ++ A) + length p0) with (length ((done ++ A) ++ B)) by (rewrite !app_length; subst B; rewrite trips_length; reflexivity).
  subst C. destruct (Nat.ltb t (T - 1)).
  - rewrite Bp. cbn [bind]. rewrite write_ok. cbn [bind]. rewrite <- !app_assoc.
    f_equal. f_equal. rewrite !app_length, !trips_length. lia.
  - rewrite !app_nil_r. cbn [length Nat.add]. rewrite <- !app_assoc. reflexivity.
Qed.
Lemma fill_all_ok Js : forall t done rest, (forall J, In J Js -> has_shape J e (3 * n)) ->
  fill_all T n e pm p0 pp t Js (map Some done ++ repeat None (length (all_trips t Js) + rest), length done) =
  Ok (map Some (done ++ all_trips t Js) ++ repeat None rest, length (done ++ all_trips t Js)).
Proof.
  induction Js as [|J Js IH]; intros t done rest H; cbn [fill_all all_trips].
  - rewrite app_nil_r. reflexivity.
  - rewrite app_length, <- Nat.add_assoc. rewrite fill_period_ok by (apply H; left; reflexivity). cbn [bind].
    rewrite IH by (intros J' H'; apply H; right; assumption). now rewrite <- app_assoc.
Qed.
Lemma all_trips_length Js : forall t, t + length Js = T -> 1 <= T ->
  length (all_trips t Js) = length Js * length p0 + (length Js - (if Nat.eqb t 0 then 1 else 0)) * length pm + (length Js - 1) * length pp.
Proof.
  induction Js as [|J Js IH]; intros t Ht HT; [reflexivity|].
  cbn [all_trips length] in *. rewrite app_length, IH by lia. unfold period_trips. rewrite !app_length, trips_length.
  set (k := length Js) in *. replace (S k - 1) with k by lia. cbn [Nat.eqb]. rewrite Nat.sub_0_r.
  destruct (Nat.ltb_spec 0 t) as [E1|E1]; destruct (Nat.ltb_spec t (T - 1)) as [E2|E2]; rewrite ?trips_length; cbn [length];
  destruct (Nat.eqb_spec t 0) as [E3|E3]; try lia.
  - destruct k as [|k']; [lia|]. replace (S k' - 1) with k' by lia. nia.
  - replace k with 0 by lia. cbn. nia.
  - destruct k as [|k']; [lia|]. replace (S k' - 1) with k' by lia. nia.
Qed.

(* ---- reading an entry ---- *)
Fixpoint tsum (l : list triple) (i j : nat) : R :=
  match l with
  | [] => 0%R
  | (r, c, x) :: l' => if (Nat.eqb r i && Nat.eqb c j)%bool then (x + tsum l' i j)%R else tsum l' i j
  end.
Lemma s_entry_some a b l i j : s_entry (Sparse a b (map Some l)) i j = tsum l i j.
Proof. unfold s_entry. cbn [s_data]. induction l as [|((r & c) & x) l IH]; [reflexivity|]. cbn. rewrite IH. reflexivity. Qed.
Lemma tsum_app l l' i j : tsum (l ++ l') i j = (tsum l i j + tsum l' i j)%R.
Proof. induction l as [|((r & c) & x) l IH]; cbn [app tsum]; [ring|]. rewrite IH. destruct (_ && _)%bool; ring. Qed.
Lemma tsum_none l i j : (forall r c x, In (r, c, x) l -> ~ (r = i /\ c = j)) -> tsum l i j = 0%R.
Proof.
  induction l as [|((r & c) & x) l IH]; intro H; cbn [tsum]; [reflexivity|].
  destruct (Nat.eqb r i && Nat.eqb c j)%bool eqn:E.
  - apply andb_true_iff in E. destruct E as [E1 E2]. apply Nat.eqb_eq in E1, E2. destruct (H r c x (or_introl eq_refl)). auto.
  - apply IH. intros r' c' x' H'. eapply H. right. eassumption.
Qed.
Lemma euclid a b i i' m : i < m -> i' < m -> a * m + i = b * m + i' -> a = b /\ i = i'.
Proof. intros H1 H2 H. assert (a = b) by nia. subst. split; [reflexivity|lia]. Qed.
Lemma tsum_trips J lo t s pat i j : NoDup pat -> (forall i j, In (i, j) pat -> i < e /\ j < n) ->
  tsum (trips J lo (t * e) (s * n) pat) (t * e + i) (s * n + j) =
  if in_dec (fun p q : nat * nat => ltac:(decide equality; apply Nat.eq_dec)) (i, j) pat then val J i (lo + j) else 0%R.
Proof.
  intros Hnd Hb. induction pat as [|(i' & j') pat IH]; cbn [trips map tsum]; [reflexivity|].
  inversion Hnd; subst. fold (trips J lo (t * e) (s * n) pat). cbn [fst snd].
  rewrite IH by (try assumption; intros; apply Hb; right; assumption). clear IH.
  destruct (Nat.eqb (t * e + i') (t * e + i) && Nat.eqb (s * n + j') (s * n + j))%bool eqn:E.
  - apply andb_true_iff in E. destruct E as [E1 E2]. apply Nat.eqb_eq in E1, E2. assert (i' = i) by lia. assert (j' = j) by lia. subst.
    destruct (in_dec _ (i, j) pat) as [Hin|Hin]; [contradiction|].
    destruct (in_dec _ (i, j) ((i, j) :: pat)) as [Hin'|Hin']; [ring|destruct Hin'; left; reflexivity].
  - assert (Hne : (i', j') <> (i, j)). { intro Heq. injection Heq as -> ->. rewrite !Nat.eqb_refl in E. discriminate. }
    destruct (in_dec _ (i, j) pat) as [Hin|Hin]; destruct (in_dec _ (i, j) ((i', j') :: pat)) as [Hin'|Hin']; try reflexivity.
    + destruct Hin'. right. assumption.
    + destruct Hin' as [?|?]; contradiction.
Qed.
Lemma tsum_trips_other J lo t ro s pat i j s' : (forall i j, In (i, j) pat -> i < e /\ j < n) -> j < n -> s' <> s ->
  tsum (trips J lo ro (s' * n) pat) (t * e + i) (s * n + j) = 0%R.
Proof.
  intros Hb Hj Hs. apply tsum_none. intros r c x H [H1 H2]. apply in_map_iff in H. destruct H as ((i' & j') & H & Hin).
  injection H as <- <- _. cbn [fst snd] in *. apply Hb in Hin. destruct (euclid s' s j' j n); lia.
Qed.
Lemma tsum_trips_row J lo t t' co pat i j k : (forall i j, In (i, j) pat -> i < e /\ j < n) -> i < e -> t' <> t ->
  k = t * e + i -> tsum (trips J lo (t' * e) co pat) k j = 0%R.
Proof.
  intros Hb Hi Ht ->. apply tsum_none. intros r c x H [H1 H2]. apply in_map_iff in H. destruct H as ((i' & j') & H & Hin).
  injection H as <- <- _. cbn [fst snd] in *. apply Hb in Hin. destruct (euclid t' t i' i e); lia.
Qed.
Hypotheses (Nm : NoDup pm) (N0 : NoDup p0) (Np : NoDup pp).
Definition mem (p : nat * nat) (pat : list (nat * nat)) : bool :=
  if in_dec (fun p q : nat * nat => ltac:(decide equality; apply Nat.eq_dec)) p pat then true else false.
Lemma mem_In p pat : mem p pat = true <-> In p pat.
Proof. unfold mem. destruct (in_dec _ p pat); split; congruence. Qed.
Definition expected (J : matrix R) (t s i j : nat) : R :=
  if Nat.eqb (s + 1) t then (if mem (i, j) pm then val J i j else 0)
  else if Nat.eqb s t then (if mem (i, j) p0 then val J i (n + j) else 0)
  else if Nat.eqb s (t + 1) then (if mem (i, j) pp then val J i (2 * n + j) else 0)
  else 0%R.
Lemma period_entry t J s i j : i < e -> j < n -> s < T -> t < T ->
  tsum (period_trips t J) (t * e + i) (s * n + j) = expected J t s i j.
Proof.
  intros Hi Hj Hs Ht. unfold period_trips, expected. rewrite !tsum_app.
  assert (Em : tsum (if Nat.ltb 0 t then trips J 0 (t * e) ((t - 1) * n) pm else []) (t * e + i) (s * n + j) =
               if Nat.eqb (s + 1) t then (if mem (i, j) pm then val J i j else 0)%R else 0%R).
  { destruct (Nat.ltb 0 t) eqn:E; [apply Nat.ltb_lt in E|apply Nat.ltb_ge in E].
    - destruct (Nat.eqb (s + 1) t) eqn:E'; [apply Nat.eqb_eq in E'|apply Nat.eqb_neq in E'].
      + replace (t - 1) with s by lia. rewrite tsum_trips by assumption. unfold mem. destruct (in_dec _ (i, j) pm); reflexivity.
      + apply tsum_trips_other; try assumption. lia.
    - destruct (Nat.eqb (s + 1) t) eqn:E'; [apply Nat.eqb_eq in E'; lia|reflexivity]. }
  assert (E0 : tsum (trips J n (t * e) (t * n) p0) (t * e + i) (s * n + j) =
               if Nat.eqb s t then (if mem (i, j) p0 then val J i (n + j) else 0)%R else 0%R).
  { destruct (Nat.eqb s t) eqn:E'; [apply Nat.eqb_eq in E'; subst|apply Nat.eqb_neq in E'].
    - rewrite tsum_trips by assumption. unfold mem. destruct (in_dec _ (i, j) p0); reflexivity.
    - apply tsum_trips_other; try assumption. lia. }
  assert (Ep : tsum (if Nat.ltb t (T - 1) then trips J (2 * n) (t * e) ((t + 1) * n) pp else []) (t * e + i) (s * n + j) =
               if Nat.eqb s (t + 1) then (if mem (i, j) pp then val J i (2 * n + j) else 0)%R else 0%R).
  { destruct (Nat.ltb t (T - 1)) eqn:E; [apply Nat.ltb_lt in E|apply Nat.ltb_ge in E].
    - destruct (Nat.eqb s (t + 1)) eqn:E'; [apply Nat.eqb_eq in E'; subst|apply Nat.eqb_neq in E'].
      + rewrite tsum_trips by assumption. unfold mem. destruct (in_dec _ (i, j) pp); reflexivity.
      + apply tsum_trips_other; try assumption. lia.
    - destruct (Nat.eqb s (t + 1)) eqn:E'; [apply Nat.eqb_eq in E'; lia|reflexivity]. }
  rewrite Em, E0, Ep.
  destruct (Nat.eqb (s + 1) t) eqn:A1; destruct (Nat.eqb s t) eqn:A2; destruct (Nat.eqb s (t + 1)) eqn:A3;
    try apply Nat.eqb_eq in A1; try apply Nat.eqb_eq in A2; try apply Nat.eqb_eq in A3; try lia; ring.
Qed.
Lemma other_period t' J t s i j : i < e -> t' <> t -> tsum (period_trips t' J) (t * e + i) (s * n + j) = 0%R.
Proof.
  intros Hi Ht. unfold period_trips. rewrite !tsum_app.
  rewrite (tsum_trips_row J n t t' _ p0 i _ _ Hp0 Hi Ht eq_refl).
  destruct (Nat.ltb 0 t'); destruct (Nat.ltb t' (T - 1));
    rewrite ?(tsum_trips_row J 0 t t' _ pm i _ _ Hpm Hi Ht eq_refl), ?(tsum_trips_row J (2 * n) t t' _ pp i _ _ Hpp Hi Ht eq_refl); cbn [tsum]; ring.
Qed.
Lemma all_entry Js : forall t0 t s i j, t0 + length Js = T -> i < e -> j < n -> s < T -> t < T ->
  tsum (all_trips t0 Js) (t * e + i) (s * n + j) = if Nat.leb t0 t then expected (nth (t - t0) Js []) t s i j else 0%R.
Proof.
  induction Js as [|J Js IH]; intros t0 t s i j HT Hi Hj Hs Ht; cbn [all_trips].
  - cbn [length] in HT. replace (Nat.leb t0 t) with false by (symmetry; apply Nat.leb_gt; lia). reflexivity.
  - cbn [length] in HT. rewrite tsum_app, IH by lia. destruct (Nat.eq_dec t0 t) as [->|N].
    + rewrite period_entry by assumption. rewrite Nat.leb_refl, Nat.sub_diag. cbn [nth].
      replace (Nat.leb (S t) t) with false by (symmetry; apply Nat.leb_gt; lia). ring.
    + rewrite other_period by assumption. destruct (Nat.leb t0 t) eqn:E; [apply Nat.leb_le in E|apply Nat.leb_gt in E].
      * replace (Nat.leb (S t0) t) with true by (symmetry; apply Nat.leb_le; lia).
        replace (t - t0) with (S (t - S t0)) by lia. cbn [nth]. ring.
      * replace (Nat.leb (S t0) t) with false by (symmetry; apply Nat.leb_gt; lia). ring.
Qed.
End Shape.

(* The assembled matrix, exactly: the period blocks masked by the pattern of the first period's Jacobian. *)
Lemma assemble_spec Js n e J0 rest : Js = J0 :: rest -> (forall J, In J Js -> has_shape J e (3 * n)) ->
  exists M, assemble Js n e (length Js) = Ok M /\ s_rows M = length Js * e /\ s_cols M = length Js * n /\
    (forall o, In o (s_data M) -> o <> None) /\
    forall t s i j, t < length Js -> s < length Js -> i < e -> j < n ->
      s_entry M (t * e + i) (s * n + j) =
      let J := nth t Js [] in
      let keep k := if Req_EM_T (val J0 i k) 0 then 0%R else val J i k in
      if Nat.eqb (s + 1) t then keep j else if Nat.eqb s t then keep (n + j) else if Nat.eqb s (t + 1) then keep (2 * n + j) else 0%R.
Proof.
  intros EJ HS. set (T := length Js). unfold assemble. rewrite EJ. rewrite <- EJ.
  set (pm := nonzeros J0 0 n). set (p0 := nonzeros J0 n n). set (pp := nonzeros J0 (2 * n) n).
  assert (HJ0 : has_shape J0 e (3 * n)) by (apply HS; rewrite EJ; left; reflexivity).
  assert (Hm : forall i j, In (i, j) pm <-> i < e /\ j < n /\ val J0 i j <> 0%R) by (intros; apply (nonzero_In n e J0 0); [assumption|lia]).
  assert (H0 : forall i j, In (i, j) p0 <-> i < e /\ j < n /\ val J0 i (n + j) <> 0%R) by (intros; apply (nonzero_In n e J0 n); [assumption|lia]).
  assert (Hp : forall i j, In (i, j) pp <-> i < e /\ j < n /\ val J0 i (2 * n + j) <> 0%R) by (intros; apply (nonzero_In n e J0 (2 * n)); [assumption|lia]).
  assert (Bm : forall i j, In (i, j) pm -> i < e /\ j < n) by (intros i j H; apply Hm in H; tauto).
  assert (B0 : forall i j, In (i, j) p0 -> i < e /\ j < n) by (intros i j H; apply H0 in H; tauto).
  assert (Bp : forall i j, In (i, j) pp -> i < e /\ j < n) by (intros i j H; apply Hp in H; tauto).
  assert (HT : 1 <= T) by (subst T; rewrite EJ; cbn; lia).
  assert (HL : length (all_trips n e T pm p0 pp 0 Js) = T * length p0 + (T - 1) * length pm + (T - 1) * length pp).
  { rewrite all_trips_length by (subst T; lia). reflexivity. }
  pose proof (fill_all_ok n e T pm p0 pp Bm B0 Bp Js 0 [] 0 HS) as HF. cbn [map app length] in HF.
  rewrite Nat.add_0_r, HL in HF. cbv zeta. rewrite HF. cbn [bind fst]. rewrite app_nil_r.
  eexists. split; [reflexivity|]. split; [reflexivity|]. split; [reflexivity|]. split.
  - intros o Ho. cbn [s_data] in Ho. apply in_map_iff in Ho. destruct Ho as (x & <- & _). discriminate.
  - intros t s i j Ht Hs Hi Hj. rewrite s_entry_some.
    rewrite (all_entry n e T pm p0 pp Bm B0 Bp (nonzero_nodup n J0 0) (nonzero_nodup n J0 n) (nonzero_nodup n J0 (2 * n)) Js 0 t s i j) by (subst T; lia).
    rewrite Nat.sub_0_r. cbn [Nat.leb]. unfold expected. cbn zeta.
    assert (K : forall pat k, (In (i, j) pat <-> i < e /\ j < n /\ val J0 i k <> 0%R) ->
      (if mem (i, j) pat then val (nth t Js []) i k else 0%R) = if Req_EM_T (val J0 i k) 0 then 0%R else val (nth t Js []) i k).
    { intros pat k HK. destruct (mem (i, j) pat) eqn:E.
      - apply mem_In, HK in E. destruct (Req_EM_T _ 0); [tauto|reflexivity].
      - destruct (Req_EM_T _ 0) as [|N]; [reflexivity|]. assert (In (i, j) pat) by (apply HK; tauto).
        apply mem_In in H. congruence. }
    rewrite (K pm j (Hm i j)), (K p0 (n + j) (H0 i j)), (K pp (2 * n + j) (Hp i j)). reflexivity.
Qed.
