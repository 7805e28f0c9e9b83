(* C152: how many roots are called explosive. *)
From Coq Require Import Reals List ZArith Lia Lra Permutation.
From Verif Require Import Nun_Model.
Import ListNotations.
Open Scope R_scope.

(* --- specification --- *)

(* the root beta/alpha of a pair is larger than c in modulus (a zero alpha with a non-zero beta is an infinite root) *)
Definition above (c : R) (ab : cplx * cplx) : Prop := c * cabs (fst ab) < cabs (snd ab).

(* n is the number of members of l that satisfy P *)
Inductive number {A} (P : A -> Prop) : list A -> nat -> Prop :=
| number_nil : number P [] 0
| number_yes x l n : P x -> number P l n -> number P (x :: l) (S n)
| number_no x l n : ~ P x -> number P l n -> number P (x :: l) n.

(* both entries of the pair are below the tolerance *)
Definition coincident (realsmall : R) (ab : cplx * cplx) : Prop :=
  cabs (fst ab) < realsmall /\ cabs (snd ab) < realsmall.

(* the pair's root is in the narrow ring between the unit circle and 1 + realsmall *)
Definition in_ring (realsmall : R) (ab : cplx * cplx) : Prop := above 1 ab /\ ~ above (1 + realsmall) ab.

(* --- facts --- *)

Lemma ltb_iff x y : ltb x y = true <-> x < y.
Proof. unfold ltb. destruct (Rlt_dec x y); split; intros; auto; try discriminate; contradiction. Qed.
Lemma ltb_not x y : ltb x y = false <-> ~ x < y.
Proof. unfold ltb. destruct (Rlt_dec x y); split; intros; auto; try discriminate; contradiction. Qed.
Lemma leb_iff x y : leb x y = true <-> x <= y.
Proof. unfold leb. destruct (Rle_dec x y); split; intros; auto; try discriminate; contradiction. Qed.
Lemma leb_not x y : leb x y = false <-> ~ x <= y.
Proof. unfold leb. destruct (Rle_dec x y); split; intros; auto; try discriminate; contradiction. Qed.

Lemma cabs_pos z : 0 <= cabs z.
Proof. apply sqrt_pos. Qed.

Lemma number_det {A} (P : A -> Prop) l n m : number P l n -> number P l m -> n = m.
Proof.
  intros H; revert m; induction H; intros m K; inversion K; subst; auto; try contradiction.
Qed.

Lemma number_iff {A} (P Q : A -> Prop) l n : (forall x, In x l -> (P x <-> Q x)) -> number P l n -> number Q l n.
Proof.
  intros E H; induction H.
  - constructor.
  - constructor; [apply E; [left; auto | auto] | apply IHnumber; intros; apply E; right; auto].
  - apply number_no; [intros K; apply H; apply E; [left; auto | auto] | apply IHnumber; intros; apply E; right; auto].
Qed.

Lemma number_le {A} (P Q : A -> Prop) l n m :
  (forall x, In x l -> P x -> Q x) -> number P l n -> number Q l m -> (n <= m)%nat.
Proof.
  intros E H; revert m; induction H; intros m K; inversion K; subst.
  - lia.
  - apply le_n_S. apply IHnumber; auto. intros; apply E; [right; auto | auto].
  - exfalso. apply H3. apply E; [left; auto | auto].
  - apply le_S. apply IHnumber; auto. intros; apply E; [right; auto | auto].
  - apply IHnumber; auto. intros; apply E; [right; auto | auto].
Qed.

Lemma number_total c l : exists n, number (above c) l n.
Proof.
  induction l as [|x l [n H]]. { exists 0%nat; constructor. }
  destruct (Rlt_dec (c * cabs (fst x)) (cabs (snd x))).
  - exists (S n). constructor; auto.
  - exists n. apply number_no; auto.
Qed.

Lemma number_perm {A} (P : A -> Prop) l l' n : Permutation l l' -> number P l n -> number P l' n.
Proof.
  intros H; revert n; induction H; intros n K; auto.
  - inversion K; subst; constructor; auto.
  - inversion K as [|? ? ? Px Kx|? ? ? Px Kx]; subst; inversion Kx; subst;
      repeat first [apply number_yes; [assumption|] | apply number_no; [assumption|]]; assumption.
Qed.

Lemma number_app {A} (P : A -> Prop) l l' n m : number P l n -> number P l' m -> number P (l ++ l') (n + m).
Proof. intros H K; induction H; cbn [app Nat.add]; auto; constructor; auto. Qed.

Lemma above_mono c d ab : c <= d -> above d ab -> above c ab.
Proof. unfold above. intros H K. pose proof (cabs_pos (fst ab)). nra. Qed.

Lemma turn_zxz cd rs s ab : zxz_of (turn cd rs s ab) = true <-> coincident rs ab.
Proof.
  unfold turn, coincident. cbn [zxz_of]. rewrite Bool.andb_true_iff, !ltb_iff. tauto.
Qed.

Lemma fold_zxz cd rs l s x :
  zxz_of (fold_left (turn cd rs) (l ++ [x]) s) = true <-> coincident rs x.
Proof. rewrite fold_left_app. cbn [fold_left]. apply turn_zxz. Qed.

Lemma fold_given rs l : forall s, exists n, number (above (div_of s)) l n /\
  div_of (fold_left (turn false rs) l s) = div_of s /\
  n_unstable_of (fold_left (turn false rs) l s) = (n_unstable_of s + n)%nat.
Proof.
  induction l as [|ab l IH]; intros s.
  - exists 0%nat. cbn [fold_left]. split; [constructor | split; [auto | lia]].
  - cbn [fold_left]. destruct (IH (turn false rs s ab)) as (n & N & E1 & E2).
    rewrite E1, E2. clear E1 E2 IH.
    assert (D : div_of (turn false rs s ab) = div_of s) by reflexivity.
    rewrite D in N |- *.
    unfold turn at 1. cbn [n_unstable_of andb].
    destruct (ltb (div_of s * cabs (fst ab)) (cabs (snd ab))) eqn:E.
    + apply ltb_iff in E. exists (S n). split; [constructor; auto | split; [auto | lia]].
    + apply ltb_not in E. exists n. split; [apply number_no; auto | split; [auto | lia]].
Qed.

Lemma turn_div rs s ab : 0 <= rs -> 1 < div_of s ->
  1 < div_of (turn true rs s ab) <= div_of s /\
  (above (1 + rs) ab -> above (div_of (turn true rs s ab)) ab) /\
  (div_of (turn true rs s ab) = div_of s \/
   exists r, cabs (snd ab) = r * cabs (fst ab) /\ 0 < cabs (fst ab) /\ 1 + rs < r <= div_of s /\
             div_of (turn true rs s ab) = (1 + r) / 2).
Proof.
  intros Hr Hd. unfold turn, above. cbn [div_of andb].
  pose proof (cabs_pos (fst ab)) as Pa. pose proof (cabs_pos (snd ab)) as Pb.
  set (a := cabs (fst ab)) in *. set (b := cabs (snd ab)) in *.
  destruct (ltb 0 a) eqn:E.
  - apply ltb_iff in E.
    assert (B : b = b / a * a) by (field; lra).
    destruct (ltb (1 + rs) (b / a)) eqn:E1; cbn [andb].
    + apply ltb_iff in E1. destruct (leb (b / a) (div_of s)) eqn:E2.
      * apply leb_iff in E2. split; [lra | split].
        -- intros _. rewrite B at 2. apply Rmult_lt_compat_r; lra.
        -- right. exists (b / a). repeat split; auto; lra.
      * apply leb_not in E2. split; [lra | split; [|auto]].
        intros _. rewrite B. apply Rmult_lt_compat_r; lra.
    + apply ltb_not in E1. split; [lra | split; [|auto]].
      intros K. exfalso. apply E1. apply Rmult_lt_reg_r with a; auto. rewrite <- B. auto.
  - apply ltb_not in E. assert (a = 0) by lra. split; [lra | split; [|auto]].
    rewrite H, !Rmult_0_r. auto.
Qed.

Lemma turn_count cd rs s ab :
  (above (div_of (turn cd rs s ab)) ab /\ n_unstable_of (turn cd rs s ab) = S (n_unstable_of s)) \/
  (~ above (div_of (turn cd rs s ab)) ab /\ n_unstable_of (turn cd rs s ab) = n_unstable_of s).
Proof.
  unfold above. unfold turn at 2 4. cbn [n_unstable_of].
  match goal with |- context [if ltb ?x ?y then _ else _] => destruct (ltb x y) eqn:E end.
  - left. split; auto. apply ltb_iff in E. exact E.
  - right. split; auto. apply ltb_not in E. exact E.
Qed.

(* what the loop does without a given cutoff, from any state *)
Lemma fold_auto rs l : 0 <= rs -> forall s, 1 < div_of s ->
  let s' := fold_left (turn true rs) l s in
  1 < div_of s' <= div_of s /\
  (forall ab, In ab l -> above (1 + rs) ab -> above (div_of s') ab) /\
  (div_of s' = div_of s \/
   exists ab r, In ab l /\ cabs (snd ab) = r * cabs (fst ab) /\ 0 < cabs (fst ab) /\
                1 + rs < r <= div_of s /\ div_of s' = (1 + r) / 2) /\
  (forall lo mid hi, number (above (1 + rs)) l lo -> number (above (div_of s')) l mid -> number (above 1) l hi ->
     (n_unstable_of s + lo <= n_unstable_of s')%nat /\
     (n_unstable_of s' <= n_unstable_of s + mid)%nat /\ (mid <= hi)%nat).
Proof.
  intros Hr. induction l as [|ab l IH]; intros s Hd; cbn [fold_left]; cbv zeta.
  - split; [lra | split; [intros ab [] | split; [auto|]]].
    intros lo mid hi A B C. inversion A; inversion B; inversion C; subst. lia.
  - destruct (turn_div rs s ab Hr Hd) as (D1 & D2 & D3).
    destruct (IH (turn true rs s ab) (proj1 D1)) as (I1 & I2 & I3 & I4). clear IH.
    set (s1 := turn true rs s ab) in *. set (s' := fold_left (turn true rs) l s1) in *.
    split; [lra | split; [|split]].
    + intros x [<- | I] K.
      * apply above_mono with (div_of s1); [lra | auto].
      * auto.
    + destruct I3 as [E | (x & r & J1 & J2 & J3 & J4 & J5)].
      * destruct D3 as [E1 | (r & J1 & J2 & J3 & J4)]; [left; congruence |].
        right. exists ab, r. split; [left; auto|]. rewrite E. auto.
      * right. exists x, r. split; [right; auto|]. repeat split; auto; lra.
    + intros lo mid hi A B C.
      assert (M : (mid <= hi)%nat).
      { apply (number_le _ _ _ _ _) with (2 := B) (3 := C). intros x _ K. apply above_mono with (div_of s'); [lra | auto]. }
      destruct (turn_count true rs s ab) as [(P & E) | (P & E)]; fold s1 in P, E.
      * inversion B as [|? ? mid' Pm Km|? ? mid' Pm Km]; subst.
        2: { exfalso. apply Pm. apply above_mono with (div_of s1); [lra | auto]. }
        inversion C as [|? ? hi' Ph Kh|? ? hi' Ph Kh]; subst.
        2: { exfalso. apply Ph. apply above_mono with (div_of s1); [lra | auto]. }
        inversion A as [|? ? lo' Pl Kl|? ? lo' Pl Kl]; subst;
          destruct (I4 _ _ _ Kl Km Kh) as (J1 & J2 & _); lia.
      * inversion A as [|? ? lo' Pl Kl|? ? lo' Pl Kl]; subst.
        { exfalso. auto. }
        inversion B as [|? ? mid' Pm Km|? ? mid' Pm Km]; subst;
        inversion C as [|? ? hi' Ph Kh|? ? hi' Ph Kh]; subst;
          destruct (I4 _ _ _ Kl Km Kh) as (J1 & J2 & _); lia.
Qed.

(* --- theorems --- *)

(* With a cutoff given, the cutoff is handed back, and the count is the number of pairs whose root is above it. *)
Theorem C152_given_cutoff : forall pairs d realsmall,
  exists n z, determine_n_unstable pairs (Some d) realsmall = (d, n, z) /\ number (above d) pairs n.
Proof.
  intros l d rs. unfold determine_n_unstable, core.
  destruct (fold_given rs l (State d 0 false)) as (n & N & E1 & E2).
  rewrite E1, E2. cbn [div_of n_unstable_of] in *. eexists _, _. split; [reflexivity | auto].
Qed.

(* Without one: the reported cutoff is in (1, 1.01]; it is 1.01 or half-way between 1 and a root that lies between
   1 + realsmall and 1.01; no root lies between 1 + realsmall and the cutoff; and the count is at least the number of
   roots above 1 + realsmall, at most the number of roots above the cutoff, itself at most the number outside
   the unit circle. *)
Theorem C152_inferred_cutoff : forall pairs realsmall, 0 <= realsmall ->
  exists d n z, determine_n_unstable pairs None realsmall = (d, n, z) /\
  1 < d <= 101 / 100 /\
  (d = 101 / 100 \/
   exists ab r, In ab pairs /\ cabs (snd ab) = r * cabs (fst ab) /\ 0 < cabs (fst ab) /\
                1 + realsmall < r <= 101 / 100 /\ d = (1 + r) / 2) /\
  (forall ab, In ab pairs -> above (1 + realsmall) ab -> above d ab) /\
  (forall lo mid hi, number (above (1 + realsmall)) pairs lo -> number (above d) pairs mid ->
     number (above 1) pairs hi -> (lo <= n <= mid /\ mid <= hi)%nat).
Proof.
  intros l rs Hr. unfold determine_n_unstable, core. cbv zeta.
  set (s0 := State (101 / 100) 0 false).
  assert (H0 : 1 < div_of s0) by (cbn [s0 div_of]; lra).
  destruct (fold_auto rs l Hr s0 H0) as (A & B & C & D).
  eexists _, _, _. split; [reflexivity|]. cbn [s0 div_of n_unstable_of Nat.add] in *.
  split; [lra | split; [auto | split; [auto |]]].
  intros lo mid hi P Q S. specialize (D _ _ _ P Q S). lia.
Qed.

(* So, when no root lies in the ring between the unit circle and 1 + realsmall, the count is the number of roots
   outside the unit circle, whatever the cutoff found and whatever the order of the pairs. *)
Theorem C152_count_outside : forall pairs realsmall, 0 <= realsmall ->
  (forall ab, In ab pairs -> ~ in_ring realsmall ab) ->
  exists d n z, determine_n_unstable pairs None realsmall = (d, n, z) /\
    number (above 1) pairs n /\ number (above d) pairs n.
Proof.
  intros l rs Hr R. destruct (C152_inferred_cutoff l rs Hr) as (d & n & z & E & A & _ & B & C).
  exists d, n, z. split; [exact E|].
  destruct (number_total (1 + rs) l) as [lo Nlo]. destruct (number_total d l) as [mid Nm].
  destruct (number_total 1 l) as [hi Nh].
  assert (Q : number (above 1) l lo).
  { apply number_iff with (2 := Nlo). intros x I. split.
    - apply above_mono. lra.
    - intros K. destruct (Rlt_dec ((1 + rs) * cabs (fst x)) (cabs (snd x))); auto.
      exfalso. apply (R x I). split; auto. }
  specialize (C _ _ _ Nlo Nm Nh). pose proof (number_det _ _ _ _ Q Nh) as ->.
  assert (n = hi) by lia. assert (mid = hi) by lia. subst. auto.
Qed.

Theorem C152_count_any_order : forall pairs pairs' realsmall, 0 <= realsmall ->
  (forall ab, In ab pairs -> ~ in_ring realsmall ab) -> Permutation pairs pairs' ->
  snd (fst (determine_n_unstable pairs None realsmall)) = snd (fst (determine_n_unstable pairs' None realsmall)).
Proof.
  intros l l' rs Hr R P.
  destruct (C152_count_outside l rs Hr R) as (d & n & z & E & A & _).
  destruct (C152_count_outside l' rs Hr) as (d' & n' & z' & E' & A' & _).
  { intros x I. apply R. apply Permutation_in with l'; auto. apply Permutation_sym; auto. }
  rewrite E, E'. cbn [fst snd]. apply number_det with (P := above 1) (l := l'); auto.
  apply number_perm with l; auto.
Qed.

(* The third answer looks at the last pair only. *)
Theorem C152_coincident_last : forall pairs last div realsmall,
  snd (determine_n_unstable (pairs ++ [last]) div realsmall) = true <-> coincident realsmall last.
Proof.
  intros l x [d|] rs; unfold determine_n_unstable, core; cbn [snd]; apply fold_zxz.
Qed.

(* The solver's own loop: it signals a coincident pair wherever it is; and if there is none, its count is the number of
   roots on or outside the unit circle. *)
Theorem C152_solver_count : forall pairs realsmall,
  exists n z, solver_count pairs realsmall = (n, z) /\
    (z = true <-> exists ab, In ab pairs /\ coincident realsmall ab) /\
    (z = false -> number (fun ab => cabs (fst ab) <= cabs (snd ab)) pairs n).
Proof.
  intros l rs. unfold solver_count.
  assert (G : forall s, exists n z, fold_left (solver_turn rs) l s = ((fst s + n)%nat, z) /\
     (z = true <-> snd s = true \/ exists ab, In ab l /\ coincident rs ab) /\
     (z = false -> number (fun ab => cabs (fst ab) <= cabs (snd ab)) l n)).
  { induction l as [|ab l IH]; intros [k z]; cbn [fold_left].
    - exists 0%nat, z. cbn [fst snd]. rewrite Nat.add_0_r. split; [auto | split].
      + split; [auto | intros [H | (x & [] & _)]; auto].
      + constructor.
    - destruct (IH (solver_turn rs (k, z) ab)) as (n & z' & E & Z & C). clear IH. rewrite E.
      unfold solver_turn in Z |- *. cbn [fst snd] in Z |- *.
      set (a := cabs (fst ab)) in *. set (b := cabs (snd ab)) in *.
      assert (ZZ : z' = true <-> z = true \/ exists x, In x (ab :: l) /\ coincident rs x).
      { rewrite Z. destruct (andb (ltb a rs) (ltb b rs)) eqn:F.
        - apply Bool.andb_true_iff in F. rewrite !ltb_iff in F. split; auto. intros _. right. exists ab.
          split; [left; auto | exact F].
        - split.
          + intros [H | (x & I & H)]; auto. right. exists x. split; [right; auto | auto].
          + intros [H | (x & [<- | I] & H)]; auto.
            * exfalso. destruct H as [H1 H2]. fold a in H1. fold b in H2. apply ltb_iff in H1, H2. rewrite H1, H2 in F. discriminate F.
            * right. exists x. auto. }
      destruct (orb (andb (ltb b rs) (leb rs a)) (andb (leb rs b) (ltb b a))) eqn:F; cbn [negb].
      + exists n, z'. split; [auto | split; [auto|]]. intros F'. apply number_no; auto.
        fold a b. apply Bool.orb_true_iff in F. rewrite !Bool.andb_true_iff, !ltb_iff, !leb_iff in F. lra.
      + exists (S n), z'. split; [f_equal; lia | split; [auto|]]. intros F'. apply number_yes; auto.
        fold a b. destruct (Rle_dec a b); auto. exfalso.
        assert (N : ~ coincident rs ab).
        { intros K. assert (z' = true) by (apply ZZ; right; exists ab; split; [left; auto | auto]). congruence. }
        apply Bool.orb_false_iff in F. rewrite !Bool.andb_false_iff, !ltb_not, !leb_not in F.
        apply N. split; fold a; fold b; lra. }
  destruct (G (0%nat, false)) as (n & z & E & Z & C). exists n, z. cbn [fst snd Nat.add] in *.
  split; [exact E | split; [|exact C]]. rewrite Z. split; [intros [H|]; [discriminate H | auto] | auto].
Qed.

(* The two disagree exactly on the unit circle: with no coincident pair and no root in the ring, the solver counts what
   determine_n_unstable counts, plus the unit roots. *)
Theorem C152_solver_and_helper : forall pairs realsmall, 0 <= realsmall ->
  (forall ab, In ab pairs -> ~ in_ring realsmall ab) ->
  (forall ab, In ab pairs -> ~ coincident realsmall ab) ->
  forall units, number (fun ab => cabs (fst ab) = cabs (snd ab)) pairs units ->
  fst (solver_count pairs realsmall) =
    (snd (fst (determine_n_unstable pairs None realsmall)) + units)%nat.
Proof.
  intros l rs Hr R N u U.
  destruct (C152_count_outside l rs Hr R) as (d & n & z & E & A & _). rewrite E. cbn [fst snd].
  destruct (C152_solver_count l rs) as (m & z' & E' & Z & C). rewrite E'. cbn [fst].
  assert (z' = false).
  { destruct z'; auto. destruct (proj1 Z eq_refl) as (x & I & K). exfalso. apply (N x I K). }
  specialize (C H). clear - A C U. revert m u A C U.
  assert (G : forall m u, number (above 1) l n -> number (fun ab => cabs (fst ab) <= cabs (snd ab)) l m ->
     number (fun ab => cabs (fst ab) = cabs (snd ab)) l u -> m = (n + u)%nat).
  2: { intros; apply G; auto. }
  revert n. induction l as [|x l IH]; intros n m u A C U.
  - inversion A; inversion C; inversion U; subst; auto.
  - inversion A as [|? ? a' Pa Ka|? ? a' Pa Ka]; inversion C as [|? ? c' Pc Kc|? ? c' Pc Kc];
      inversion U as [|? ? u' Pu Ku|? ? u' Pu Ku]; subst; unfold above in Pa;
      rewrite (IH _ _ _ Ka Kc Ku); try lia; exfalso; lra.
Qed.

(* The rows are split into two consecutive parts for every count; with a count between 0 and the number of rows,
   the second part has exactly that many rows. *)
Theorem C152_split : forall (A : Type) (rows : list A) n,
  fst (split_rows rows n) ++ snd (split_rows rows n) = rows /\
  ((0 <= n <= Z.of_nat (length rows))%Z -> Z.of_nat (length (snd (split_rows rows n))) = n).
Proof.
  intros A rows n. unfold split_rows, upto, from. cbn [fst snd]. split; [apply firstn_skipn|].
  intros H. rewrite skipn_length. unfold bound.
  destruct (Z.ltb_spec (Z.of_nat (length rows) - n) 0); lia.
Qed.

(* --- cases, and what is not true --- *)

Definition real (x : R) : cplx := (x, 0).
Lemma cabs_real x : 0 <= x -> cabs (real x) = x.
Proof. intros H. unfold cabs, real. cbn [fst snd]. rewrite Rmult_0_l, Rplus_0_r. apply sqrt_square. auto. Qed.

Definition root (x : R) : cplx * cplx := (real 1, real x).
Lemma above_root c x : 0 <= x -> (above c (root x) <-> c < x).
Proof. intros H. unfold above, root. cbn [fst snd]. rewrite !cabs_real by lra. lra. Qed.
Lemma turn_root rs s x : 0 <= x ->
  turn true rs s (root x) =
  let div := if andb (ltb (1 + rs) x) (leb x (div_of s)) then / 2 * (1 + x) else div_of s in
  State div (if ltb div x then S (n_unstable_of s) else n_unstable_of s) (andb (ltb 1 rs) (ltb x rs)).
Proof.
  intros H. unfold turn, root. cbn [fst snd]. rewrite !cabs_real by lra.
  assert (E : ltb 0 1 = true) by (apply ltb_iff; lra). rewrite E. cbn [andb].
  unfold Rdiv. rewrite Rinv_1, !Rmult_1_r. cbv zeta.
  destruct (andb (ltb (1 + rs) x) (leb x (div_of s))); rewrite ?Rmult_1_r; reflexivity.
Qed.

Ltac decide_ifs := cbn [andb orb negb div_of n_unstable_of zxz_of fst snd];
  repeat match goal with
  | |- context [ltb ?x ?y] =>
      first [ rewrite (proj2 (ltb_iff x y)) by lra | rewrite (proj2 (ltb_not x y)) by lra ]; cbn [andb orb negb div_of n_unstable_of zxz_of fst snd]
  | |- context [leb ?x ?y] =>
      first [ rewrite (proj2 (leb_iff x y)) by lra | rewrite (proj2 (leb_not x y)) by lra ]; cbn [andb orb negb div_of n_unstable_of zxz_of fst snd]
  end; cbn [andb orb negb div_of n_unstable_of zxz_of fst snd].

(* roots 0.5, 1 and 1.008: the last one, below 1.01, is counted, and the cutoff becomes 1.004 *)
Theorem C152_case :
  determine_n_unstable [root (1/2); root 1; root (1008/1000)] None (1/1000000) = (/ 2 * (1 + 1008/1000), 1%nat, false) /\
  (forall ab, In ab [root (1/2); root 1; root (1008/1000)] ->
     ~ in_ring (1/1000000) ab /\ ~ coincident (1/1000000) ab) /\
  determine_n_unstable [root (1/2); root 1; root (1008/1000)] (Some (101/100)) (1/1000000) = (101/100, 0%nat, false) /\
  solver_count [root (1/2); root 1; root (1008/1000)] (1/1000000) = (2%nat, false).
Proof.
  refine (conj _ (conj _ (conj _ _))).
  - unfold determine_n_unstable, core. cbn [fold_left].
    rewrite !turn_root by lra. cbv zeta. decide_ifs. reflexivity.
  - intros ab [<- | [<- | [<- | []]]]; (split; [intros [A B]; rewrite !above_root in * by lra; lra |
      intros [A B]; cbn [root fst] in A; rewrite cabs_real in A by lra; lra]).
  - unfold determine_n_unstable, core. cbn [fold_left]. unfold turn, root. cbn [fst snd andb].
    rewrite !cabs_real by lra. cbv zeta. decide_ifs. reflexivity.
  - unfold solver_count. cbn [fold_left]. unfold solver_turn, root. cbn [fst snd].
    rewrite !cabs_real by lra. cbv zeta. decide_ifs. reflexivity.
Qed.

(* The count is not, in general, the number of roots above the reported cutoff, nor independent of the order *)
Theorem C152_order_refuted :
  ~ (forall pairs pairs' realsmall, 0 < realsmall -> Permutation pairs pairs' ->
     snd (fst (determine_n_unstable pairs None realsmall)) = snd (fst (determine_n_unstable pairs' None realsmall))) /\
  ~ (forall pairs realsmall, 0 < realsmall ->
     number (above (fst (fst (determine_n_unstable pairs None realsmall)))) pairs
            (snd (fst (determine_n_unstable pairs None realsmall)))).
Proof.
  assert (E1 : determine_n_unstable [root (1003/1000); root (1005/1000)] None (4/1000) = (/ 2 * (1 + 1005/1000), 1%nat, false)).
  { unfold determine_n_unstable, core. cbn [fold_left].
    rewrite !turn_root by lra. cbv zeta. decide_ifs. reflexivity. }
  assert (E2 : determine_n_unstable [root (1005/1000); root (1003/1000)] None (4/1000) = (/ 2 * (1 + 1005/1000), 2%nat, false)).
  { unfold determine_n_unstable, core. cbn [fold_left].
    rewrite !turn_root by lra. cbv zeta. decide_ifs. reflexivity. }
  split.
  - intros H. specialize (H _ _ (4/1000) ltac:(lra) (perm_swap (root (1005/1000)) (root (1003/1000)) [])).
    rewrite E1, E2 in H. discriminate H.
  - intros H. specialize (H [root (1003/1000); root (1005/1000)] (4/1000) ltac:(lra)).
    rewrite E1 in H. cbn [fst snd] in H.
    assert (K : number (above (/ 2 * (1 + 1005/1000))) [root (1003/1000); root (1005/1000)] 2).
    { repeat constructor; apply above_root; lra. }
    pose proof (number_det _ _ _ _ H K) as X. discriminate X.
Qed.

(* even without roots in the ring, the reported cutoff depends on the order *)
Theorem C152_cutoff_order_refuted :
  ~ (forall pairs pairs' realsmall, 0 < realsmall -> (forall ab, In ab pairs -> ~ in_ring realsmall ab) ->
     Permutation pairs pairs' ->
     fst (fst (determine_n_unstable pairs None realsmall)) = fst (fst (determine_n_unstable pairs' None realsmall))).
Proof.
  intros H.
  specialize (H [root (1006/1000); root (1008/1000)] [root (1008/1000); root (1006/1000)] (1/1000) ltac:(lra)).
  assert (E1 : determine_n_unstable [root (1006/1000); root (1008/1000)] None (1/1000) = (/ 2 * (1 + 1006/1000), 2%nat, false)).
  { unfold determine_n_unstable, core. cbn [fold_left].
    rewrite !turn_root by lra. cbv zeta. decide_ifs. reflexivity. }
  assert (E2 : determine_n_unstable [root (1008/1000); root (1006/1000)] None (1/1000) = (/ 2 * (1 + 1008/1000), 2%nat, false)).
  { unfold determine_n_unstable, core. cbn [fold_left].
    rewrite !turn_root by lra. cbv zeta. decide_ifs. reflexivity. }
  rewrite E1, E2 in H. cbn [fst] in H.
  assert (K : / 2 * (1 + 1006 / 1000) = / 2 * (1 + 1008 / 1000)).
  { apply H; [|apply perm_swap]. intros ab [<- | [<- | []]] [A B]; rewrite !above_root in * by lra; lra. }
  lra.
Qed.

(* a coincident pair that is not the last one goes unreported by determine_n_unstable and is reported by the solver's loop *)
Theorem C152_coincident_refuted :
  ~ (forall pairs realsmall, 0 < realsmall -> (exists ab, In ab pairs /\ coincident realsmall ab) ->
     snd (determine_n_unstable pairs None realsmall) = true).
Proof.
  intros H. specialize (H ([(real 0, real 0)] ++ [root 2]) (1/10) ltac:(lra)).
  rewrite C152_coincident_last in H.
  assert (K : coincident (1/10) (root 2)).
  { apply H. exists (real 0, real 0). split; [left; auto|]. split; cbn [fst snd]; rewrite cabs_real; lra. }
  destruct K as [K _]. unfold root in K. cbn [fst] in K. rewrite cabs_real in K; lra.
Qed.
