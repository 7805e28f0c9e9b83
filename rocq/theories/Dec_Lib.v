(* Lemmas on decimal printing (Common.dec): a larger number is not written with fewer digits. *)
From Verif Require Import Common.
From Coq Require Import Decimal DecimalFacts DecimalN DecimalPos DecimalString.
Lemma acc_bounds d : forall acc, (Npos acc * 10 ^ N.of_nat (nb_digits d) <= Npos (Pos.of_uint_acc d acc) < (Npos acc + 1) * 10 ^ N.of_nat (nb_digits d))%N.
Proof.
  induction d as [|u IH|u IH|u IH|u IH|u IH|u IH|u IH|u IH|u IH|u IH]; intro acc; cbn [Pos.of_uint_acc nb_digits].
  1: { rewrite N.pow_0_r. lia. }
  all: rewrite Nnat.Nat2N.inj_succ, N.pow_succ_r'; match goal with IH : forall a, _ |- context [Pos.of_uint_acc ?v ?a] => specialize (IH a); generalize dependent (10 ^ N.of_nat (nb_digits v))%N end; intros q H; destruct H as [H1 H2]; split; nia.
Qed.
Lemma lead_bounds d : nzhead d = d -> d <> Nil -> (10 ^ N.of_nat (nb_digits d) <= 10 * N.of_uint d /\ N.of_uint d < 10 ^ N.of_nat (nb_digits d))%N.
Proof.
  destruct d as [|u|u|u|u|u|u|u|u|u|u]; intros H E; try congruence.
  1: { exfalso. clear E. cbn in H. assert (G : forall v, nb_digits (nzhead v) <= nb_digits v) by (induction v; cbn; lia). specialize (G u). rewrite H in G. cbn in G. lia. }
  all: unfold N.of_uint; cbn [Pos.of_uint nb_digits]; rewrite Nnat.Nat2N.inj_succ, N.pow_succ_r';
    match goal with |- context [Pos.of_uint_acc ?v ?a] => pose proof (acc_bounds v a) as B; generalize dependent (10 ^ N.of_nat (nb_digits v))%N end; intros q H'; destruct H' as [H1 H2]; split; nia.
Qed.
Lemma nb_string d : length (str (NilEmpty.string_of_uint d)) = nb_digits d.
Proof. unfold str. induction d; cbn; auto. Qed.
Lemma dec_length n : length (dec n) = Nat.max 1 (nb_digits (nzhead (N.to_uint n))).
Proof.
  unfold dec, NilZero.string_of_uint. assert (U : unorm (N.to_uint n) = N.to_uint n).
  { rewrite <- (DecimalN.Unsigned.to_of (N.to_uint n)). f_equal. now rewrite DecimalN.Unsigned.of_to. }
  unfold unorm in U. destruct (nzhead (N.to_uint n)) eqn:E.
  1: { rewrite <- U. reflexivity. }
  all: rewrite <- U, nb_string; cbn [nb_digits]; lia.
Qed.
Lemma dec_mono a b : (a <= b)%N -> length (dec a) <= length (dec b).
Proof.
  intro L. rewrite !dec_length.
  assert (V : forall n, N.of_uint (nzhead (N.to_uint n)) = n).
  { intro n. rewrite <- (DecimalN.Unsigned.of_to n) at 2. generalize (N.to_uint n). intro d. unfold N.of_uint.
    induction d; cbn [nzhead Pos.of_uint]; try reflexivity. exact IHd. }
  pose proof (V a) as Va. pose proof (V b) as Vb.
  assert (I : forall d, nzhead (nzhead d) = nzhead d) by (induction d; cbn; auto).
  pose proof (I (N.to_uint a)) as Ia. pose proof (I (N.to_uint b)) as Ib.
  generalize dependent (nzhead (N.to_uint a)). generalize dependent (nzhead (N.to_uint b)). intros db Vb Ib da Va Ia.
  assert (D : forall d : uint, d = Nil \/ d <> Nil) by (intros []; (left; reflexivity) || (right; discriminate)).
  destruct (D da) as [E|Na]; [rewrite E; change (nb_digits Nil) with 0; lia|]. destruct (lead_bounds da Ia Na) as [A1 A2].
  assert (Z : (0 < 10 ^ N.of_nat (nb_digits da))%N) by (apply N.neq_0_lt_0, N.pow_nonzero; discriminate).
  destruct (D db) as [E|Nb]; [subst db; cbn in Vb; lia|]. destruct (lead_bounds db Ib Nb) as [B1 B2].
  destruct (le_lt_dec (nb_digits da) (nb_digits db)) as [G|G]; [lia|].
  assert (P : (10 ^ N.of_nat (S (nb_digits db)) <= 10 ^ N.of_nat (nb_digits da))%N) by (apply N.pow_le_mono_r; lia).
  rewrite Nnat.Nat2N.inj_succ, N.pow_succ_r' in P. lia.
Qed.
