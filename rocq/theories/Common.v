(* Shared vocabulary of the models: results with Python exceptions as values,
   character lists, decimal printing of integers (Python's str(int)). *)
From Coq Require Export Ascii String.
From Coq Require Export List Bool Arith ZArith NArith Lia.
From Coq Require Import DecimalString DecimalN DecimalFacts.
Export ListNotations.
Local Open Scope list_scope.

(* Python exceptions that the modelled code raises, as values. *)
Inductive exn :=
| TypeError | ValueError | KeyError | AttributeError | IndexError
| NotImplementedError | RuntimeError | UnboundLocalError | RecursionError
| GEconError (which : nat).  (* a gEconpy-specific exception class; number documented at use *)

Inductive result (A : Type) :=
| Ok (a : A)
| Err (e : exn).
Arguments Ok {A} a.
Arguments Err {A} e.

Definition bind {A B} (r : result A) (f : A -> result B) : result B :=
  match r with Ok a => f a | Err e => Err e end.
Notation "x <- r ;; k" := (bind r (fun x => k)) (at level 100, r at next level, right associativity).

Definition is_ok {A} (r : result A) : bool := match r with Ok _ => true | Err _ => false end.

(* Strings as character lists. *)
Definition chars := list ascii.
Definition str (s : string) : chars := list_ascii_of_string s.

Definition chars_eqb (a b : chars) : bool := if list_eq_dec ascii_dec a b then true else false.
Lemma chars_eqb_eq a b : chars_eqb a b = true <-> a = b.
Proof. unfold chars_eqb; destruct (list_eq_dec ascii_dec a b); split; congruence. Qed.
Lemma chars_eqb_refl a : chars_eqb a a = true.
Proof. apply chars_eqb_eq; reflexivity. Qed.
Lemma chars_eqb_neq a b : chars_eqb a b = false <-> a <> b.
Proof. unfold chars_eqb; destruct (list_eq_dec ascii_dec a b); split; congruence. Qed.

Definition is_digit (c : ascii) : bool :=
  (N.leb 48 (N_of_ascii c) && N.leb (N_of_ascii c) 57)%bool.

(* Python: str(n) for a non-negative int n. *)
Definition dec (n : N) : chars := str (NilZero.string_of_uint (N.to_uint n)).

Definition undec (s : chars) : option N :=
  match NilZero.uint_of_string (string_of_list_ascii s) with
  | Some d => Some (N.of_uint d)
  | None => None
  end.

Lemma to_uint_not_nil n : N.to_uint n <> Decimal.Nil.
Proof.
  destruct n as [|p]; [discriminate|].
  cbn [N.to_uint].
  intro H. pose proof (DecimalPos.Unsigned.to_uint_nonnil p) as Hn. congruence.
Qed.

Lemma undec_dec n : undec (dec n) = Some n.
Proof.
  unfold undec, dec, str. rewrite string_of_list_ascii_of_string.
  rewrite NilZero.usu by apply to_uint_not_nil.
  now rewrite DecimalN.Unsigned.of_to.
Qed.

Lemma dec_inj n m : dec n = dec m -> n = m.
Proof. intro H. pose proof (undec_dec n) as Hn. rewrite H, undec_dec in Hn. congruence. Qed.

Lemma string_of_uint_digits d : forallb is_digit (str (NilEmpty.string_of_uint d)) = true.
Proof. induction d; cbn; auto. Qed.

Lemma dec_digits n : forallb is_digit (dec n) = true.
Proof.
  unfold dec, NilZero.string_of_uint.
  destruct (N.to_uint n) eqn:E; try (rewrite <- E; apply string_of_uint_digits); try apply string_of_uint_digits.
  reflexivity.
Qed.

Lemma dec_nonempty n : dec n <> [].
Proof.
  unfold dec, NilZero.string_of_uint.
  destruct (N.to_uint n) eqn:E; cbn; discriminate.
Qed.

Definition lookup {V} (k : chars) (d : list (chars * V)) : option V :=
  match find (fun kv => chars_eqb k (fst kv)) d with
  | Some kv => Some (snd kv)
  | None => None
  end.
