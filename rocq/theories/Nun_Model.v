(* Counting explosive roots from the diagonals of a generalized Schur decomposition:
   gEconpy/solvers/gensys.py
     _determine_n_unstable_core      l. 26-49
     determine_n_unstable            l. 52-95
     split_matrix_on_eigen_stability l. 98-120
     _gensys_core (the counting loop only)  l. 236-249
   Simplifications: floating-point numbers are real numbers; a complex number is the pair of its real and
   imaginary part and np.abs is its modulus; alpha and beta are given as one list of pairs (alpha[i], beta[i]),
   that is, as arrays of one length (numba does not check the index of a shorter beta). *)
From Coq Require Import Reals List ZArith Lia Lra.
Import ListNotations.
Open Scope R_scope.

(* a complex number *)
Definition cplx := (R * R)%type.
(* np.abs on a complex number *)
Definition cabs (z : cplx) : R := sqrt (fst z * fst z + snd z * snd z).

Definition ltb (x y : R) : bool := if Rlt_dec x y then true else false.
Definition leb (x y : R) : bool := if Rle_dec x y then true else false.

(* the three variables of the loop: div, n_unstable, zxz *)
Record state := State { div_of : R; n_unstable_of : nat; zxz_of : bool }.

(* _determine_n_unstable_core, one turn of the loop, l. 38-47 *)
Definition turn (compute_div : bool) (realsmall : R) (s : state) (ab : cplx * cplx) : state :=
  let abs_a := cabs (fst ab) in
  let abs_b := cabs (snd ab) in
  let div :=
    if andb compute_div (ltb 0 abs_a) then
      let divhat := abs_b / abs_a in
      if andb (ltb (1 + realsmall) divhat) (leb divhat (div_of s)) then / 2 * (1 + divhat) else div_of s
    else div_of s in
  State div
        (if ltb (div * abs_a) abs_b then S (n_unstable_of s) else n_unstable_of s)
        (andb (ltb abs_a realsmall) (ltb abs_b realsmall)).

(* _determine_n_unstable_core, l. 26-49 *)
Definition core (pairs : list (cplx * cplx)) (div : R) (compute_div : bool) (realsmall : R) : state :=
  fold_left (turn compute_div realsmall) pairs (State div 0 false).

(* determine_n_unstable, l. 92-95; div=None is None *)
Definition determine_n_unstable (pairs : list (cplx * cplx)) (div : option R) (realsmall : R) : R * nat * bool :=
  let s := match div with
           | None => core pairs (101 / 100) true realsmall
           | Some d => core pairs d false realsmall
           end in
  (div_of s, n_unstable_of s, zxz_of s).

(* _gensys_core, the counting loop, l. 236-249: n_unstable and zxz *)
Definition solver_turn (realsmall : R) (s : nat * bool) (ab : cplx * cplx) : nat * bool :=
  let abs_a := cabs (fst ab) in
  let abs_b := cabs (snd ab) in
  let zxz := if andb (ltb abs_a realsmall) (ltb abs_b realsmall) then true else snd s in
  let is_stable := orb (andb (ltb abs_b realsmall) (leb realsmall abs_a))
                       (andb (leb realsmall abs_b) (ltb abs_b abs_a)) in
  ((if negb is_stable then S (fst s) else fst s), zxz).

Definition solver_count (pairs : list (cplx * cplx)) (realsmall : R) : nat * bool :=
  fold_left (solver_turn realsmall) pairs (0%nat, false).

(* the Python slices rows[:k] and rows[k:] of a sequence, k possibly negative *)
Definition bound {A} (rows : list A) (k : Z) : nat :=
  if (k <? 0)%Z then Z.to_nat (Z.max 0 (Z.of_nat (length rows) + k)) else Z.to_nat k.
Definition upto {A} (rows : list A) (k : Z) : list A := firstn (bound rows k) rows.
Definition from {A} (rows : list A) (k : Z) : list A := skipn (bound rows k) rows.

(* split_matrix_on_eigen_stability, l. 98-120, on the rows of the matrix *)
Definition split_rows {A} (rows : list A) (n_unstable : Z) : list A * list A :=
  let n := Z.of_nat (length rows) in
  (upto rows (n - n_unstable), from rows (n - n_unstable)).
