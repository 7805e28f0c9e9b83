(* Adjoints of the policy function, the backward-looking solver, the compiled core; small matrices. *)
From mathcomp Require Import all_ssreflect all_algebra.
From Verif Require Import LA_Spec LA_Model LA_Proofs LA_Main.
Import GRing.Theory Num.Theory Order.TTheory.
Set Implicit Arguments.
Unset Strict Implicit.
Unset Printing Implicit Defensive.
Local Open Scope ring_scope.

Section Adj.
Variable F : realFieldType.

Lemma unflatK m p (i : 'I_m) (j : 'I_p) : unflat (mxvec_index i j) = (i, j).
Proof. by rewrite /unflat /mxvec_index cast_ordK enum_rankK. Qed.
Lemma ravel_at m p (A : 'M[F]_(m, p)) i j : ravel A (mxvec_index i j) 0 = A i j.
Proof. by rewrite /ravel mxE mxvecE. Qed.
Lemma reshape_at m p (v : 'cV[F]_(m * p)) i j : reshape v i j = v (mxvec_index i j) 0.
Proof. by rewrite /reshape !mxE. Qed.
Lemma ravelK m p (v : 'cV[F]_(m * p)) : ravel (reshape v) = v.
Proof. by rewrite /ravel /reshape vec_mxK trmxK. Qed.

Lemma sum_flat m p (f : 'I_(m * p) -> F) : \sum_k f k = \sum_i \sum_j f (mxvec_index i j).
Proof.
rewrite pair_big /=.
rewrite (reindex (fun q : 'I_m * 'I_p => mxvec_index q.1 q.2)) /=; first by apply: eq_bigr => -[i j].
exists (@unflat m p) => [[i j] _|k _] /=; first by rewrite unflatK.
by case/mxvec_indexP: k => i j; rewrite unflatK.
Qed.

Lemma kron_ravel n (P Q S : 'M[F]_n) : kron P Q *m ravel S^T = ravel ((Q *m S *m P^T)^T).
Proof.
apply/matrixP => k o; rewrite [o]ord1; case/mxvec_indexP: k => i1 i2.
rewrite ravel_at mxE sum_flat.
under eq_bigr => j1 _. under eq_bigr => j2 _. rewrite ravel_at [kron _ _ _ _]mxE !unflatK /= [S^T _ _]mxE. over. over.
rewrite [RHS]mxE [RHS]mxE; apply: eq_bigr => j1 _.
rewrite [(Q *m S) _ _]mxE [P^T _ _]mxE mulr_suml; apply: eq_bigr => j2 _.
by rewrite -mulrA mulrC.
Qed.

Lemma adjoint_equation n jitter (A B C T T_bar : 'M[F]_n) Ab Bb Cb :
  policy_adjoints jitter A B C T T_bar = Returned (Ab, Bb, Cb) ->
  [/\ C^T *m Ab *m T^T + T^T *m C^T *m Ab + B^T *m Ab + jitter *: Ab = - T_bar, Bb = Ab *m T^T & Cb = Ab *m T^T *m T^T].
Proof.
rewrite /policy_adjoints /np_solve; case: ifP => //= U [<- <- <-]; split=> //.
set K := stabilize _ _ in U *; set v := invmx K *m _; set S := (reshape v)^T.
have E : K *m ravel S^T = - ravel T_bar^T by rewrite /S trmxK ravelK mulKVmx.
apply: trmx_inj; apply: (can_inj (@mxvecK _ _ _)); apply: trmx_inj; rewrite -[LHS]/(ravel _) -[RHS]/(ravel _).
have ravelD (X Y : 'M[F]_n) : ravel (X + Y) = ravel X + ravel Y by rewrite /ravel !linearD.
have ravelN (X : 'M[F]_n) : ravel (- X) = - ravel X by rewrite /ravel !linearN.
have ravelZ c (X : 'M[F]_n) : ravel (c *: X) = c *: ravel X by rewrite /ravel !linearZ.
rewrite !linearD !linearN /= linearZ /= !ravelD ravelN ravelZ -E /K /stabilize !mulmxDl mul_scalar_mx.
rewrite !kron_ravel trmx1 !mulmx1. done.
Qed.

Lemma pairing_trace m p (X Y : 'M[F]_(m, p)) : pairing X Y = \tr (X^T *m Y).
Proof.
rewrite /pairing exchange_big /= /mxtrace; apply: eq_bigr => j _; rewrite mxE; apply: eq_bigr => i _; by rewrite mxE.
Qed.

Lemma pairingDl m p (X X' Y : 'M[F]_(m, p)) : pairing (X + X') Y = pairing X Y + pairing X' Y.
Proof. by rewrite !pairing_trace linearD mulmxDl linearD. Qed.
Lemma pairingDr m p (X Y Y' : 'M[F]_(m, p)) : pairing X (Y + Y') = pairing X Y + pairing X Y'.
Proof. by rewrite !pairing_trace mulmxDr linearD. Qed.
Lemma pairingNl m p (X Y : 'M[F]_(m, p)) : pairing (- X) Y = - pairing X Y.
Proof. by rewrite !pairing_trace linearN mulNmx linearN. Qed.
Lemma pairingZl m p c (X Y : 'M[F]_(m, p)) : pairing (c *: X) Y = c * pairing X Y.
Proof. by rewrite !pairing_trace linearZ -scalemxAl linearZ. Qed.
Lemma pairing0r m p (X : 'M[F]_(m, p)) : pairing X 0 = 0.
Proof. by rewrite pairing_trace mulmx0 linear0. Qed.
Lemma pairing_left m q p (P : 'M[F]_(m, q)) (X : 'M[F]_(m, p)) Y : pairing (P^T *m X) Y = pairing X (P *m Y).
Proof. by rewrite !pairing_trace trmx_mul trmxK mulmxA. Qed.
Lemma pairing_right m q p (Q : 'M[F]_(q, p)) (X : 'M[F]_(m, p)) Y : pairing (X *m Q^T) Y = pairing X (Y *m Q).
Proof. by rewrite !pairing_trace trmx_mul trmxK -mulmxA mxtrace_mulC !mulmxA. Qed.

Lemma adjoints_chain n jitter (A B C T T_bar dA dB dC dT : 'M[F]_n) Ab Bb Cb :
  policy_adjoints jitter A B C T T_bar = Returned (Ab, Bb, Cb) -> differential B C T dA dB dC dT ->
  pairing T_bar dT = pairing Ab dA + pairing Bb dB + pairing Cb dC - jitter * pairing Ab dT.
Proof.
move=> /adjoint_equation [E -> ->] D.
have -> : T_bar = - (C^T *m Ab *m T^T + T^T *m C^T *m Ab + B^T *m Ab + jitter *: Ab) by rewrite E opprK.
rewrite -[T^T *m C^T *m Ab]mulmxA pairingNl !pairingDl pairingZl !pairing_right !pairing_left opprD; congr (_ + _).
have := pairing0r Ab; rewrite -D !pairingDr -!mulmxA.
set a := pairing _ _; set b := pairing _ _; set c := pairing _ _; set d := pairing _ _; set e := pairing _ _; set f := pairing _ _ => H.
have : - (e + f + c) = a + b + d; last by [].
by apply/esym/eqP; rewrite -addr_eq0 -H [e + f + c]addrC !addrA [a + b + c + d]addrAC.
Qed.
End Adj.
