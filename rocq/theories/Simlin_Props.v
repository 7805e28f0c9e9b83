(* C156: responses and simulations solve the linear model they come from. No new model: the code is that of Sim_Model.v (simulate.py),
   the policy and impact matrices are what the solvers are proved to return (C24, C28, C65). *)
From mathcomp Require Import all_ssreflect all_algebra.
From Verif Require Import Sim_Model Sim_Spec Sim_Proofs Sim_Props LA_Spec.
Import GRing.Theory Num.Theory Order.TTheory.
Set Implicit Arguments.
Unset Strict Implicit.
Unset Printing Implicit Defensive.
Local Open Scope ring_scope.

(* ---- specification ---- *)
(* the row before row t; at rest before the first *)
Definition row_before (F : rcfType) n (x : seq 'cV[F]_n) (t : nat) : 'cV[F]_n := if t is s.+1 then nth 0 x s else 0.
Section Linear.
Variables (F : rcfType) (Name : eqType) (names : seq Name) (n : nat).
Notation k := (size names).
Variables (A B C : 'M[F]_n) (D : 'M[F]_(n, k)) (T : 'M[F]_n) (R : 'M[F]_(n, k)).
Hypothesis policy : solves A B C T.
Hypothesis impact : impact_of B C T D R.

Lemma core (a : 'cV[F]_n) (e : 'cV[F]_k) : A *m a + B *m (T *m a + R *m e) + C *m (T *m (T *m a + R *m e)) + D *m e = 0.
Proof.
have P : A *m a + B *m (T *m a) + C *m (T *m (T *m a)) = 0 by rewrite !mulmxA -!mulmxDl -(mulmxA C T T) policy mul0mx.
have Q : B *m (R *m e) + C *m (T *m (R *m e)) + D *m e = 0.
  by rewrite [T *m (R *m e)]mulmxA (mulmxA B) (mulmxA C) -!mulmxDl impact mul0mx.
rewrite !mulmxDr -{1}[RHS](addr0 0) -{1}P -Q; exact: (AC (1*2*2*1) ((1*2*4)*(3*5*6))).
Qed.
Lemma row_is e x t : follows T R e x -> (t < size e)%N -> nth 0 x t = T *m row_before x t + R *m nth 0 e t.
Proof. by case=> _ H Ht; rewrite (H _ Ht) /row_before; case: t Ht => [|s] _ //; rewrite mulmx0. Qed.

(* ---- theorems ---- *)
(* along every path the model's equations hold, up to the surprise in the next period: lead values enter as T times the current row *)
Theorem C156_surprise e x t : follows T R e x -> (t.+1 < size e)%N ->
  A *m row_before x t + B *m nth 0 x t + C *m nth 0 x t.+1 + D *m nth 0 e t = C *m (R *m nth 0 e t.+1).
Proof.
move=> f Ht; have N : nth 0 x t.+1 = T *m nth 0 x t + R *m nth 0 e t.+1 by rewrite (row_is f Ht).
have K := core (row_before x t) (nth 0 e t); rewrite -(row_is f (ltnW Ht)) in K.
rewrite N mulmxDr.
set a := A *m _; set b := B *m _; set c := C *m _; set d := D *m _; set r := C *m (R *m _).
have -> : a + b + (c + r) + d = (a + b + c + d) + r by exact: (AC (2*2*1) ((1*2*3*5)*4)).
by rewrite K add0r.
Qed.
(* once no shocks come any more the equations hold exactly *)
Theorem C156_no_more_shocks e x t : follows T R e x -> (t.+1 < size e)%N -> nth 0 e t.+1 = 0 ->
  A *m row_before x t + B *m nth 0 x t + C *m nth 0 x t.+1 + D *m nth 0 e t = 0.
Proof. by move=> f Ht z; rewrite (C156_surprise f Ht) z !mulmx0. Qed.
(* the response to one shock of size v in period 0: the model holds in every period *)
Theorem C156_impulse (allclose : ndarray F -> ndarray F -> bool) (cholesky : 'M[F]_k -> outcome 'M[F]_k) (draw : 'cV[F]_k) v requested len :
  uniq names -> requested <> Some false ->
  exists paths, impulse_response T R allclose cholesky draw (Args (Some (Scalar Name v)) None None) requested len.+1 = Returned (Individual paths) /\
    map fst paths = names /\
    forall nm x, (nm, x) \in paths -> exists i : 'I_k, tnth (in_tuple names) i = nm /\ size x = len.+1 /\ forall t, (t < len)%N ->
      A *m row_before x t + B *m nth 0 x t + C *m nth 0 x t.+1 + D *m (if t == 0%N then alone i v else 0) = 0.
Proof.
move=> U H; eexists; split; first exact: C70_individual_scalar.
split; first by rewrite /= -map_comp filter_predT; exact: map_tnth_enum (in_tuple names).
move=> nm x /mapP [i _ [-> ->]]; exists i; split=> //; rewrite size_mkseq; split=> // t Ht.
have f := follows_impulse T R (alone i v) len.
have Hs : (t.+1 < size (alone i v :: nseq len 0%R))%N by rewrite /= size_nseq.
have z : nth 0 (alone i v :: nseq len 0) t.+1 = 0 by rewrite /= nth_nseq if_same.
rewrite -[RHS](C156_no_more_shocks f Hs z); congr (_ + D *m _).
by case: t Ht {Hs z} => [|t] Ht //=; rewrite nth_nseq if_same.
Qed.
(* expectations: whatever the equally sized future, if next period's shock has mean zero then the model's equations hold with the
   expected value of the next row *)
Theorem C156_expected (I : finType) (w : I -> F) (next : I -> 'cV[F]_k) e x (x' : I -> seq 'cV[F]_n) t :
  \sum_i w i = 1 -> \sum_i w i *: next i = 0 -> size e = t.+1 -> simulate_linear_system T R e = Returned x ->
  (forall i, simulate_linear_system T R (rcons e (next i)) = Returned (x' i)) ->
  (forall i, take t.+1 (x' i) = x) /\
  A *m row_before x t + B *m nth 0 x t + C *m (\sum_i w i *: nth 0 (x' i) t.+1) + D *m nth 0 e t = 0.
Proof.
move=> w1 w0 sz /sim_iff [ne f] f'.
have {f'} f' i : follows T R (rcons e (next i)) (x' i) by have /sim_iff [] := f' i.
have sx : size x = t.+1 by case: f => -> _.
have sx' i : size (x' i) = t.+2 by case: (f' i) => -> _; rewrite size_rcons sz.
have E i s : (s < t.+1)%N -> nth 0 (x' i) s = nth 0 x s.
  elim: s => [|s IH] Hs.
    have [_ H'] := f' i; have [_ H] := f; rewrite H' ?size_rcons ?sz // H ?sz // nth_rcons sz Hs //.
  have [_ H'] := f' i; have [_ H] := f; rewrite H' ?size_rcons ?sz ?(ltn_trans Hs) // H ?sz // nth_rcons sz Hs IH //; exact: ltnW.
split=> [i|].
  apply: (@eq_from_nth _ 0) => [|s]; rewrite size_take sx' ltnSn ?sx // => Hs.
  by rewrite nth_take // E.
have N i : nth 0 (x' i) t.+1 = T *m nth 0 x t + R *m next i.
  have [_ H'] := f' i; rewrite H' ?size_rcons ?sz // E // nth_rcons sz ltnn eqxx //.
have -> : \sum_i w i *: nth 0 (x' i) t.+1 = T *m nth 0 x t.
  transitivity (\sum_i (w i *: (T *m nth 0 x t) + R *m (w i *: next i))).
    by apply: eq_bigr => i _; rewrite N scalerDr (scalemxAr (w i) R).
  by rewrite big_split /= -scaler_suml w1 scale1r -mulmx_sumr w0 mulmx0 addr0.
have K := core (row_before x t) (nth 0 e t); rewrite -(row_is f) ?sz // in K.
Qed.
End Linear.

(* ---- the model's other paths ---- *)
Section Unique.
Variables (F : archiFieldType) (n : nat).
Implicit Types (y : nat -> 'cV[F]_n) (v : 'cV[F]_n).
(* the model holds in every period, without shocks *)
Definition model_path (A B C : 'M[F]_n) y : Prop := forall t, A *m y t + B *m y t.+1 + C *m y t.+2 = 0.
Definition bounded y : Prop := exists M, forall t i, `|y t i 0| <= M.
Definition size_of v : F := \sum_i `|v i 0|.
(* some power of a matrix shrinks every vector by a fixed factor: the condition that its eigenvalues lie inside the unit circle *)
Definition contracts (G : 'M[F]_n) : Prop := exists m q, [/\ 0 <= q, q < 1 & forall v, size_of (iter m (mulmx G) v) <= q * size_of v].
Variables (A B C T : 'M[F]_n).
Hypothesis policy : solves A B C T.
Hypothesis regular : B + C *m T \in unitmx.
(* the matrix of the model's remaining roots *)
Let G := - (invmx (B + C *m T) *m C).
Let dev y t := y t.+1 - T *m y t.

Theorem C156_policy_path y : (forall t, y t.+1 = T *m y t) -> model_path A B C y.
Proof. by move=> H t; rewrite !H !mulmxA -!mulmxDl -(mulmxA C T T) policy mul0mx. Qed.
Lemma dev_next y t : model_path A B C y -> dev y t = G *m dev y t.+1.
Proof.
move=> H; rewrite /dev /G mulNmx -mulmxA.
have P : A *m y t + B *m (T *m y t) + C *m (T *m (T *m y t)) = 0 by rewrite !mulmxA -!mulmxDl -(mulmxA C T T) policy mul0mx.
suff E : (B + C *m T) *m (y t.+1 - T *m y t) = - (C *m (y t.+2 - T *m y t.+1)).
  by rewrite -[LHS](mulKmx regular) E mulmxN.
apply/eqP; rewrite -subr_eq0 opprK mulmxDl !mulmxBr -!mulmxA; apply/eqP.
rewrite -[RHS](subrr 0) -{1}(H t) -{1}P.
set a := A *m _; set b := B *m y t.+1; set c := B *m _; set d := C *m (T *m y t.+1); set e := C *m (T *m (T *m y t)); set f := C *m _.
have -> : b - c + (d - e) + (f - d) = (b + f) - (c + e) + (d - d) by rewrite opprD; exact: (AC (2*2*2) (((1*5)*(2*4))*(3*6))).
have -> : a + b + f - (a + c + e) = (b + f) - (c + e) + (a - a) by rewrite !opprD; exact: (AC (3*3) (((2*3)*(5*6))*(1*4))).
by rewrite !subrr.
Qed.
(* how far a path is from the policy's next row is carried by the remaining roots from any later date *)
Theorem C156_deviation y t j : model_path A B C y -> y t.+1 - T *m y t = iter j (mulmx G) (y (t + j)%N.+1 - T *m y (t + j)%N).
Proof.
move=> H; elim: j t => [|j IH] t; first by rewrite addn0.
by rewrite -[LHS]/(dev y t) (dev_next t H) /dev IH iterS addSnnS.
Qed.
Lemma size_ge0 v : 0 <= size_of v. Proof. exact: sumr_ge0. Qed.
Lemma size_eq0 v : size_of v = 0 -> v = 0.
Proof.
move=> /eqP; rewrite psumr_eq0 // => /allP H; apply/matrixP => i j; rewrite ord1 mxE.
by have /eqP := H i (mem_index_enum _); move/normr0P/eqP.
Qed.
Lemma geometric_zero (d M q : F) : 0 <= d -> 0 <= q -> q < 1 -> (forall j, d <= q ^+ j * M) -> d = 0.
Proof.
move=> d0 q0 q1 H; apply/eqP; rewrite eq_le d0 andbT leNgt; apply/negP => dp.
have M0 : 0 <= M by have := H 0%N; rewrite expr0 mul1r; exact: le_trans.
have h : 0 < 1 - q by rewrite subr_gt0.
pose x := M / (d * (1 - q)); have x0 : 0 <= x by rewrite divr_ge0 // mulr_ge0 // ltW.
have := archi_boundP x0; set j := Num.bound x; rewrite ltNge => /negP; apply.
rewrite ler_pdivl_mulr ?mulr_gt0 //.
have Q : j%:R * (1 - q) * q ^+ j <= 1.
  have E : (1 - q) * (\sum_(i < j) q ^+ i) = 1 - q ^+ j by rewrite -[RHS]opprB subrX1 -mulNr opprB.
  have L : q ^+ j *+ j <= \sum_(i < j) q ^+ i.
    rewrite -[X in _ *+ X]card_ord -sumr_const; apply: ler_sum => i _; apply: ler_wiexpn2l => //; [exact: ltW|exact: ltnW].
  have : (1 - q) * (q ^+ j *+ j) <= 1.
    apply: le_trans (_ : (1 - q) * (\sum_(i < j) q ^+ i) <= _); first by rewrite ler_pmul2l.
    by rewrite E ler_subl_addr ler_addl exprn_ge0.
  by rewrite -mulr_natl mulrCA mulrA.
have := H j; rewrite mulrC => Hj; apply: le_trans (_ : (j%:R * (1 - q)) * (M * q ^+ j) <= _).
  by rewrite [d * _]mulrC [X in X <= _]mulrA ler_wpmul2l // mulr_ge0 ?ler0n // ltW.
by rewrite mulrCA -[X in _ <= X]mulr1 ler_wpmul2l.
Qed.
(* if the remaining roots are outside the unit circle, the bounded paths of the model are exactly the policy's, from every start *)
Theorem C156_only_bounded_path y : contracts G -> model_path A B C y -> bounded y -> forall t, y t = iter t (mulmx T) (y 0%N).
Proof.
move=> [m [q [q0 q1 con]]] H [M bd].
have dev0 t : dev y t = 0.
  apply: size_eq0; pose K := M + (\sum_i \sum_j `|T i j|) * M.
  have M0 (i : 'I_n) : 0 <= M by exact: le_trans (normr_ge0 _) (bd 0%N i).
  have dK s : size_of (dev y s) <= K *+ n.
    rewrite -[X in _ *+ X]card_ord -sumr_const; apply: ler_sum => i _; rewrite /dev !mxE; apply: le_trans (ler_norm_sub _ _) _; apply: ler_add; first exact: bd.
    apply: le_trans (ler_norm_sum _ _ _) _; apply: le_trans (_ : \sum_j `|T i j| * M <= _).
      by apply: ler_sum => j _; rewrite normrM ler_wpmul2l.
    rewrite -mulr_suml ler_wpmul2r ?(M0 i) // (bigD1 i (F := fun i => \sum_j _)) //= ler_addl; apply: sumr_ge0 => i' _; exact: sumr_ge0.
  apply: (@geometric_zero _ (K *+ n) q) => //; first exact: size_ge0.
  move=> j; apply: le_trans (_ : q ^+ j * size_of (dev y (t + j * m)%N) <= _); last by rewrite ler_wpmul2l ?exprn_ge0.
  have -> : dev y t = iter (j * m) (mulmx G) (dev y (t + j * m)%N) by exact: C156_deviation.
  elim: j (dev y _) => [|j IH] v; first by rewrite mul0n expr0 mul1r.
  rewrite mulSn addnC iterD; apply: le_trans (IH _) _; rewrite exprSr -mulrA ler_wpmul2l ?exprn_ge0 //; exact: con.
by elim=> [//|t IH]; rewrite iterS -IH; apply/eqP; rewrite -subr_eq0; apply/eqP; exact: dev0.
Qed.
End Unique.

(* ---- a case: the hypotheses are met by 1 x(t-1) - 5/2 x(t) + 1 x(t+1) + 1 e(t) = 0, whose policy is 1/2 and impact 1/2 ---- *)
Section Case.
Lemma half_scalars (F : numFieldType) : let A : 'M[F]_1 := 1%:M in let B : 'M[F]_1 := (- (5%:R / 2%:R))%:M in let T : 'M[F]_1 := (2%:R^-1)%:M in
  [/\ solves A B A T, impact_of B A T A T & B + A *m T = (- 2%:R)%:M].
Proof.
have two : (2%:R : F) != 0 by rewrite pnatr_eq0.
have e : - (5%:R / 2%:R) + 2%:R^-1 = - 2%:R :> F.
  by apply: (mulIf two); rewrite mulrDl mulNr !mulfVK // mulVf // mulNr -natrM -[1]/(1%:R) -[LHS]opprK opprD opprK -natrB.
have e1 : 1 + - (5%:R / 2%:R) / 2%:R + 2%:R^-1 / 2%:R = 0 :> F.
  by rewrite -addrA -mulrDl e mulNr mulfV // subrr.
split.
- by rewrite /solves mul1mx -!scalar_mxM -!raddfD /= e1 raddf0.
- rewrite /impact_of !mul1mx -!scalar_mxM -!raddfD /= addrC addrA e1; exact: raddf0.
- by rewrite mul1mx -raddfD /= e.
Qed.
Theorem C156_case (F : archiFieldType) : let A : 'M[F]_1 := 1%:M in let B : 'M[F]_1 := (- (5%:R / 2%:R))%:M in let T : 'M[F]_1 := (2%:R^-1)%:M in
  [/\ solves A B A T, impact_of B A T A T, B + A *m T \in unitmx, contracts (- (invmx (B + A *m T) *m A)) &
      exists2 y, model_path A B A y /\ bounded y & y 1%N != 0].
Proof.
have [s i e] := half_scalars F; have two : (2%:R : F) != 0 by rewrite pnatr_eq0.
have half : (2%:R : F)^-1 < 1 by rewrite invf_lt1 ?ltr0n // ltr1n.
split=> //; first by rewrite e unitmxE det_scalar1 unitfE oppr_eq0.
  exists 1%N, 2%:R^-1; split; [by rewrite invr_ge0 ler0n|exact: half|] => v.
  rewrite /= e mulmx1 invmx_scalar -raddfN /= invrN opprK /size_of !big_ord1 mul_scalar_mx mxE normrM ger0_norm ?invr_ge0 ?ler0n //.
exists (fun t => (2%:R^-1 ^+ t)%:M); [split|].
- apply: (C156_policy_path s) => t; by rewrite -scalar_mxM exprS.
- by exists 1 => t j; rewrite ord1 mxE eqxx mulr1n normrX ger0_norm ?invr_ge0 ?ler0n // exprn_ile1 // ?invr_ge0 ?ler0n // ltW.
- rewrite expr1; apply/negP => /eqP /matrixP /(_ 0 0); rewrite !mxE eqxx mulr1n => /eqP; by rewrite invr_eq0 (negbTE two).
Qed.
(* one shock, one variable: the response halves in each period *)
Theorem C156_case_response (F : rcfType) (allclose : ndarray F -> ndarray F -> bool) cholesky draw :
  let T : 'M[F]_1 := (2%:R^-1)%:M in
  exists x, impulse_response (names := [:: tt]) T T allclose cholesky draw (Args (Some (Scalar _ 1)) None None) None 3 = Returned (Individual [:: (tt, x)]) /\
    nth 0 x 2%N = (2%:R^-1 ^+ 3)%:M.
Proof.
have U : uniq [:: tt] by [].
move=> T; rewrite (@C70_individual_scalar F _ [:: tt] 1 T T allclose cholesky draw U 1 2 None) //.
rewrite /each_shock /= filter_predT; eexists; split.
  by congr (Returned (Individual _)); rewrite /= (@eq_map _ _ _ (fun i => (tnth (in_tuple [:: tt]) i, impulse_path T T (alone (ord0 : 'I_1) 1) 3))) ?enum_ordSl ?enum_ord0 //= => i; rewrite ord1.
rewrite /impulse_path nth_mkseq // /after /=.
have -> : alone (ord0 : 'I_1) 1 = (1%:M : 'M[F]_1) by apply/matrixP => i j; rewrite !mxE !ord1 eqxx.
by rewrite -!scalar_mxM mulr1 !exprS expr0 mulr1 mulrA.
Qed.
End Case.
