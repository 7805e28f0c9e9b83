(* Concrete cases for the hypotheses of the simulation statements: an autoregression of order one with coefficient 1/2, and two
   shocks. *)
From mathcomp Require Import all_ssreflect all_algebra.
From Verif Require Import Sim_Model Sim_Spec Sim_Proofs Sim_Props Sim_MProps.
Import GRing.Theory Num.Theory Order.TTheory.
Set Implicit Arguments.
Unset Strict Implicit.
Unset Printing Implicit Defensive.
Local Open Scope ring_scope.
Section Case.
Variable F : rcfType.
Definition half : 'M[F]_1 := (2%:R^-1)%:M.
Definition var : 'M[F]_1 := (4%:R / 3%:R)%:M.
Lemma scalar_psd (c : F) : 0 <= c -> psd (c%:M : 'M[F]_1).
Proof.
move=> c0; split=> [|x]; first by rewrite /symmetric tr_scalar_mx.
by rewrite mul_mx_scalar -scalemxAl mxE mulr_ge0 // mxE big_ord1 !mxE -expr2 sqr_ge0.
Qed.
Theorem C72_case : [/\ psd var, psd (1%:M : 'M[F]_1) & var = half *m var *m half^T + 1%:M].
Proof.
split; [by apply: scalar_psd; rewrite divr_ge0 ?ler0n|exact: scalar_psd ler01|].
rewrite /half tr_scalar_mx -!scalar_mxM -raddfD; congr (_%:M); rewrite /=.
have n3 : 3%:R != 0 :> F by rewrite pnatr_eq0.
have n2 : 2%:R != 0 :> F by rewrite pnatr_eq0.
set x := 2%:R^-1; set q := _ / _; have q3 : q * 3%:R = 4%:R by rewrite divfK.
apply: (mulIf n3); rewrite /= mulrDl mul1r [x * q * x]mulrAC -[x * x * q * _]mulrA q3.
have -> : 4%:R = 2%:R * 2%:R :> F by rewrite -natrM.
by rewrite mulrACA mulVf // mulr1 -natrM -(natrD _ 1 3).
Qed.
Theorem C72_case_correlation :
  nth (fun _ _ => None) (compute_autocovariance half var 2 true) 1 ord0 ord0 = Some (2%:R^-1).
Proof.
have p : 0 < var ord0 ord0 by rewrite mxE eqxx mulr1n divr_gt0 ?ltr0n.
rewrite C72_correlation //= -expr2 sqr_sqrtr ?ltW // /half mul_scalar_mx mxE mulfK //; exact: lt0r_neq0.
Qed.
(* two shocks hitting one variable; a unit impulse to the second one, given by name *)
Definition load : 'M[F]_(1, 2) := \row_j (if j == 0 then 1 else 3%:R).
Theorem C70_case (ac : ndarray F -> ndarray F -> bool) ch draw :
  impulse_response (names := [:: 7%N; 5%N]) half load ac ch draw (Args (Some (Dict [:: (5%N, 1 : F)])) None None) None 2 =
  Returned (Individual [:: (5%N, [:: (3%:R)%:M; (2%:R^-1 * 3%:R)%:M])]).
Proof.
rewrite C70_individual_dict //; last by move=> x; rewrite !inE => ->; rewrite orbT.
have E i : load *m alone i (1 : F) = (load 0 i)%:M.
  apply/matrixP => a b; rewrite !ord1 !mxE eqxx mulr1n (bigD1 i) //= big1 ?addr0 ?mxE ?eqxx ?mulr1 ?mxE // => j ji.
  by rewrite !mxE (negbTE ji) mulr0.
rewrite /each_shock /= !enum_ordSl enum_ord0 /=; congr (Returned (Individual _)).
rewrite !(tnth_nth 0%N) /= /impulse_path /mkseq /= E mxE /= /half -scalar_mxM.
by [].
Qed.
Theorem C71_case : build_Q [:: 7%N; 5%N] (Q_args (Some [:: (5%N, 2%:R : F); (7%N, 3%:R)]) None None) =
  Returned (diagonal (names := [:: 7%N; 5%N]) (fun i => if i == 0 then 3%:R else 2%:R)).
Proof.
rewrite C71_dict //; last by move=> x; rewrite !inE orbC.
congr Returned; apply/matrixP => i j; rewrite !mxE; case: eqP => // _; congr (_ ^+ 2).
by case: i => -[|[|//]] hi; rewrite (tnth_nth 0%N).
Qed.
End Case.
