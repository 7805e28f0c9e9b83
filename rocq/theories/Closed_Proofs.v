From Verif Require Import Common Sym_Model Sym_Spec Sym_Proofs Sym_Diff Sym_Flatten SymDict_Model Block_Model Block_Spec Block_Foc Closed_Model Closed_Spec.
From Coq Require Import Permutation Reals Lra.
Local Open Scope list_scope.

Section W.
Variable G : smooth.
Notation evr := (ev (Ralg G)).
Local Open Scope R_scope.

(* ---------- the part of the discounted Lagrangian that depends on the control ---------- *)
Lemma sum_head F H : sum_f_R0 F H = F 0%nat + sum_f_R0 (fun k => match k with O => 0 | _ => F k end) H.
Proof. induction H as [|H IH]; cbn [sum_f_R0]; [lra|]. rewrite IH. lra. Qed.
Lemma with_value_later_out n t k (env : sym -> R) y e : (forall t', In (SDate n t') (atoms e) -> t' = t) -> (k > 0)%Z ->
  evr (later k (with_value env (SDate n t) y)) e = evr (later k env) e.
Proof.
  intros H Hk. apply ev_ext. intros s Hs. destruct s as [p|b t'|b]; cbn [later]; unfold with_value; cbn [sym_eqb]; try reflexivity.
  destruct (sym_eqb (SDate b (t' + k)) (SDate n t)) eqn:E; [|reflexivity]. apply sym_eqb_eq in E. injection E as -> E.
  specialize (H t' Hs). lia.
Qed.
Lemma later0_ev (env : sym -> R) e : evr (later 0 env) e = evr env e.
Proof. apply ev_ext. intros s _. apply later_0. Qed.

Lemma closed_core ord (Ho : set_order_ok ord) o l r df n t mn mt f g (env : sym -> R) :
  no_ss o -> no_ss l -> no_ss r -> param_only df -> mn <> n ->
  (forall t', In (SDate n t') (atoms l ++ atoms r) -> t' = t) ->
  foc_of ord (Ad o (Ng (Mu (Sy (SDate mn mt)) (Ad l (Ng r))))) df (SDate n t) = Ok f ->
  foc_of ord o df (SDate n t) = Ok g ->
  defined G env df ->
  (forall k, defined G (later k env) o /\ defined G (later k env) l /\ defined G (later k env) r) ->
  evr env f = evr env g - env (SDate mn mt) * (evr env (diff (SDate n t) l) - evr env (diff (SDate n t) r)).
Proof.
  intros So Sl Sr Hp Hmn Hat Hf Hg Hdf Hd. set (L := Ad o (Ng (Mu (Sy (SDate mn mt)) (Ad l (Ng r))))) in *. set (x := SDate n t) in *.
  assert (SL : no_ss L).
  { intros b Hb. unfold L in Hb. cbn in Hb. apply in_app_or in Hb as [Hb|[Hb|Hb]]; [exact (So b Hb)|discriminate|].
    apply in_app_or in Hb as [Hb|Hb]; [exact (Sl b Hb)|exact (Sr b Hb)]. }
  assert (DL : forall k, defined G (later k env) L) by (intro k; destruct (Hd k) as (d1 & d2 & d3); cbn; auto).
  unfold foc_of, x in Hf, Hg. cbv iota beta in Hf, Hg.
  destruct (dtt_correct ord Ho G L df n t SL Hp) as (f' & n1 & Ef & HL). assert (f' = f) by congruence. subst f'.
  destruct (dtt_correct ord Ho G o df n t So Hp) as (g' & n2 & Eg & Hob). assert (g' = g) by congruence. subst g'.
  set (H := Nat.max n1 n2).
  specialize (HL env H ltac:(unfold H; lia) Hdf ltac:(intros; apply DL)).
  specialize (Hob env H ltac:(unfold H; lia) Hdf ltac:(intros; apply Hd)). fold x in HL, Hob.
  set (c := fun y => evr (with_value env x y) l - evr (with_value env x y) r).
  assert (Hc : derivable_pt_lim c (env x) (evr env (diff x l) - evr env (diff x r))).
  { unfold c. apply derivable_pt_lim_minus; (apply derivable_diff; [reflexivity|]).
    - apply (defined_ext G (later 0 env)); [intros; apply later_0|]. apply (Hd 0%Z).
    - apply (defined_ext G (later 0 env)); [intros; apply later_0|]. apply (Hd 0%Z). }
  set (K := sum_f_R0 (fun k => match k with O => 0 | _ => (evr env df) ^ k * (later (Z.of_nat k) env (SDate mn mt) * (evr (later (Z.of_nat k) env) l - evr (later (Z.of_nat k) env) r)) end) H).
  assert (Hsum : forall y, discounted_sum G L (evr env df) H (with_value env x y) =
                 discounted_sum G o (evr env df) H (with_value env x y) - (env (SDate mn mt) * c y + K)).
  { intro y. unfold discounted_sum.
    assert (E : sum_f_R0 (fun k => evr env df ^ k * evr (later (Z.of_nat k) (with_value env x y)) L) H =
       sum_f_R0 (fun k => evr env df ^ k * evr (later (Z.of_nat k) (with_value env x y)) o) H -
       sum_f_R0 (fun k => evr env df ^ k * (later (Z.of_nat k) (with_value env x y) (SDate mn mt) *
           (evr (later (Z.of_nat k) (with_value env x y)) l - evr (later (Z.of_nat k) (with_value env x y)) r))) H).
    { rewrite <- minus_sum. apply sum_eq. intros k _. unfold L. rewrite evAd, evNg, evMu, evSy, evAd, evNg. ring. }
    rewrite E. f_equal. rewrite sum_head. f_equal.
    - cbn [pow Z.of_nat]. rewrite !later0_ev, later_0. unfold c. rewrite Rmult_1_l. f_equal.
      unfold with_value. destruct (sym_eqb (SDate mn mt) x) eqn:E2; [|reflexivity]. apply sym_eqb_eq in E2. unfold x in E2. injection E2 as E2 _. contradiction.
    - unfold K. apply sum_eq. intros [|k] _; [reflexivity|]. f_equal. f_equal.
      + cbn [later]. unfold with_value. destruct (sym_eqb (SDate mn (mt + Z.of_nat (S k))) x) eqn:E2; [|reflexivity]. apply sym_eqb_eq in E2. unfold x in E2. injection E2 as E2 _. contradiction.
      + unfold x. rewrite !with_value_later_out; [reflexivity| | | |]; try lia; intros t' Ht'; apply Hat; apply in_or_app; auto. }
  assert (HL' : derivable_pt_lim (fun y => discounted_sum G o (evr env df) H (with_value env x y) - (env (SDate mn mt) * c y + K)) (env x)
                  (evr env g - (env (SDate mn mt) * (evr env (diff x l) - evr env (diff x r)) + 0))).
  { apply derivable_pt_lim_minus; [exact Hob|]. apply derivable_pt_lim_plus; [apply derivable_pt_lim_scal; exact Hc|apply derivable_pt_lim_const]. }
  rewrite Rplus_0_r in HL'. eapply uniqueness_limite; [exact HL|]. eapply derivable_pt_lim_ext; [|exact HL']. intro y. symmetry. apply Hsum.
Qed.

(* ---------- signed addends, factors ---------- *)
Definition ssum (v : sx -> R) (l : list (bool * sx)) : R := fold_right (fun (bt : bool * sx) (acc : R) => (if fst bt then v (snd bt) else - v (snd bt)) + acc) 0 l.
Lemma ssum_app v l l' : ssum v (l ++ l') = ssum v l + ssum v l'.
Proof. unfold ssum. induction l as [|a l IH]; cbn [app fold_right]; [lra|]. rewrite IH. lra. Qed.
Lemma signed_ev env e : forall pos, ssum (evr env) (signed pos e) = if pos then evr env e else - evr env e.
Proof.
  induction e as [z|s|a IHa b IHb|a IHa b IHb|a IH|h k a IH]; intro pos; cbn [signed].
  - destruct z; unfold ssum; cbn [fold_right fst snd]; destruct pos; cbn; lra.
  - unfold ssum; cbn [fold_right fst snd]. destruct pos; lra.
  - rewrite ssum_app, IHa, IHb, evAd. destruct pos; lra.
  - unfold ssum; cbn [fold_right fst snd]. destruct pos; lra.
  - rewrite IH, evNg. destruct pos; cbn [negb]; lra.
  - unfold ssum; cbn [fold_right fst snd]. destruct pos; lra.
Qed.
Lemma signed_diff env x e : forall pos, ssum (fun t => evr env (diff x t)) (signed pos e) = if pos then evr env (diff x e) else - evr env (diff x e).
Proof.
  induction e as [z|s|a IHa b IHb|a IHa b IHb|a IH|h k a IH]; intro pos; cbn [signed].
  - destruct z; unfold ssum; cbn [fold_right fst snd]; destruct pos; cbn; lra.
  - unfold ssum; cbn [fold_right fst snd]. destruct pos; lra.
  - rewrite ssum_app, IHa, IHb. cbn [diff]. rewrite evAd. destruct pos; lra.
  - unfold ssum; cbn [fold_right fst snd]. destruct pos; lra.
  - rewrite IH. cbn [diff]. rewrite evNg. destruct pos; cbn [negb]; lra.
  - unfold ssum; cbn [fold_right fst snd]. destruct pos; lra.
Qed.
Lemma signed_atoms e : forall pos bt s, In bt (signed pos e) -> In s (atoms (snd bt)) -> In s (atoms e).
Proof.
  induction e as [z|s0|a IHa b IHb|a IHa b IHb|a IH|h k a IH]; intros pos bt s Hb Hs; cbn [signed] in Hb.
  - destruct z; destruct Hb as [<-|[]] || destruct Hb; exact Hs.
  - destruct Hb as [<-|[]]; exact Hs.
  - cbn. apply in_app_or in Hb as [Hb|Hb]; apply in_or_app; eauto.
  - destruct Hb as [<-|[]]; exact Hs.
  - cbn. eauto.
  - destruct Hb as [<-|[]]; exact Hs.
Qed.
Lemma signed_defined env e : defined G env e -> forall pos bt, In bt (signed pos e) -> defined G env (snd bt).
Proof.
  induction e as [z|s0|a IHa b IHb|a IHa b IHb|a IH|h k a IH]; intros Hd pos bt Hb; cbn [signed] in Hb.
  - destruct z; destruct Hb as [<-|[]] || destruct Hb; exact I.
  - destruct Hb as [<-|[]]; exact I.
  - destruct Hd as [H1 H2]. apply in_app_or in Hb as [Hb|Hb]; eauto.
  - destruct Hb as [<-|[]]; exact Hd.
  - eapply IH; eassumption.
  - destruct Hb as [<-|[]]; exact Hd.
Qed.
Lemma split_shape l Y prod : split_residual l = Some (Y, prod) ->
  exists s t, (l = [(false, Sy Y); (s, t)] \/ l = [(s, t); (false, Sy Y)]) /\ prod = if (s : bool) then t else Ng t.
Proof.
  intro H. unfold split_residual in H. repeat (match type of H with context [match ?d with _ => _ end] => is_var d; destruct d end; try discriminate).
  all: injection H as <- <-; eauto 6.
Qed.
Lemma split_value (v : sx -> R) l Y prod : (forall a, v (Ng a) = - v a) -> split_residual l = Some (Y, prod) -> ssum v l = v prod - v (Sy Y).
Proof.
  intros HN H. apply split_shape in H as (s & t & [-> | ->] & ->); unfold ssum; cbn [fold_right fst snd]; destruct s; rewrite ?HN; lra.
Qed.
Lemma split_in l Y prod : split_residual l = Some (Y, prod) ->
  (exists b, In (b, Sy Y) l) /\ exists b t, In (b, t) l /\ (prod = t \/ prod = Ng t).
Proof.
  intro H. apply split_shape in H as (s & t & [-> | ->] & ->); (split; [exists false; cbn; auto|]); exists s, t; (split; [cbn; auto|]); destruct s; auto.
Qed.

Definition pval (env : sym -> R) (l : list sx) : R := fold_right (fun f acc => evr env f * acc) 1 l.
Fixpoint dprod (env : sym -> R) (x : sym) (l : list sx) : R :=
  match l with [] => 0 | f :: l' => evr env (diff x f) * pval env l' + evr env f * dprod env x l' end.
Lemma pval_app env l l' : pval env (l ++ l') = pval env l * pval env l'.
Proof. unfold pval. induction l as [|a l IH]; cbn [app fold_right]; [lra|]. rewrite IH. ring. Qed.
Lemma dprod_app env x l l' : dprod env x (l ++ l') = dprod env x l * pval env l' + pval env l * dprod env x l'.
Proof. induction l as [|a l IH]; cbn [app dprod]; [cbn; ring|]. rewrite IH, pval_app. unfold pval. cbn [fold_right]. fold (pval env l). ring. Qed.
Lemma factors_ev env e : pval env (factors e) = evr env e.
Proof.
  induction e as [z|s|a IHa b IHb|a IHa b IHb|a IH|h k a IH]; cbn [factors]; try (unfold pval; cbn [fold_right]; lra).
  - rewrite pval_app, IHa, IHb. reflexivity.
  - change (pval env (Cst (-1) :: factors a)) with (evr env (Cst (-1)) * pval env (factors a)). rewrite IH, evNg. cbn. ring.
Qed.
Lemma factors_diff env x e : dprod env x (factors e) = evr env (diff x e).
Proof.
  induction e as [z|s|a IHa b IHb|a IHa b IHb|a IH|h k a IH]; cbn [factors]; try (cbn [dprod]; unfold pval; cbn [fold_right]; lra).
  - rewrite dprod_app, IHa, IHb, !factors_ev. cbn [diff]. rewrite evAd, !evMu. ring.
  - cbn [dprod]. rewrite IH. cbn [diff]. rewrite evNg. cbn. ring.
Qed.
Lemma factors_atoms e s f : In f (factors e) -> In s (atoms f) -> In s (atoms e).
Proof.
  revert f. induction e as [z|s0|a IHa b IHb|a IHa b IHb|a IH|h k a IH]; intros f Hf Hs; cbn [factors] in Hf.
  - destruct Hf as [<-|[]]; exact Hs.
  - destruct Hf as [<-|[]]; exact Hs.
  - destruct Hf as [<-|[]]; exact Hs.
  - cbn. apply in_app_or in Hf as [Hf|Hf]; apply in_or_app; eauto.
  - destruct Hf as [<-|Hf]; [destruct Hs|]. cbn. eauto.
  - destruct Hf as [<-|[]]; exact Hs.
Qed.
Lemma factors_defined env e f : defined G env e -> In f (factors e) -> defined G env f.
Proof.
  revert f. induction e as [z|s0|a IHa b IHb|a IHa b IHb|a IH|h k a IH]; intros f Hd Hf; cbn [factors] in Hf.
  - destruct Hf as [<-|[]]; exact Hd.
  - destruct Hf as [<-|[]]; exact Hd.
  - destruct Hf as [<-|[]]; exact Hd.
  - destruct Hd. apply in_app_or in Hf as [Hf|Hf]; eauto.
  - destruct Hf as [<-|Hf]; [exact I|]. cbn in Hd. eauto.
  - destruct Hf as [<-|[]]; exact Hd.
Qed.
Lemma diff_free env x e : ~ In x (atoms e) -> evr env (diff x e) = 0.
Proof.
  induction e as [z|s0|a IHa b IHb|a IHa b IHb|a IH|h k a IH]; cbn [atoms diff]; intro H.
  - reflexivity.
  - destruct (sym_eqb s0 x) eqn:E; [|reflexivity]. apply sym_eqb_eq in E. subst. exfalso. apply H. now left.
  - rewrite evAd, IHa, IHb; [lra| |]; intro K; apply H, in_or_app; auto.
  - rewrite evAd, !evMu, IHa, IHb; [lra| |]; intro K; apply H, in_or_app; auto.
  - rewrite evNg, IH by exact H. lra.
  - rewrite evMu, IH by exact H. lra.
Qed.
Lemma distinct_NoDup l : distinct l = true <-> NoDup l.
Proof.
  induction l as [|x l IH]; cbn [distinct]; [split; [constructor|reflexivity]|]. rewrite andb_true_iff, negb_true_iff. split.
  - intros [H1 H2]. constructor; [|now apply IH]. intro Hin. apply smem_In in Hin. congruence.
  - intro H. inversion H as [|? ? H1 H2]. split; [|now apply IH]. apply not_true_iff_false. intro K. apply smem_In in K. contradiction.
Qed.
Lemma as_pow_spec e x a : as_pow e = Some (x, a) -> e = pw x a.
Proof.
  unfold as_pow. destruct e as [| | | | |f k e]; try discriminate. destruct k; [|discriminate]. destruct e as [| | |a' b'| |]; try discriminate.
  destruct b' as [| | | | |g k e]; try discriminate. destruct k; [|discriminate].
  destruct (chars_eqb f (str "exp")) eqn:E1; [|discriminate]. destruct (chars_eqb g (str "log")) eqn:E2; [|discriminate].
  apply chars_eqb_eq in E1, E2. subst. cbn. intro H. injection H as <- <-. reflexivity.
Qed.

Section P.
Hypothesis HG : power_world G.
Lemma pw_ev env x a : 0 < evr env x -> evr env (pw x a) = Rpower (evr env x) (evr env a).
Proof. intro H. unfold pw. cbn -[Rpower str]. rewrite (pw_exp G HG), (pw_ln G HG) by exact H. reflexivity. Qed.
Lemma pw_defined env x a : defined G env (pw x a) -> defined G env a /\ defined G env x /\ 0 < evr env x.
Proof. intro H. destruct H as [[H1 [H2 H3]] _]. repeat split; auto. apply (pw_dom G HG). exact H3. Qed.
(* derivative of b ** a when a does not contain x *)
Lemma pw_diff env x b a : 0 < evr env b -> ~ In x (atoms a) ->
  evr env (diff x (pw b a)) = evr env a * evr env (diff x b) * / evr env b * evr env (pw b a).
Proof.
  intros Hb Ha. unfold pw. cbn [diff]. rewrite !evMu, evAd, !evMu, (diff_free env x a Ha).
  change (evr env (Fn (str "exp") 1 ?u)) with (s_fn G (str "exp") 1 (evr env u)).
  change (evr env (Fn (str "exp") 0 ?u)) with (s_fn G (str "exp") 0 (evr env u)).
  change (evr env (Fn (str "log") 1 b)) with (s_fn G (str "log") 1 (evr env b)).
  rewrite !(pw_exp G HG), (pw_dln G HG) by exact Hb. ring.
Qed.

(* ---------- monomials ---------- *)
Fixpoint coef (env : sym -> R) (x : sym) (ins : list (sym * sx)) : R :=
  match ins with [] => 0 | (y, a) :: l => (if sym_eqb y x then evr env a else 0) + coef env x l end.
Lemma coef_app env x l l' : coef env x (l ++ l') = coef env x l + coef env x l'.
Proof. induction l as [|[y a] l IH]; cbn [app coef]; [lra|]. rewrite IH. lra. Qed.
Lemma coef_find env x ins a : NoDup (map fst ins) -> find_input x ins = Some a -> coef env x ins = evr env a.
Proof.
  unfold find_input. induction ins as [|[y b] l IH]; cbn [map fst find coef]; intros Hn H; [discriminate|].
  inversion Hn as [|? ? H1 H2]; subst. destruct (sym_eqb x y) eqn:E; cbn [snd] in H.
  - injection H as <-. apply sym_eqb_eq in E. subst y. rewrite sym_eqb_refl.
    assert (K : coef env x l = 0); [|lra]. clear -H1. induction l as [|[y c] l IH]; cbn [coef]; [reflexivity|]. cbn in H1.
    destruct (sym_eqb y x) eqn:E; [apply sym_eqb_eq in E; subst; exfalso; apply H1; now left|]. rewrite IH; [lra|]. intro; apply H1; now right.
  - destruct (sym_eqb y x) eqn:E2; [apply sym_eqb_eq in E2; subst; rewrite sym_eqb_refl in E; discriminate|]. rewrite (IH H2 H). lra.
Qed.
Lemma monomial_none l : fold_left monomial_step l None = None.
Proof. induction l; cbn; auto. Qed.
Lemma monomial_fold env x l : forall A ins A' ins', fold_left monomial_step l (Some (A, ins)) = Some (A', ins') ->
  ~ In x (olist A') -> (forall y a, In (y, a) ins' -> ~ In x (atoms a)) -> (forall f, In f l -> defined G env f) ->
  (forall s, In s (olist A) -> In s (olist A')) /\
  exists new, ins' = ins ++ new /\ dprod env x l = coef env x new * / env x * pval env l.
Proof.
  induction l as [|f l IH]; intros A ins A' ins' H HA Ha Hd.
  - cbn in H. injection H as <- <-. split; [auto|]. exists []. rewrite app_nil_r. split; [reflexivity|]. cbn. ring.
  - cbn [fold_left] in H. assert (Hd' : forall f, In f l -> defined G env f) by (intros; apply Hd; now right).
    unfold monomial_step at 2 in H. destruct (as_pow f) as [[b a]|] eqn:Ep.
    + apply as_pow_spec in Ep. subst f. destruct b as [z|y|? ?|? ?|?|? ? ?]; try (rewrite monomial_none in H; discriminate).
      destruct (IH _ _ _ _ H HA Ha Hd') as (K0 & new & -> & K). split; [exact K0|]. exists ((y, a) :: new). rewrite <- app_assoc. split; [reflexivity|].
      cbn [dprod coef]. destruct (pw_defined env _ _ (Hd _ (or_introl eq_refl))) as (_ & _ & Hy). cbn in Hy.
      rewrite pw_diff; [|exact Hy|]. 2:{ apply (Ha y). apply in_or_app. left. apply in_or_app. right. now left. }
      rewrite K. cbn [diff]. rewrite evSy. unfold pval. cbn [fold_right]. fold (pval env l).
      destruct (sym_eqb y x) eqn:E.
      * apply sym_eqb_eq in E. subst y. cbn [ev a_cst Ralg]. ring.
      * cbn [ev a_cst Ralg]. ring.
    + destruct f as [z|s|? ?|? ?|?|? ? ?]; try (rewrite monomial_none in H; discriminate).
      destruct A as [s0|]; [rewrite monomial_none in H; discriminate|].
      destruct (IH _ _ _ _ H HA Ha Hd') as (K0 & new & -> & K). split; [intros ? []|]. exists new. split; [reflexivity|].
      cbn [dprod]. rewrite K. unfold pval. cbn [fold_right]. fold (pval env l). rewrite diff_free; [ring|].
      cbn. intros [->|[]]. apply HA, K0. now left.
Qed.
Lemma monomial_diff env x e A ins a : decompose_monomial e = Some (A, ins) -> ~ In x (olist A) ->
  (forall y a, In (y, a) ins -> ~ In x (atoms a)) -> defined G env e -> find_input x ins = Some a ->
  evr env (diff x e) = evr env a * / env x * evr env e.
Proof.
  unfold decompose_monomial. destruct (fold_left monomial_step (factors e) (Some (None, []))) as [[A' ins']|] eqn:E; [|discriminate].
  destruct ins' as [|i0 ins0] eqn:Ei; [discriminate|]. rewrite <- Ei in *. clear Ei i0 ins0.
  destruct (distinct (map fst ins')) eqn:Ed; [|discriminate]. intros H HA Ha Hd Hf. injection H as <- <-.
  apply distinct_NoDup in Ed.
  destruct (monomial_fold env x _ _ _ _ _ E HA Ha (fun f Hf => factors_defined env e f Hd Hf)) as (_ & new & -> & K).
  cbn [app] in *. rewrite <- factors_diff, K, factors_ev, (coef_find env x new a Ed Hf). reflexivity.
Qed.
End P.
End W.
