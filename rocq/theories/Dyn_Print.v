From Coq Require Import QArith Qreals Reals Lra.
From Verif Require Import Common Expr_Model Dyn_Model Dyn_Spec Dyn_Proofs.
Local Open Scope nat_scope.
Local Open Scope list_scope.

(* induction over expressions *)
Section Ind.
Variable P : dx -> Prop.
Hypotheses (H1 : forall n, P (DNum n)) (H2 : forall n, P (DSym n)) (H3 : forall b t, P (DVar b t))
  (H4 : forall l, Forall P l -> P (DAdd l)) (H5 : forall c l, Forall P l -> P (DMul c l)) (H6 : forall b e, P b -> P e -> P (DPow b e))
  (H7 : forall f l, Forall P l -> P (DFun f l)).
Fixpoint dx_ind2 (e : dx) : P e :=
  let all := fix all (l : list dx) : Forall P l := match l with [] => Forall_nil P | x :: l' => Forall_cons x (dx_ind2 x) (all l') end in
  match e with
  | DNum n => H1 n | DSym n => H2 n | DVar b t => H3 b t
  | DAdd l => H4 l (all l) | DMul c l => H5 c l (all l)
  | DPow b ex => H6 b ex (dx_ind2 b) (dx_ind2 ex) | DFun f l => H7 f l (all l)
  end.
End Ind.

(* what may follow a text: 0 after a sum, 1 after a product, 2 after a signed power, 3 after an atom *)
Definition fol (n : nat) (rest : list tok) : Prop :=
  match rest with
  | [] | TkRP :: _ | TkComma :: _ => True
  | TkPlus :: _ | TkMinus :: _ => 1 <= n
  | TkTimes :: _ | TkDiv :: _ => 2 <= n
  | TkPow :: _ => 3 <= n
  | _ => False
  end.
Lemma fol_up n n' rest : n <= n' -> fol n rest -> fol n' rest.
Proof. intro H. destruct rest as [|[] r]; cbn; auto; lia. Qed.

Section Reading.
Variables (lv : chars -> Q) (isf : chars -> bool) (A : arithmetic) (env : chars -> Z -> R).
Notation rs := (r_sum lv isf). Notation rsm := (r_sum_more lv isf). Notation rp := (r_prod lv isf). Notation rpm := (r_prod_more lv isf).
Notation rg := (r_signed lv isf). Notation rw := (r_power lv isf). Notation ra := (r_atom lv isf). Notation rl := (r_args lv isf).
Notation val := (y_value A env).
Local Open Scope R_scope.

Definition atomT (ts : list tok) (v : R) : Prop := forall rest, fol 3 rest -> exists f y, ra f (ts ++ rest) = Some (y, rest) /\ val y = v.
Inductive powT : list tok -> R -> Prop :=
| powT_atom t v : atomT t v -> powT t v
| powT_pow t v t' v' : atomT t v -> atomT t' v' -> powT (t ++ TkPow :: t') (a_pow A v v').
Inductive sgnT : list tok -> R -> Prop :=
| sgnT_neg t v : sgnT t v -> sgnT (TkMinus :: t) (- v)
| sgnT_pow t v : powT t v -> sgnT t v.
Inductive ptailT : list tok -> R -> Prop :=
| ptail_nil : ptailT [] 1
| ptail_mul t v tl w : sgnT t v -> ptailT tl w -> ptailT (TkTimes :: t ++ tl) (v * w)
| ptail_div t v tl w : sgnT t v -> ptailT tl w -> ptailT (TkDiv :: t ++ tl) (/ v * w).
Inductive prodT : list tok -> R -> Prop := prodT_intro t v tl w x : sgnT t v -> ptailT tl w -> x = v * w -> prodT (t ++ tl) x.
Inductive stailT : list tok -> R -> Prop :=
| stail_nil : stailT [] 0
| stail_add t v tl w : prodT t v -> stailT tl w -> stailT (TkPlus :: t ++ tl) (v + w)
| stail_sub t v tl w : prodT t v -> stailT tl w -> stailT (TkMinus :: t ++ tl) (- v + w).
Inductive sumT : list tok -> R -> Prop := sumT_intro t v tl w x : prodT t v -> stailT tl w -> x = v + w -> sumT (t ++ tl) x.

Ltac fuel f := apply f with (2 := ltac:(eassumption)); lia.
Lemma no_minus_atom r v : ~ atomT (TkMinus :: r) v.
Proof. intro H. destruct (H [] I) as (f & y & E & _). destruct f; discriminate E. Qed.
Lemma no_empty_atom v : ~ atomT [] v.
Proof. intro H. destruct (H [] I) as (f & y & E & _). destruct f; discriminate E. Qed.
Lemma no_minus_pow r v : ~ powT (TkMinus :: r) v.
Proof.
  intro H. inversion H as [t v0 Ha|t v0 t' v' Ha Hb E]; subst; [eapply no_minus_atom; eassumption|].
  destruct t as [|k t]; [eapply no_empty_atom; eassumption|]. injection E as -> _. eapply no_minus_atom; eassumption.
Qed.
Lemma no_empty_sgn v : ~ sgnT [] v.
Proof.
  intro H. inversion H as [|t v0 Hp]; subst. inversion Hp as [t v1 Ha|t v1 t' v' Ha Hb E]; subst; [eapply no_empty_atom; eassumption|]. destruct t; discriminate E.
Qed.
Lemma sgn_minus r v : sgnT (TkMinus :: r) v -> sgnT r (- v).
Proof. intro H. inversion H; subst; [now rewrite Ropp_involutive|exfalso; eapply no_minus_pow; eassumption]. Qed.
Lemma prod_minus r v : prodT (TkMinus :: r) v -> prodT r (- v).
Proof.
  intro H. inversion H as [t v0 tl w x Hs Ht Ex E]; subst. destruct t as [|k t]; [exfalso; eapply no_empty_sgn; eassumption|]. injection E as -> <-.
  apply sgn_minus in Hs. eapply prodT_intro; [eassumption|eassumption|ring].
Qed.

(* such texts are read *)
Lemma pow_read t v : powT t v -> forall rest, fol 2 rest -> exists f y, rw f (t ++ rest) = Some (y, rest) /\ val y = v.
Proof.
  intros H rest Hr. destruct H as [t v H|t v t' v' H H'].
  - destruct (H rest ltac:(eapply fol_up; [|eassumption]; lia)) as (f & y & E & Ev). exists (S f), y. split; [|exact Ev]. rewrite r_power_S. rewrite E. destruct rest as [|[] r]; try reflexivity. cbn in Hr. lia.
  - destruct (H (TkPow :: t' ++ rest)) as (f & y & E & Ev); [cbn; lia|]. destruct (H' rest ltac:(eapply fol_up; [|eassumption]; lia)) as (f' & y' & E' & Ev').
    exists (S (Nat.max f f')), (YPow y y'). split; [|cbn; now rewrite Ev, Ev'].
    rewrite <- app_assoc. cbn [app]; rewrite r_power_S. rewrite (atom_mono lv isf f (Nat.max f f') _ _ ltac:(lia) E), (atom_mono lv isf f' (Nat.max f f') _ _ ltac:(lia) E'). reflexivity.
Qed.
Lemma sgn_read t v : sgnT t v -> forall rest, fol 2 rest -> exists f y, rg f (t ++ rest) = Some (y, rest) /\ val y = v.
Proof.
  induction 1 as [t v H IH|t v H]; intros rest Hr.
  - destruct (IH rest Hr) as (f & y & E & Ev). exists (S f), (YNeg y). split; [|cbn; now rewrite Ev]. cbn [app]; rewrite r_signed_S. now rewrite E.
  - destruct (pow_read _ _ H rest Hr) as (f & y & E & Ev). exists (S f), y. split; [|exact Ev]. rewrite r_signed_S. rewrite E.
    destruct (t ++ rest) as [|[] r] eqn:Et; try reflexivity. exfalso. destruct t as [|k t]; [eapply no_empty_sgn, sgnT_pow; eassumption|]. injection Et as -> _. eapply no_minus_pow; eassumption.
Qed.
Lemma ptail_fol tl w rest : ptailT tl w -> fol 1 rest -> fol 2 (tl ++ rest).
Proof. intros H Hr. destruct H; cbn; try lia. eapply fol_up; [|exact Hr]; lia. Qed.
Lemma ptail_read tl w : ptailT tl w -> forall rest, fol 1 rest -> forall a, exists f y, rpm f a (tl ++ rest) = Some (y, rest) /\ val y = val a * w.
Proof.
  induction 1 as [|t v tl w Hs Ht IH|t v tl w Hs Ht IH]; intros rest Hr a.
  - exists 1%nat, a. split; [cbn [app]; rewrite r_prod_more_S|ring]. destruct rest as [|[] r]; try reflexivity; cbn in Hr; lia.
  - destruct (sgn_read _ _ Hs (tl ++ rest) (ptail_fol _ _ _ Ht Hr)) as (f & y & E & Ev). destruct (IH rest Hr (YMul a y)) as (f' & y' & E' & Ev').
    exists (S (Nat.max f f')), y'. split; [|rewrite Ev'; cbn; rewrite Ev; ring]. cbn [app]; rewrite r_prod_more_S. rewrite <- app_assoc.
    rewrite (signed_mono lv isf f (Nat.max f f') _ _ ltac:(lia) E). exact (prodmore_mono lv isf f' (Nat.max f f') _ _ _ ltac:(lia) E').
  - destruct (sgn_read _ _ Hs (tl ++ rest) (ptail_fol _ _ _ Ht Hr)) as (f & y & E & Ev). destruct (IH rest Hr (YDiv a y)) as (f' & y' & E' & Ev').
    exists (S (Nat.max f f')), y'. split; [|rewrite Ev'; cbn; rewrite Ev; unfold Rdiv; ring]. cbn [app]; rewrite r_prod_more_S. rewrite <- app_assoc.
    rewrite (signed_mono lv isf f (Nat.max f f') _ _ ltac:(lia) E). exact (prodmore_mono lv isf f' (Nat.max f f') _ _ _ ltac:(lia) E').
Qed.
Lemma prod_read t v : prodT t v -> forall rest, fol 1 rest -> exists f y, rp f (t ++ rest) = Some (y, rest) /\ val y = v.
Proof.
  intros [t0 v0 tl w x Hs Ht ->] rest Hr. destruct (sgn_read _ _ Hs (tl ++ rest) (ptail_fol _ _ _ Ht Hr)) as (f & y & E & Ev). destruct (ptail_read _ _ Ht rest Hr y) as (f' & y' & E' & Ev').
  exists (S (Nat.max f f')), y'. split; [|now rewrite Ev', Ev]. rewrite r_prod_S. rewrite <- app_assoc, (signed_mono lv isf f (Nat.max f f') _ _ ltac:(lia) E). exact (prodmore_mono lv isf f' (Nat.max f f') _ _ _ ltac:(lia) E').
Qed.
Lemma stail_fol tl w rest : stailT tl w -> fol 0 rest -> fol 1 (tl ++ rest).
Proof. intros H Hr. destruct H; cbn; try lia. eapply fol_up; [|exact Hr]; lia. Qed.
Lemma stail_read tl w : stailT tl w -> forall rest, fol 0 rest -> forall a, exists f y, rsm f a (tl ++ rest) = Some (y, rest) /\ val y = val a + w.
Proof.
  induction 1 as [|t v tl w Hs Ht IH|t v tl w Hs Ht IH]; intros rest Hr a.
  - exists 1%nat, a. split; [cbn [app]; rewrite r_sum_more_S|ring]. destruct rest as [|[] r]; try reflexivity; cbn in Hr; lia.
  - destruct (prod_read _ _ Hs (tl ++ rest) (stail_fol _ _ _ Ht Hr)) as (f & y & E & Ev). destruct (IH rest Hr (YAdd a y)) as (f' & y' & E' & Ev').
    exists (S (Nat.max f f')), y'. split; [|rewrite Ev'; cbn; rewrite Ev; ring]. cbn [app]; rewrite r_sum_more_S. rewrite <- app_assoc.
    rewrite (prod_mono lv isf f (Nat.max f f') _ _ ltac:(lia) E). exact (summore_mono lv isf f' (Nat.max f f') _ _ _ ltac:(lia) E').
  - destruct (prod_read _ _ Hs (tl ++ rest) (stail_fol _ _ _ Ht Hr)) as (f & y & E & Ev). destruct (IH rest Hr (YSub a y)) as (f' & y' & E' & Ev').
    exists (S (Nat.max f f')), y'. split; [|rewrite Ev'; cbn; rewrite Ev; ring]. cbn [app]; rewrite r_sum_more_S. rewrite <- app_assoc.
    rewrite (prod_mono lv isf f (Nat.max f f') _ _ ltac:(lia) E). exact (summore_mono lv isf f' (Nat.max f f') _ _ _ ltac:(lia) E').
Qed.
Lemma sum_read t v : sumT t v -> forall rest, fol 0 rest -> exists f y, rs f (t ++ rest) = Some (y, rest) /\ val y = v.
Proof.
  intros [t0 v0 tl w x Hs Ht ->] rest Hr. destruct (prod_read _ _ Hs (tl ++ rest) (stail_fol _ _ _ Ht Hr)) as (f & y & E & Ev). destruct (stail_read _ _ Ht rest Hr y) as (f' & y' & E' & Ev').
  exists (S (Nat.max f f')), y'. split; [|now rewrite Ev', Ev]. rewrite r_sum_S. rewrite <- app_assoc, (prod_mono lv isf f (Nat.max f f') _ _ ltac:(lia) E). exact (summore_mono lv isf f' (Nat.max f f') _ _ _ ltac:(lia) E').
Qed.
Lemma sum_reads t v : sumT t v -> exists y, reads lv isf t y /\ val y = v.
Proof. intro H. destruct (sum_read _ _ H [] I) as (f & y & E & Ev). exists y. split; [|exact Ev]. exists f. now rewrite app_nil_r in E. Qed.

(* building texts *)
Lemma sgn_prod t v : sgnT t v -> prodT t v.
Proof. intro H. rewrite <- (app_nil_r t). eapply prodT_intro; [eassumption|constructor|ring]. Qed.
Lemma atom_sgn t v : atomT t v -> sgnT t v. Proof. intro. now apply sgnT_pow, powT_atom. Qed.
Lemma atom_prod t v : atomT t v -> prodT t v. Proof. intro. now apply sgn_prod, atom_sgn. Qed.
Lemma prod_sum t v : prodT t v -> sumT t v.
Proof. intro H. rewrite <- (app_nil_r t). eapply sumT_intro; [eassumption|constructor|ring]. Qed.
Lemma ptail_app t v t' v' : ptailT t v -> ptailT t' v' -> ptailT (t ++ t') (v * v').
Proof.
  induction 1 as [|t v tl w Hs Ht IH|t v tl w Hs Ht IH]; intro H'.
  - now rewrite Rmult_1_l.
  - cbn. rewrite <- app_assoc, Rmult_assoc. constructor; auto.
  - cbn. rewrite <- app_assoc, Rmult_assoc. constructor; auto.
Qed.
Lemma prod_times t v t' v' : prodT t v -> prodT t' v' -> prodT (t ++ TkTimes :: t') (v * v').
Proof.
  intros [t0 v0 tl w x Hs Ht ->] [t1 v1 tl1 w1 x1 Hs1 Ht1 ->]. rewrite <- app_assoc. eapply prodT_intro; [eassumption|apply ptail_app; [exact Ht|eapply ptail_mul; eassumption]|ring].
Qed.
Lemma prod_div t v t' v' : prodT t v -> sgnT t' v' -> prodT (t ++ TkDiv :: t') (v / v').
Proof.
  intros [t0 v0 tl w x Hs Ht ->] H'. rewrite <- (app_nil_r t'). rewrite <- app_assoc. eapply prodT_intro; [eassumption|apply ptail_app; [exact Ht|eapply ptail_div; [exact H'|constructor]]|unfold Rdiv; ring].
Qed.
Lemma prod_neg t v : prodT t v -> prodT (TkMinus :: t) (- v).
Proof. intros [t0 v0 tl w x Hs Ht ->]. change (TkMinus :: t0 ++ tl) with ((TkMinus :: t0) ++ tl). eapply prodT_intro; [constructor; eassumption|eassumption|ring]. Qed.
Lemma paren_atom t v : sumT t v -> atomT ([TkLP] ++ t ++ [TkRP]) v.
Proof.
  intros H rest Hr. destruct (sum_read _ _ H (TkRP :: rest) I) as (f & y & E & Ev). exists (S f), y. split; [|exact Ev]. cbn [app]; rewrite r_atom_S. rewrite <- app_assoc. cbn [app]. now rewrite E.
Qed.
Lemma int_atom n : atomT [TkInt n] (IZR (Z.of_N n)).
Proof. intros rest Hr. exists 1%nat, (YNum (inject_Z (Z.of_N n))). split; [reflexivity|]. cbn. unfold Q2R, inject_Z. cbn. field. Qed.
Lemma lit_atom l : atomT [TkLit l] (Q2R (lv l)).
Proof. intros rest Hr. exists 1%nat, (YNum (lv l)). split; reflexivity. Qed.
Lemma name_atom n : isf n = false -> atomT [TkId n] (env n 0%Z).
Proof. intros Hf rest Hr. exists 1%nat, (YName n 0). split; [|reflexivity]. cbn [app]; rewrite r_atom_S. destruct rest as [|[] r]; try reflexivity. destruct Hr. Qed.
Lemma join_prod l vs : Forall2 prodT l vs -> l <> [] -> prodT (join TkTimes l) (prod_of vs).
Proof.
  induction 1 as [|t v l vs H Hl IH]; intro Hn; [congruence|]. destruct l as [|t' l].
  - inversion Hl; subst. cbn. now rewrite Rmult_1_r.
  - change (prodT (t ++ TkTimes :: join TkTimes (t' :: l)) (v * prod_of vs)). apply prod_times; [exact H|]. apply IH. discriminate.
Qed.
(* calls *)
Lemma args_read l vs : Forall2 sumT l vs -> l <> [] -> forall rest, exists f ys, rl f (join TkComma l ++ TkRP :: rest) = Some (ys, TkRP :: rest) /\ map val ys = vs.
Proof.
  induction 1 as [|t v l vs H Hl IH]; intros Hn rest; [congruence|]. destruct l as [|t' l].
  - inversion Hl; subst. cbn [join]. destruct (sum_read _ _ H (TkRP :: rest) I) as (f & y & E & Ev). exists (S f), [y]. split; [rewrite r_args_S; now rewrite E|cbn; now rewrite Ev].
  - change (join TkComma (t :: t' :: l)) with (t ++ TkComma :: join TkComma (t' :: l)). rewrite <- app_assoc. cbn [app]. destruct (IH ltac:(discriminate) rest) as (f' & ys & E' & Ev'). destruct (sum_read _ _ H (TkComma :: join TkComma (t' :: l) ++ TkRP :: rest) I) as (f & y & E & Ev).
    exists (S (Nat.max f f')), (y :: ys). split; [|cbn; now rewrite Ev, Ev']. rewrite r_args_S. rewrite (sum_mono lv isf f (Nat.max f f') _ _ ltac:(lia) E), (args_mono lv isf f' (Nat.max f f') _ _ ltac:(lia) E'). reflexivity.
Qed.
Lemma call_atom f l vs : isf f = true -> Forall2 sumT l vs -> l <> [] -> atomT ([TkId f; TkLP] ++ join TkComma l ++ [TkRP]) (a_fun A f vs).
Proof.
  intros Hf H Hn rest Hr. destruct (args_read _ _ H Hn rest) as (k & ys & E & Ev). exists (S k), (YCall f ys). split; [|cbn; now rewrite Ev].
  rewrite <- !app_assoc. cbn [app]; rewrite r_atom_S. rewrite Hf, E. reflexivity.
Qed.
End Reading.
