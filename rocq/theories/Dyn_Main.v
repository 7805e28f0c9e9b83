From Coq Require Import QArith Qreals Reals Lra.
From Verif Require Import Common Expr_Model Dyn_Model Dyn_Spec Dyn_Proofs Dyn_Print.
Local Open Scope nat_scope.
Local Open Scope list_scope.

Section Main.
Variables (lv : chars -> Q) (isf : chars -> bool) (A : arithmetic) (env : chars -> Z -> R) (G : reading) (minus : dx -> bool).
Hypothesis HA : arithmetic_ok A.
Hypothesis Hsqrt : isf (str "sqrt") = true.
Hypothesis Hminus : forall c l, is_neg c = true -> minus (DMul (Some c) l) = true.
Notation atomT := (atomT lv isf A env). Notation powT := (powT lv isf A env). Notation sgnT := (sgnT lv isf A env).
Notation prodT := (prodT lv isf A env). Notation sumT := (sumT lv isf A env). Notation stailT := (stailT lv isf A env).
Notation pr := (print lv minus). Notation xv := (x_value A lv G). Notation prec := (precedence minus).
Local Open Scope R_scope.

Definition good (e : dx) (t : list tok) (v : R) : Prop :=
  (is_add e = false -> prodT t v) /\ (is_add e = true -> sumT t v) /\ ((60 < prec e)%nat -> atomT t v).
Lemma good_sum e t v : good e t v -> sumT t v.
Proof. intros (H1 & H2 & _). destruct (is_add e) eqn:E; [now apply H2|apply prod_sum, H1; reflexivity]. Qed.
Lemma parens_pow e t v : good e t v -> atomT (parens minus e prec_pow t) v.
Proof. intro H. unfold parens. destruct (Nat.leb_spec (prec e) prec_pow); [apply paren_atom; eapply good_sum, H|apply H; exact H0]. Qed.
Lemma parens_item e t v level : (level = prec_add \/ level = prec_mul) -> good e t v -> prodT (parens minus e level t) v.
Proof.
  intros Hl H. unfold parens. destruct (Nat.leb_spec (prec e) level); [apply atom_prod, paren_atom; eapply good_sum, H|]. apply H.
  destruct e; try reflexivity. exfalso. cbn in H0. unfold prec_add, prec_mul in *. lia.
Qed.
Lemma Q2R_int p : Q2R (Qmake p 1) = IZR p. Proof. unfold Q2R. cbn. field. Qed.
Lemma Q2R_rat p q : Q2R (Qmake p q) = IZR p / IZR (Zpos q). Proof. reflexivity. Qed.
Lemma int_value p : (0 <= p)%Z -> IZR (Z.of_N (Z.to_N (Z.abs p))) = IZR p.
Proof. intro H. rewrite Z2N.id by lia. now rewrite Z.abs_eq. Qed.
Lemma num_good n : good (DNum n) (num_toks n) (num_real lv n).
Proof.
  assert (Hp : prodT (num_toks n) (num_real lv n)).
  { destruct n as [p q|neg l]; unfold num_real; cbn [num_toks num_value].
    - assert (Hpos : forall p, (0 <= p)%Z -> prodT ([TkInt (Z.to_N (Z.abs p))] ++ (if Pos.eqb q 1 then [] else [TkDiv; TkInt (Npos q)])) (Q2R (Qmake p q))).
      { intros p0 H0. destruct (Pos.eqb_spec q 1) as [->|Hq].
        - rewrite Q2R_int, <- (int_value _ H0). apply atom_prod, int_atom.
        - rewrite Q2R_rat. change ([TkInt (Z.to_N (Z.abs p0))] ++ [TkDiv; TkInt (N.pos q)]) with ([TkInt (Z.to_N (Z.abs p0))] ++ TkDiv :: [TkInt (N.pos q)]). rewrite <- (int_value _ H0). apply prod_div; [apply atom_prod, int_atom|apply atom_sgn; apply (int_atom lv isf A env (N.pos q))]. }
      destruct (Z.ltb_spec p 0) as [H|H]; [|apply Hpos; exact H]. cbn [app].
      replace (Q2R (p # q)) with (- Q2R (- p # q)) by (unfold Q2R; cbn; rewrite opp_IZR; ring). apply prod_neg. rewrite <- (Z.abs_opp p). apply Hpos. lia.
    - destruct neg; cbn [app]; [rewrite Q2R_opp; apply prod_neg|]; apply atom_prod, lit_atom. }
  split; [intros _; exact Hp|]. split; [discriminate|]. intro H. destruct n as [p q|neg l]; cbn [precedence] in H.
  - destruct (Z.ltb p 0) eqn:E; [unfold prec_add in H; lia|]. destruct (Pos.eqb_spec q 1) as [->|]; [|unfold prec_mul in H; lia]. cbn [num_toks]. rewrite E. cbn [app]. unfold num_real. cbn [num_value]. rewrite Q2R_int, <- int_value by lia. apply int_atom.
  - destruct neg; [unfold prec_add in H; lia|]. apply lit_atom.
Qed.
Lemma equal_value e x : equal_valued lv e x = true -> xv e = Q2R x.
Proof. destruct e; try discriminate. cbn. intro H. apply Qeq_bool_eq in H. now apply Qeq_eqR. Qed.
Lemma sqrt_atom t v : sumT t v -> atomT (sqrt_toks t) (a_pow A v (/ 2)).
Proof. intro H. rewrite (proj2 (proj2 HA)). change (sqrt_toks t) with ([TkId (str "sqrt"); TkLP] ++ join TkComma [t] ++ [TkRP]). apply call_atom; [exact Hsqrt|constructor; [exact H|constructor]|discriminate]. Qed.
Lemma one_prod t v : sgnT t v -> prodT ([TkInt 1; TkDiv] ++ t) (/ v).
Proof. intro H. change ([TkInt 1; TkDiv] ++ t) with ([TkInt 1] ++ TkDiv :: t). replace (/ v) with (1 / v) by (unfold Rdiv; ring). apply prod_div; [apply atom_prod, (int_atom lv isf A env 1)|exact H]. Qed.
Lemma Q2R_half : Q2R (1 # 2) = / 2. Proof. unfold Q2R. cbn. lra. Qed.
Lemma pow_good b tb e te : good b tb (xv b) -> good e te (xv e) -> prodT (pow_toks lv minus b tb e te) (a_pow A (xv b) (xv e)).
Proof.
  intros Hb He. unfold pow_toks. destruct (equal_valued lv e (1 # 2)) eqn:E1; [|destruct (equal_valued lv e (- (1 # 2))) eqn:E2; [|destruct (equal_valued lv e (- (1))) eqn:E3]].
  - apply equal_value in E1. rewrite E1, Q2R_half. apply atom_prod, sqrt_atom. eapply good_sum, Hb.
  - apply equal_value in E2. rewrite E2, Q2R_opp, Q2R_half, (proj1 (proj2 HA)). apply one_prod, atom_sgn, sqrt_atom. eapply good_sum, Hb.
  - apply equal_value in E3. rewrite E3, Q2R_opp, (proj1 (proj2 HA)). replace (Q2R 1) with 1 by (unfold Q2R; cbn; field). rewrite (proj1 HA). apply one_prod, atom_sgn, parens_pow, Hb.
  - apply sgn_prod, sgnT_pow. apply (powT_pow lv isf A env _ _ (parens minus e prec_pow te)); now apply parens_pow.
Qed.
(* a positive rational exponent: the text is a power *)
Lemma pow_sgn b tb p q : (0 < p)%Z -> good b tb (xv b) -> sgnT (pow_toks lv minus b tb (DNum (Rat p q)) (num_toks (Rat p q))) (a_pow A (xv b) (Q2R (Qmake p q))).
Proof.
  intros Hp Hb. unfold pow_toks. set (e := DNum (Rat p q)).
  assert (Hneg : forall x, (x < 0)%Q -> equal_valued lv e x = false).
  { intros x Hx. cbn. destruct (Qeq_bool (p # q) x) eqn:E; [|reflexivity]. apply Qeq_bool_eq in E. rewrite <- E in Hx. unfold Qlt in Hx. cbn in Hx. lia. }
  destruct (equal_valued lv e (1 # 2)) eqn:E1.
  - apply equal_value in E1. cbn in E1. unfold num_real in E1. cbn in E1. rewrite E1, Q2R_half. apply atom_sgn, sqrt_atom. eapply good_sum, Hb.
  - rewrite !Hneg by (unfold Qlt; cbn; lia). apply sgnT_pow. apply (powT_pow lv isf A env _ _ (parens minus e prec_pow _)); [now apply parens_pow|]. apply parens_pow. apply (num_good (Rat p q)).
Qed.
(* items of a product *)
Definition frac (ad : list (list tok) * list (list tok)) (v : R) : Prop :=
  exists va vd, Forall2 prodT (fst ad) va /\ Forall2 sgnT (snd ad) vd /\ v = prod_of va * / prod_of vd.
Lemma num_item_frac level n : (level = prec_add \/ level = prec_mul) -> frac (num_item minus level n) (num_real lv n).
Proof.
  intro Hl. destruct n as [p q|neg l]; cbn [num_item].
  - exists (if Z.eqb p 1 then [] else [IZR p]), (if Pos.eqb q 1 then [] else [IZR (Zpos q)]). cbn [fst snd]. split; [|split].
    + destruct (Z.eqb p 1); [constructor|]. constructor; [|constructor]. apply parens_item; [exact Hl|]. rewrite <- Q2R_int. apply (num_good (Rat p 1)).
    + destruct (Pos.eqb q 1); [constructor|]. constructor; [|constructor]. apply atom_sgn, (int_atom lv isf A env (N.pos q)).
    + unfold num_real. cbn [num_value]. rewrite Q2R_rat. destruct (Z.eqb_spec p 1) as [->|]; destruct (Pos.eqb_spec q 1) as [->|]; cbn [prod_of fold_right]; rewrite ?Rinv_mult, ?Rinv_1; unfold Rdiv; rewrite ?Rinv_1; ring.
  - exists [num_real lv (Flt neg l)], []. cbn [fst snd]. split; [|split; [constructor|]].
    + constructor; [|constructor]. apply parens_item; [exact Hl|apply (num_good (Flt neg l))].
    + cbn. rewrite Rinv_1. ring.
Qed.
Lemma plain_frac level e t : (level = prec_add \/ level = prec_mul) -> good e t (xv e) -> frac ([parens minus e level t], []) (xv e).
Proof. intros Hl H. exists [xv e], []. cbn [fst snd]. split; [constructor; [now apply parens_item|constructor]|]. split; [constructor|]. cbn. rewrite Rinv_1. ring. Qed.
Lemma item_frac level e tb ti : (level = prec_add \/ level = prec_mul) -> canonical isf e -> good e ti (xv e) ->
  (forall b x, e = DPow b x -> good b tb (xv b)) -> frac (item_toks lv minus level e tb ti) (xv e).
Proof.
  intros Hl Hc Hg Hb. destruct e as [n|n|b t|l|c l|b x|f l]; try (now apply plain_frac); cbn [item_toks].
  - apply num_item_frac, Hl.
  - specialize (Hb b x eq_refl). destruct x as [[p q|neg lt]|?|?|?|?|?|?]; try (now apply plain_frac). destruct (Z.ltb_spec p 0) as [Hp|Hp]; [|now apply plain_frac].
    cbn [x_value]. unfold num_real. cbn [num_value]. destruct (Z.eqb_spec p (-1)) as [->|Hp1]; destruct (Pos.eqb_spec q 1) as [->|Hq]; cbn [andb].
    + exists [], [xv b]. cbn [fst snd]. split; [constructor|]. split.
      * constructor; [|constructor]. apply atom_sgn. destruct Hc as (_ & _ & Hc). destruct b; cbn [is_mul]; try (exfalso; exact Hc);
          cbv zeta; try (unfold parens; match goal with |- context [Nat.leb ?x ?y] => destruct (Nat.leb_spec x y) as [L|L] end; [apply paren_atom; eapply good_sum, Hb|apply Hb; destruct Hl; subst; cbn in L |- *; unfold prec_add, prec_mul in *; lia]).
        apply paren_atom, prod_sum. now apply parens_item.
      * cbn [prod_of fold_right]. replace (Q2R (-1 # 1)) with (- (1)) by (unfold Q2R; cbn; field). rewrite (proj1 (proj2 HA)), (proj1 HA), Rmult_1_l, Rmult_1_r. reflexivity.
    + exists [], [a_pow A (xv b) (Q2R (- -1 # q))]. cbn [fst snd]. split; [constructor|]. split.
      * constructor; [|constructor]. unfold parens. destruct (Nat.leb_spec (prec (DPow b (DNum (Rat (- -1) q)))) level) as [L|L]; [exfalso; cbn in L; unfold prec_pow, prec_add, prec_mul in *; lia|]. apply pow_sgn; [lia|exact Hb].
      * cbn [prod_of fold_right]. replace (Q2R (-1 # q)) with (- Q2R (- -1 # q)) by (unfold Q2R; cbn; ring). rewrite (proj1 (proj2 HA)), Rmult_1_l, Rmult_1_r. reflexivity.
    + exists [], [a_pow A (xv b) (Q2R (- p # 1))]. cbn [fst snd]. split; [constructor|]. split.
      * constructor; [|constructor]. unfold parens. destruct (Nat.leb_spec (prec (DPow b (DNum (Rat (- p) 1)))) level) as [L|L]; [exfalso; cbn in L; unfold prec_pow, prec_add, prec_mul in *; lia|]. apply pow_sgn; [lia|exact Hb].
      * cbn [prod_of fold_right]. replace (Q2R (p # 1)) with (- Q2R (- p # 1)) by (unfold Q2R; cbn; rewrite opp_IZR; ring). rewrite (proj1 (proj2 HA)), Rmult_1_l, Rmult_1_r. reflexivity.
    + exists [], [a_pow A (xv b) (Q2R (- p # q))]. cbn [fst snd]. split; [constructor|]. split.
      * constructor; [|constructor]. unfold parens. destruct (Nat.leb_spec (prec (DPow b (DNum (Rat (- p) q)))) level) as [L|L]; [exfalso; cbn in L; unfold prec_pow, prec_add, prec_mul in *; lia|]. apply pow_sgn; [lia|exact Hb].
      * cbn [prod_of fold_right]. replace (Q2R (p # q)) with (- Q2R (- p # q)) by (unfold Q2R; cbn; rewrite opp_IZR; ring). rewrite (proj1 (proj2 HA)), Rmult_1_l, Rmult_1_r. reflexivity.
Qed.
Lemma prod_of_app l l' : prod_of (l ++ l') = prod_of l * prod_of l'.
Proof. unfold prod_of. induction l as [|x l IH]; cbn [app fold_right]; [ring|]. rewrite IH. ring. Qed.
Lemma items_frac l vs : Forall2 frac l vs -> frac (flat_map fst l, flat_map snd l) (prod_of vs).
Proof.
  induction 1 as [|x v l vs (va & vd & H1 & H2 & ->) Hl (va' & vd' & H1' & H2' & E)]; [exists [], []; cbn; repeat split; try constructor; rewrite Rinv_1; ring|].
  exists (va ++ va'), (vd ++ vd'). cbn [fst snd flat_map] in *. split; [now apply Forall2_app|]. split; [now apply Forall2_app|].
  change (prod_of ((prod_of va * / prod_of vd) :: vs)) with (prod_of va * / prod_of vd * prod_of vs). rewrite !prod_of_app, Rinv_mult, E. ring.
Qed.
Lemma mul_good level c items vs : (level = prec_add \/ level = prec_mul) -> Forall2 frac items vs ->
  prodT (mul_toks minus level c items) ((match c with Some n => num_real lv n | None => 1 end) * prod_of vs).
Proof.
  intros Hl Hi. unfold mul_toks.
  set (first := match c with Some c0 => [num_item minus level (if is_neg c0 then opposite c0 else c0)] | None => [] end).
  set (w := match c with Some c0 => num_real lv (if is_neg c0 then opposite c0 else c0) | None => 1 end).
  assert (Hall : frac (flat_map fst (first ++ items), flat_map snd (first ++ items)) (w * prod_of vs)).
  { destruct c as [c0|]; [apply (items_frac (first ++ items) (w :: vs)); constructor; [apply num_item_frac, Hl|exact Hi]|].
    unfold w. rewrite Rmult_1_l. apply (items_frac items vs Hi). }
  destruct Hall as (va & vd & Ha & Hd & E). cbn [fst snd] in *. set (a := flat_map fst (first ++ items)) in *. set (b := flat_map snd (first ++ items)) in *.
  assert (Hnum : prodT (join TkTimes (match a with [] => [[TkInt 1]] | _ => a end)) (prod_of va)).
  { destruct a as [|t a']; [inversion Ha; subst; apply atom_prod, (int_atom lv isf A env 1)|]. apply join_prod; [exact Ha|discriminate]. }
  assert (Hbody : prodT (join TkTimes (match a with [] => [[TkInt 1]] | _ => a end) ++ match b with [] => [] | [d] => [TkDiv] ++ d | _ => [TkDiv; TkLP] ++ join TkTimes b ++ [TkRP] end) (w * prod_of vs)).
  { rewrite E. destruct b as [|d [|d' b']].
    - inversion Hd; subst. rewrite app_nil_r. cbn. rewrite Rinv_1, Rmult_1_r. exact Hnum.
    - inversion Hd as [|? v0 ? ? Hd1 Hd2]; subst. inversion Hd2; subst. cbn [prod_of fold_right]. rewrite Rmult_1_r. now apply prod_div.
    - apply (prod_div lv isf A env _ _ ([TkLP] ++ join TkTimes (d :: d' :: b') ++ [TkRP]) _ Hnum). apply atom_sgn, paren_atom, prod_sum, join_prod; [|discriminate].
      clear - Hd. induction Hd; constructor; [now apply sgn_prod|assumption]. }
  replace (match c with Some n => num_real lv n | None => 1 end * prod_of vs) with ((match c with Some c0 => if is_neg c0 then -1 else 1 | None => 1 end) * (w * prod_of vs)).
  2:{ unfold w. destruct c as [c0|]; [|ring]. destruct (is_neg c0) eqn:En; [|ring]. unfold num_real. destruct c0 as [p q|neg l]; cbn [opposite num_value]; [replace (Q2R (p # q)) with (- Q2R (- p # q)) by (unfold Q2R; cbn; rewrite opp_IZR; ring); ring|]. cbn in En. rewrite En. cbn [negb]. rewrite Q2R_opp. ring. }
  destruct c as [c0|]; [destruct (is_neg c0)|]; cbn [app]; [replace (-1 * (w * prod_of vs)) with (- (w * prod_of vs)) by ring; apply prod_neg; exact Hbody| |]; rewrite Rmult_1_l; exact Hbody.
Qed.
(* sums *)
Lemma signed_good e t : good e t (xv e) -> exists s t' v, signed_term e t = (s, t') /\ (s = TkPlus /\ prodT t' v /\ v = xv e \/ s = TkMinus /\ prodT t' v /\ - v = xv e).
Proof.
  intros (H1 & H2 & _). unfold signed_term. destruct (is_add e) eqn:E.
  - do 3 eexists. split; [reflexivity|]. left. split; [reflexivity|]. split; [apply atom_prod, paren_atom, H2; reflexivity|reflexivity].
  - specialize (H1 eq_refl). destruct t as [|k t]; [do 3 eexists; split; [reflexivity|left; split; [reflexivity|split; [exact H1|reflexivity]]]|].
    destruct k; try (do 3 eexists; split; [reflexivity|left; split; [reflexivity|split; [exact H1|reflexivity]]]).
    do 3 eexists. split; [reflexivity|]. right. split; [reflexivity|]. split; [apply prod_minus, H1|ring].
Qed.
Lemma terms_tail l : Forall (fun e => good e (pr e) (xv e)) l -> stailT (flat_map (fun st => fst st :: snd st) (map (fun x => signed_term x (pr x)) l)) (sum_of (map xv l)).
Proof.
  induction 1 as [|e l H Hl IH]; [constructor|]. cbn [map flat_map sum_of fold_right]. destruct (signed_good _ _ H) as (s & t' & v & -> & [(-> & Hp & <-)|(-> & Hp & <-)]); cbn [fst snd app]; constructor; assumption.
Qed.
Lemma add_good l : l <> [] -> Forall (fun e => good e (pr e) (xv e)) l -> sumT (add_toks (map (fun x => signed_term x (pr x)) l)) (sum_of (map xv l)).
Proof.
  intros Hn H. destruct H as [|e l H Hl]; [congruence|]. cbn [map add_toks sum_of fold_right]. pose proof (terms_tail l Hl) as Ht.
  destruct (signed_good _ _ H) as (s & t' & v & -> & [(-> & Hp & <-)|(-> & Hp & <-)]); cbn [app].
  - eapply sumT_intro; [exact Hp|exact Ht|reflexivity].
  - change (TkMinus :: t' ++ ?r) with ((TkMinus :: t') ++ r). eapply sumT_intro; [apply prod_neg, Hp|exact Ht|reflexivity].
Qed.
Lemma all_forall l : (fix all (l : list dx) : Prop := match l with [] => True | x :: l' => canonical isf x /\ all l' end) l -> Forall (canonical isf) l.
Proof. induction l as [|x l IH]; [constructor|]. intros [H1 H2]. constructor; auto. Qed.
Lemma print_good_base e : (canonical isf e -> (forall s, In s (symbols e) -> agrees G env s) -> good e (pr e) (xv e)) /\
  forall b x, e = DPow b x -> canonical isf b -> (forall s, In s (symbols b) -> agrees G env s) -> good b (pr b) (xv b).
Proof.
  induction e as [n|n|b t|l IH|c l IH|b x IHb IHx|f l IH] using dx_ind2; (split; [intros Hc Hs|try (intros ? ? C; discriminate C)]).
  - apply num_good.
  - assert (H : atomT [TkId n] (g_par G n)) by (rewrite <- (Hs (Free n) (or_introl eq_refl)); apply name_atom; exact Hc). cbn [print x_value]. split; [intros _; now apply atom_prod|]. split; [discriminate|intros _; exact H].
  - assert (H : atomT (var_toks b t) (xv (DVar b t))).
    { destruct Hc as [Hc1 Hc2]. destruct t as [t|]; cbn [var_toks x_value].
      - pose proof (Hs (Dated b t) (or_introl eq_refl)) as Ha. cbn in Ha. rewrite <- Ha. destruct (Z.eqb_spec t 0) as [->|H0]; [apply name_atom; exact Hc1|].
        destruct (Z.ltb_spec 0 t) as [H1|H1]; intros rest Hr; exists 1%nat; eexists; (split; [cbn [app]; rewrite r_atom_S, Hc1; reflexivity|]); cbn [y_value]; rewrite Z2N.id by lia; rewrite ?Z.opp_involutive; reflexivity.
      - pose proof (Hs (AtSteadyState b) (or_introl eq_refl)) as Ha. cbn in Ha. rewrite <- Ha. apply name_atom; exact Hc2. }
    cbn [print]. split; [intros _; now apply atom_prod|]. split; [discriminate|intros _; exact H].
  - destruct Hc as [Hn Hc]. apply all_forall in Hc. cbn [print x_value]. split; [discriminate|]. split; [intros _|cbn; unfold prec_add; lia]. apply add_good; [exact Hn|].
    rewrite Forall_forall in *. intros e He. apply (proj1 (IH e He)); [now apply Hc|]. intros s H. apply Hs. cbn. apply in_flat_map. eauto.
  - apply all_forall in Hc. cbn [x_value]. assert (Hl : prec (DMul c l) = prec_add \/ prec (DMul c l) = prec_mul) by (cbn; destruct (minus _); auto). split; [intros _|split; [discriminate|intro C; exfalso; destruct Hl as [E|E]; rewrite E in C; unfold prec_add, prec_mul in C; lia]].
    change (pr (DMul c l)) with (mul_toks minus (prec (DMul c l)) c (map (fun x => item_toks lv minus (prec (DMul c l)) x (match x with DPow b _ => pr b | _ => [] end) (pr x)) l)).
    set (level := prec (DMul c l)) in *. clearbody level. apply mul_good; [exact Hl|]. cbn [symbols] in Hs. induction IH as [|e l H Hf IHl]; [constructor|]. inversion Hc as [|? ? Hc1 Hc2]; subst. cbn [map]. constructor.
    + assert (Hse : forall s, In s (symbols e) -> agrees G env s) by (intros s Hin; apply Hs; cbn; apply in_or_app; now left). apply item_frac; [exact Hl|exact Hc1|now apply H|].
      intros b x ->. apply (proj2 H b x eq_refl); [apply Hc1|]. intros s Hin. apply Hse. cbn. apply in_or_app. now left.
    + apply IHl; [exact Hc2|]. intros s Hin. apply Hs. cbn. apply in_or_app. now right.
  - destruct Hc as (Hc1 & Hc2 & _). cbn [print x_value]. split; [intros _; apply pow_good; [apply (proj1 IHb)|apply (proj1 IHx)]; try assumption; intros s H; apply Hs; cbn; apply in_or_app; auto|]. split; [discriminate|cbn; unfold prec_pow; lia].
  - intros b' x' E. injection E as <- <-. apply (proj1 IHb).
  - destruct Hc as (Hf & Hn & Hc). apply all_forall in Hc. cbn [print x_value].
    assert (H : atomT ([TkId f; TkLP] ++ join TkComma (map pr l) ++ [TkRP]) (a_fun A f (map xv l))).
    { apply call_atom; [exact Hf| |destruct l; [congruence|discriminate]]. clear Hn. cbn in Hs. induction IH as [|e l He Hl IHl]; [constructor|]. inversion Hc; subst. cbn [map]. constructor.
      - eapply good_sum, (proj1 He); [assumption|]. intros s Hin. apply Hs. cbn. apply in_or_app; auto.
      - apply IHl; [assumption|]. intros s Hin. apply Hs. cbn. apply in_or_app; auto. }
    split; [intros _; now apply atom_prod|]. split; [discriminate|intros _; exact H].
Qed.
Lemma print_good e : canonical isf e -> (forall s, In s (symbols e) -> agrees G env s) -> good e (pr e) (xv e).
Proof. apply print_good_base. Qed.
Lemma print_reads e : canonical isf e -> (forall s, In s (symbols e) -> agrees G env s) -> exists y, reads lv isf (pr e) y /\ y_value A env y = xv e.
Proof. intros Hc Hs. eapply sum_reads, good_sum, print_good; assumption. Qed.
End Main.
