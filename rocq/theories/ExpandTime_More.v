From Verif Require Import Common Expr_Model Expr_RoundTrip ExpandTime_Model ExpandTime_Spec ExpandTime_Proofs.
Local Open Scope list_scope.
Section P.
Context {F X : Type}.
Implicit Types (b : gblock F X) (q : equation F).

Lemma near_unchanged b : (forall x u, In (x, u) (occs_block b) -> near u) -> expand_block b = b.
Proof.
  intro H. assert (E : deep_dicts b = ([], [])).
  { destruct (deep_dicts_ext b) as [[_ H1] [_ H2]]. destruct (deep_dicts b) as [d1 d2]. cbn [fst snd] in *. f_equal.
    - destruct d1 as [|[k z] d1]; [reflexivity|]. specialize (H1 k). unfold lookup in H1. cbn in H1.
      rewrite chars_eqb_refl in H1. cbn in H1. destruct H1 as (Ha & Hb & _). apply Z.ltb_lt in Ha.
      specialize (H k _ Hb). cbn in H. lia.
    - destruct d2 as [|[k z] d2]; [reflexivity|]. specialize (H2 k). unfold lookup in H2. cbn in H2.
      rewrite chars_eqb_refl in H2. cbn in H2. destruct H2 as (Ha & Hb & _). apply Z.ltb_lt in Ha.
      specialize (H k _ Hb). cbn in H. lia. }
  unfold expand_block. now rewrite E.
Qed.
Lemma expand_idem b : expand_block (expand_block b) = expand_block b.
Proof. apply near_unchanged, expand_near. Qed.

Definition meta q := (lagrange q, calibrating q, tags q).
Lemma expand_keeps b :
  bname (expand_block b) = bname b /\ other (expand_block b) = other b /\
  map meta (definitions (expand_block b)) = map meta (definitions b) /\
  map meta (objective (expand_block b)) = map meta (objective b) /\
  map meta (constraints (expand_block b)) = map meta (constraints b) /\
  (exists new, map meta (identities (expand_block b)) = map meta (identities b) ++ map meta new) /\
  length (controls (expand_block b)) = length (controls b).
Proof.
  destruct (expand_shape b) as (E1 & E2 & E3 & E4 & E5 & E6 & E7).
  rewrite E1, E2, E3, E4, E5, E6, E7, !map_map, map_length, map_app, map_map.
  repeat split. exists (lagc (deep_dicts b) ++ leadc (deep_dicts b)). reflexivity.
Qed.

Lemma den_fc_linear {V} (I : interp F V) (p : path V) : tower I -> linear_E I ->
  forall e, linear e = true -> forall t, i_E V I t (den_fc I p t e) = i_E V I t (den I p t e).
Proof.
  intros HT HL. induction e as [v|n|n u|a IH|o a c IHa IHb|f args IH|a IH] using expr_ind'; intros He t; cbn [linear] in He; try discriminate.
  - destruct u; [|discriminate]. cbn [den den_fc]. destruct (Z.ltb 1 z); [|reflexivity]. apply HT.
  - cbn [den den_fc]. rewrite !(lE_neg I HL), IH; auto.
  - destruct o; try discriminate; apply andb_true_iff in He as [Ha Hb]; cbn [den den_fc].
    + rewrite !(lE_add I HL), IHa, IHb; auto.
    + rewrite !(lE_sub I HL), IHa, IHb; auto.
    + destruct a; try discriminate; cbn [den den_fc].
      * rewrite !(lE_num I HL), IHb; auto.
      * rewrite !(lE_par I HL), IHb; auto.
Qed.
Lemma den_fc_no_deep {V} (I : interp F V) (p : path V) e : no_deep_lead e = true ->
  forall t, den_fc I p t e = den I p t e.
Proof.
  induction e as [v|n|n u|a IH|o a c IHa IHb|f args IH|a IH] using expr_ind'; intros He t; cbn [no_deep_lead] in He; cbn [den den_fc]; auto.
  - destruct u; [|reflexivity]. apply Z.leb_le in He. destruct (Z.ltb_spec 1 z); [lia|reflexivity].
  - rewrite IH; auto.
  - apply andb_true_iff in He as [Ha Hb]. rewrite IHa, IHb; auto.
  - f_equal. apply map_ext_in. intros a Ha. rewrite Forall_forall in IH. rewrite forallb_forall in He. auto.
  - rewrite IH; auto.
Qed.
Lemma den_fc_leads_linear {V} (I : interp F V) (p : path V) : tower I -> linear_E I ->
  forall e, leads_linear e = true -> forall t, den_fc I p t e = den I p t e.
Proof.
  intros HT HL. induction e as [v|n|n u|a IH|o a c IHa IHb|f args IH|a IH] using expr_ind'; intros He t;
    try (apply den_fc_no_deep; exact He); cbn [leads_linear] in He; cbn [den den_fc].
  - rewrite IH; auto.
  - apply andb_true_iff in He as [Ha Hb]. rewrite IHa, IHb; auto.
  - f_equal. apply map_ext_in. intros a Ha. rewrite Forall_forall in IH. rewrite forallb_forall in He. auto.
  - apply orb_true_iff in He as [He|He].
    + apply den_fc_linear; auto.
    + rewrite IH; auto.
Qed.
Theorem expand_linear {V} (I : interp F V) b (p : path V) : tower I -> linear_E I -> block_leads_linear b ->
  solves I p (expand_block b) <-> solves I p b /\ lags_right b p /\ leads_forecast I b p.
Proof.
  intros HT HL Hb. rewrite (expand_exact I b p HT).
  assert (E : solves_fc I p b <-> solves I p b).
  { split; intros H q Hq t; specialize (H q Hq t); destruct (Hb q Hq) as [H1 H2].
    - rewrite <- !(den_fc_leads_linear I p HT HL) by assumption. exact H.
    - rewrite !(den_fc_leads_linear I p HT HL) by assumption. exact H. }
  tauto.
Qed.
End P.

(* ---------- witnesses ---------- *)
Definition eqn {F} (l r : expr F) : equation F := Eqn l r None None [].
Definition blk {F} (ids : list (equation F)) : gblock F unit := GBlock (str "B") [] [] [] [] ids tt.
Definition v {F} (n : string) (t : Z) : expr F := Var (str n) (TI t).

(* values: integers; functions unused *)
Definition zops (o : bop) (a b : Z) : Z :=
  match o with ADD => a + b | SUB => a - b | MUL => a * b | DIV => a / b | POW => a ^ b end%Z.
Definition Zdet : interp Z Z := Interp Z (fun n => n) (fun _ => 0%Z) Z.opp zops (fun _ _ => 0%Z) (fun _ => 0%Z) (fun _ v => v).

Definition ex_ar3 : gblock Z unit := blk [eqn (v "x" 0) (Bin ADD (v "x" (-3)) (v "z" 2))].

(* a user variable that has the auxiliary's name: x[] = x[-2], x__lag1[] = 5 *)
Definition clash : gblock Z unit := blk [eqn (v "x" 0) (v "x" (-2)); eqn (v "x__lag1" 0) (Num 5%Z)].
Lemma clash_solvable : exists p, solves Zdet p clash.
Proof.
  exists (fun n _ => if chars_eqb n (str "x") then 0 else 5)%Z.
  intros q [H|[H|[]]] t; subst q; reflexivity.
Qed.
Lemma clash_changes : forall p, solves Zdet p (expand_block clash) -> forall t, p (str "x") t = 5%Z.
Proof.
  intros p H t.
  assert (H1 : holds Zdet p (eqn (v "x__lag1" 0) (Num 5%Z))) by (apply H; right; left; reflexivity).
  assert (H2 : holds Zdet p (eqn (v "x__lag1" 0) (v "x" (-1)))) by (apply H; right; right; left; reflexivity).
  specialize (H1 (t + 1)%Z). specialize (H2 (t + 1)%Z). unfold holds in *. cbn [den eqn lhs rhs v Zdet i_num] in *.
  rewrite H1 in H2. replace (t + 1 + -1)%Z with t in H2 by lia. auto.
Qed.

(* a world with one coin, tossed between dates 1 and 2: a value is a pair (value if heads, value if tails),
   in half-units so that the mean of two outcomes is an integer: E before the toss is the mean. *)
Definition coin := (Z * Z)%type.
Definition mean (v : coin) : coin := (((fst v + snd v) / 2)%Z, ((fst v + snd v) / 2)%Z).
Definition cops (o : bop) (a b : coin) : coin := (zops o (fst a) (fst b), zops o (snd a) (snd b)).
Definition Coin : interp Z coin :=
  Interp coin (fun n => (n, n)) (fun _ => (0, 0)%Z) (fun a => (- fst a, - snd a)%Z) cops (fun _ _ => (0, 0)%Z)
         (fun _ => (0, 0)%Z) (fun t v => if Z.ltb t 2 then mean v else v).
Lemma coin_tower : tower Coin.
Proof.
  intros t [a b]. cbn. destruct (Z.ltb_spec t 2); destruct (Z.ltb_spec (t + 1) 2); try lia; try reflexivity.
  unfold mean. cbn [fst snd]. f_equal; rewrite Z.add_diag, Z.mul_comm, Z.div_mul by lia; reflexivity.
Qed.
(* y[] = E[][x[2]^2] *)
Definition jensen : gblock Z unit := blk [eqn (v "y" 0) (Expec (Bin POW (v "x" 2) (Num 2%Z)))].
(* x is +1 / -1 once the coin is tossed *)
Definition jx : Z -> coin := fun t => if Z.ltb t 2 then (0, 0)%Z else (1, -1)%Z.
Definition sq (c : coin) : coin := (fst c ^ 2, snd c ^ 2)%Z.
Definition jp : path coin := fun n t =>
  if chars_eqb n (str "x") then jx t
  else if chars_eqb n (str "y") then i_E _ Coin t (sq (jx (t + 2)))
  else i_E _ Coin t (jx (t + 1)).
Lemma jensen_solves : solves Coin jp jensen.
Proof. intros q [<-|[]] t. cbn. rewrite Z.add_0_r. reflexivity. Qed.
Lemma jensen_lead_right : leads_forecast Coin jensen jp.
Proof.
  intros x k (z & H & Hk) t. cbn in H. destruct H as [H|[H|[]]]; injection H as <- <-; [lia|].
  assert (k = 1%nat) by lia. subst k. reflexivity.
Qed.
Lemma jensen_broken : forall p, (forall t, p (str "x") t = jx t) -> solves Coin p jensen -> ~ solves Coin p (expand_block jensen).
Proof.
  intros p Hx Hs H. apply (expand_exact Coin jensen p coin_tower) in H as [H _].
  assert (A : In (eqn (v "y" 0) (Expec (Bin POW (v "x" 2) (Num 2%Z)))) (dyn_eqs jensen)) by (left; reflexivity).
  specialize (Hs _ A 0%Z). specialize (H _ A 0%Z). cbn [den den_fc eqn lhs rhs v] in Hs, H.
  change (1 <? 0)%Z with false in H. change (1 <? 2)%Z with true in H. cbv iota in H.
  rewrite Hs in H. rewrite !Hx in H. cbv in H. discriminate.
Qed.

(* two blocks sharing K[-2] *)
Definition two_blocks : list (gblock Z unit) :=
  [blk [eqn (v "a" 0) (v "K" (-2))]; blk [eqn (v "b" 0) (v "K" (-2))]].

Lemma clash_refutes :
  ~ (forall (b : gblock Z unit) (p : path Z), solves Zdet p b ->
       exists p', (forall t, p' (str "x") t = p (str "x") t) /\ solves Zdet p' (expand_block b)).
Proof.
  intro H. specialize (H clash (fun n _ => if chars_eqb n (str "x") then 0 else 5)%Z).
  destruct H as (p' & Hx & Hs).
  - intros q [E|[E|[]]] t; subst q; reflexivity.
  - pose proof (clash_changes p' Hs 0%Z) as E. rewrite Hx in E. discriminate.
Qed.
Lemma two_blocks_refute :
  ~ (forall m : list (gblock Z unit),
       NoDup (flat_map (@identities Z unit) m) -> NoDup (flat_map (@identities Z unit) (expand_model m))).
Proof.
  intro H. assert (N : NoDup (flat_map (@identities Z unit) (expand_model two_blocks))).
  { apply H. cbn. constructor; [intros [E|[]]; discriminate|]. constructor; [easy|constructor]. }
  vm_compute in N. inversion N as [|? ? _ N1]; subst. inversion N1 as [|? ? N2 _]; subst.
  apply N2. right. left. reflexivity.
Qed.
Lemma jensen_refutes :
  ~ (forall (I : interp Z coin) (b : gblock Z unit) (p : path coin), tower I ->
       solves I p b -> leads_forecast I b p -> lags_right b p -> solves I p (expand_block b)).
Proof.
  intro H. apply (jensen_broken jp (fun t => eq_refl) jensen_solves).
  apply (H Coin jensen jp coin_tower jensen_solves jensen_lead_right).
  intros x k (z & [Hi|[Hi|[]]] & Hz); injection Hi as <- <-; lia.
Qed.
(* A non-trivial expectation satisfying the laws used by the linear case: before the toss, heads is expected. *)
Definition Heads : interp Z coin :=
  Interp coin (fun n => (n, n)) (fun _ => (2, 2)%Z) (fun a => (- fst a, - snd a)%Z) cops (fun _ _ => (0, 0)%Z)
         (fun _ => (0, 0)%Z) (fun t v => if Z.ltb t 2 then (fst v, fst v) else v).
Definition lin_block : gblock Z unit :=
  blk [eqn (v "y" 0) (Expec (Bin ADD (Bin MUL (Par (str "beta")) (v "x" 2)) (v "x" 3)))].
Lemma heads_ok : tower Heads /\ linear_E Heads /\ block_leads_linear lin_block.
Proof.
  split; [|split].
  - intros t [a b]. cbn. destruct (Z.ltb_spec t 2); destruct (Z.ltb_spec (t + 1) 2); try lia; reflexivity.
  - split; intros; cbn; destruct (Z.ltb t 2); reflexivity.
  - intros q [<-|[]]. split; reflexivity.
Qed.
