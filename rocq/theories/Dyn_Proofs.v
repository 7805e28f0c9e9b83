From Coq Require Import QArith Qreals Reals Lra.
From Verif Require Import Common Expr_Model Dyn_Model Dyn_Spec.
Local Open Scope nat_scope.
Local Open Scope list_scope.

(* ---------- the reader: more fuel changes nothing ---------- *)
Section Fuel.
Variables (lv : chars -> Q) (isf : chars -> bool).
Notation rs := (r_sum lv isf). Notation rsm := (r_sum_more lv isf). Notation rp := (r_prod lv isf). Notation rpm := (r_prod_more lv isf).
Notation rg := (r_signed lv isf). Notation rw := (r_power lv isf). Notation ra := (r_atom lv isf). Notation rl := (r_args lv isf).
Lemma r_sum_S f ts : rs (S f) ts = match rp f ts with Some (a, r) => rsm f a r | None => None end. Proof. reflexivity. Qed.
Lemma r_sum_more_S f a ts : rsm (S f) a ts = match ts with TkPlus :: r => match rp f r with Some (b, r') => rsm f (YAdd a b) r' | None => None end | TkMinus :: r => match rp f r with Some (b, r') => rsm f (YSub a b) r' | None => None end | _ => Some (a, ts) end. Proof. reflexivity. Qed.
Lemma r_prod_S f ts : rp (S f) ts = match rg f ts with Some (a, r) => rpm f a r | None => None end. Proof. reflexivity. Qed.
Lemma r_prod_more_S f a ts : rpm (S f) a ts = match ts with TkTimes :: r => match rg f r with Some (b, r') => rpm f (YMul a b) r' | None => None end | TkDiv :: r => match rg f r with Some (b, r') => rpm f (YDiv a b) r' | None => None end | _ => Some (a, ts) end. Proof. reflexivity. Qed.
Lemma r_signed_S f ts : rg (S f) ts = match ts with TkMinus :: r => match rg f r with Some (a, r') => Some (YNeg a, r') | None => None end | _ => rw f ts end. Proof. reflexivity. Qed.
Lemma r_power_S f ts : rw (S f) ts = match ra f ts with Some (a, TkPow :: r) => match ra f r with Some (b, r') => Some (YPow a b, r') | None => None end | other => other end. Proof. reflexivity. Qed.
Lemma r_atom_S f ts : ra (S f) ts = match ts with
    | TkInt n :: r => Some (YNum (inject_Z (Z.of_N n)), r)
    | TkLit l :: r => Some (YNum (lv l), r)
    | TkLP :: r => match rs f r with Some (a, TkRP :: r') => Some (a, r') | _ => None end
    | TkId n :: TkLP :: r =>
        if isf n then match rl f r with Some (l, TkRP :: r') => Some (YCall n l, r') | _ => None end
        else match r with
             | TkPlus :: TkInt k :: TkRP :: r' => Some (YName n (Z.of_N k), r')
             | TkMinus :: TkInt k :: TkRP :: r' => Some (YName n (- Z.of_N k), r')
             | _ => None
             end
    | TkId n :: r => Some (YName n 0, r)
    | _ => None
    end. Proof. reflexivity. Qed.
Lemma r_args_S f ts : rl (S f) ts = match rs f ts with Some (a, TkComma :: r) => match rl f r with Some (l, r') => Some (a :: l, r') | None => None end | Some (a, r) => Some ([a], r) | None => None end. Proof. reflexivity. Qed.
Lemma fuel_up f :
  (forall ts x, rs f ts = Some x -> rs (S f) ts = Some x) /\ (forall a ts x, rsm f a ts = Some x -> rsm (S f) a ts = Some x) /\
  (forall ts x, rp f ts = Some x -> rp (S f) ts = Some x) /\ (forall a ts x, rpm f a ts = Some x -> rpm (S f) a ts = Some x) /\
  (forall ts x, rg f ts = Some x -> rg (S f) ts = Some x) /\ (forall ts x, rw f ts = Some x -> rw (S f) ts = Some x) /\
  (forall ts x, ra f ts = Some x -> ra (S f) ts = Some x) /\ (forall ts x, rl f ts = Some x -> rl (S f) ts = Some x).
Proof.
  induction f as [|f IH]; [repeat split; intros; discriminate|]. destruct IH as (I1 & I2 & I3 & I4 & I5 & I6 & I7 & I8).
  assert (step : forall {X Y} (o o' : option X) (k k' : X -> option Y) y, (forall x, o = Some x -> o' = Some x) -> (forall x y, k x = Some y -> k' x = Some y) ->
    match o with Some x => k x | None => None end = Some y -> match o' with Some x => k' x | None => None end = Some y).
  { intros X Y o o' k k' y H1 H2 H. destruct o as [x|]; [|discriminate]. rewrite (H1 x eq_refl). now apply H2. }
  split; [|split; [|split; [|split; [|split; [|split; [|split]]]]]].
  - intros ts x H. change (rs (S f) ts) with (match rp f ts with Some (a, r) => rsm f a r | None => None end) in H.
    change (rs (S (S f)) ts) with (match rp (S f) ts with Some (a, r) => rsm (S f) a r | None => None end).
    destruct (rp f ts) as [[a r]|] eqn:E; [|discriminate]. rewrite (I3 _ _ E). now apply I2.
  - intros a ts x H. change (rsm (S f) a ts) with (match ts with TkPlus :: r => match rp f r with Some (b, r') => rsm f (YAdd a b) r' | None => None end | TkMinus :: r => match rp f r with Some (b, r') => rsm f (YSub a b) r' | None => None end | _ => Some (a, ts) end) in H.
    change (rsm (S (S f)) a ts) with (match ts with TkPlus :: r => match rp (S f) r with Some (b, r') => rsm (S f) (YAdd a b) r' | None => None end | TkMinus :: r => match rp (S f) r with Some (b, r') => rsm (S f) (YSub a b) r' | None => None end | _ => Some (a, ts) end).
    destruct ts as [|[] r]; try exact H; (destruct (rp f r) as [[b r']|] eqn:E; [|discriminate]); rewrite (I3 _ _ E); now apply I2.
  - intros ts x H. change (rp (S f) ts) with (match rg f ts with Some (a, r) => rpm f a r | None => None end) in H.
    change (rp (S (S f)) ts) with (match rg (S f) ts with Some (a, r) => rpm (S f) a r | None => None end).
    destruct (rg f ts) as [[a r]|] eqn:E; [|discriminate]. rewrite (I5 _ _ E). now apply I4.
  - intros a ts x H. change (rpm (S f) a ts) with (match ts with TkTimes :: r => match rg f r with Some (b, r') => rpm f (YMul a b) r' | None => None end | TkDiv :: r => match rg f r with Some (b, r') => rpm f (YDiv a b) r' | None => None end | _ => Some (a, ts) end) in H.
    change (rpm (S (S f)) a ts) with (match ts with TkTimes :: r => match rg (S f) r with Some (b, r') => rpm (S f) (YMul a b) r' | None => None end | TkDiv :: r => match rg (S f) r with Some (b, r') => rpm (S f) (YDiv a b) r' | None => None end | _ => Some (a, ts) end).
    destruct ts as [|[] r]; try exact H; (destruct (rg f r) as [[b r']|] eqn:E; [|discriminate]); rewrite (I5 _ _ E); now apply I4.
  - intros ts x H. change (rg (S f) ts) with (match ts with TkMinus :: r => match rg f r with Some (a, r') => Some (YNeg a, r') | None => None end | _ => rw f ts end) in H.
    change (rg (S (S f)) ts) with (match ts with TkMinus :: r => match rg (S f) r with Some (a, r') => Some (YNeg a, r') | None => None end | _ => rw (S f) ts end).
    destruct ts as [|[] r]; try (now apply I6). destruct (rg f r) as [[b r']|] eqn:E; [|discriminate]. now rewrite (I5 _ _ E).
  - intros ts x H. change (rw (S f) ts) with (match ra f ts with Some (a, TkPow :: r) => match ra f r with Some (b, r') => Some (YPow a b, r') | None => None end | other => other end) in H.
    change (rw (S (S f)) ts) with (match ra (S f) ts with Some (a, TkPow :: r) => match ra (S f) r with Some (b, r') => Some (YPow a b, r') | None => None end | other => other end).
    destruct (ra f ts) as [[a r]|] eqn:E; [|discriminate]. rewrite (I7 _ _ E). destruct r as [|[] r]; try exact H. destruct (ra f r) as [[b r']|] eqn:E'; [|discriminate]. now rewrite (I7 _ _ E').
  - intros ts x H.
    assert (G : forall n r, (if isf n then match rl f r with Some (l, TkRP :: r') => Some (YCall n l, r') | _ => None end
        else match r with TkPlus :: TkInt k :: TkRP :: r' => Some (YName n (Z.of_N k), r') | TkMinus :: TkInt k :: TkRP :: r' => Some (YName n (- Z.of_N k), r') | _ => None end) = Some x ->
       (if isf n then match rl (S f) r with Some (l, TkRP :: r') => Some (YCall n l, r') | _ => None end
        else match r with TkPlus :: TkInt k :: TkRP :: r' => Some (YName n (Z.of_N k), r') | TkMinus :: TkInt k :: TkRP :: r' => Some (YName n (- Z.of_N k), r') | _ => None end) = Some x).
    { intros n r. destruct (isf n); [|trivial]. destruct (rl f r) as [[l r']|] eqn:E; [|discriminate]. now rewrite (I8 _ _ E). }
    destruct ts as [|[n|n|l| | | | | | | |] r]; try exact H.
    + destruct r as [|[] r]; try exact H. apply G. exact H.
    + change (match rs f r with Some (a, TkRP :: r') => Some (a, r') | _ => None end = Some x) in H. change (match rs (S f) r with Some (a, TkRP :: r') => Some (a, r') | _ => None end = Some x).
      destruct (rs f r) as [[a r']|] eqn:E; [|discriminate]. now rewrite (I1 _ _ E).
  - intros ts x H. change (match rs f ts with Some (a, TkComma :: r) => match rl f r with Some (l, r') => Some (a :: l, r') | None => None end | Some (a, r) => Some ([a], r) | None => None end = Some x) in H.
    change (match rs (S f) ts with Some (a, TkComma :: r) => match rl (S f) r with Some (l, r') => Some (a :: l, r') | None => None end | Some (a, r) => Some ([a], r) | None => None end = Some x).
    destruct (rs f ts) as [[a r]|] eqn:E; [|discriminate]. rewrite (I1 _ _ E). destruct r as [|[] r]; try exact H. destruct (rl f r) as [[l r']|] eqn:E'; [|discriminate]. now rewrite (I8 _ _ E').
Qed.
Lemma sum_mono f f' ts x : f <= f' -> rs f ts = Some x -> rs f' ts = Some x.
Proof. intro H. induction H; [trivial|]. intro E. apply (proj1 (fuel_up _)). auto. Qed.
Lemma summore_mono f f' a ts x : f <= f' -> rsm f a ts = Some x -> rsm f' a ts = Some x.
Proof. intro H. induction H; [trivial|]. intro E. apply (fuel_up _). auto. Qed.
Lemma prod_mono f f' ts x : f <= f' -> rp f ts = Some x -> rp f' ts = Some x.
Proof. intro H. induction H; [trivial|]. intro E. apply (fuel_up _). auto. Qed.
Lemma prodmore_mono f f' a ts x : f <= f' -> rpm f a ts = Some x -> rpm f' a ts = Some x.
Proof. intro H. induction H; [trivial|]. intro E. apply (fuel_up _). auto. Qed.
Lemma signed_mono f f' ts x : f <= f' -> rg f ts = Some x -> rg f' ts = Some x.
Proof. intro H. induction H; [trivial|]. intro E. apply (fuel_up _). auto. Qed.
Lemma power_mono f f' ts x : f <= f' -> rw f ts = Some x -> rw f' ts = Some x.
Proof. intro H. induction H; [trivial|]. intro E. apply (fuel_up _). auto. Qed.
Lemma atom_mono f f' ts x : f <= f' -> ra f ts = Some x -> ra f' ts = Some x.
Proof. intro H. induction H; [trivial|]. intro E. apply (fuel_up _). auto. Qed.
Lemma args_mono f f' ts x : f <= f' -> rl f ts = Some x -> rl f' ts = Some x.
Proof. intro H. induction H; [trivial|]. intro E. apply (fuel_up _). auto. Qed.
Lemma reads_unique ts y y' : reads lv isf ts y -> reads lv isf ts y' -> y = y'.
Proof. intros [f H] [f' H']. apply (sum_mono _ (Nat.max f f')) in H; [|lia]. apply (sum_mono _ (Nat.max f f')) in H'; [|lia]. congruence. Qed.
End Fuel.
