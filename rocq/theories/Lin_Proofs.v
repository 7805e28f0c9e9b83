(* Proofs about linearisation. *)
From Verif Require Import Common Sort_Lib Sym_Model Sym_Spec Sym_Proofs Sym_More Sym_Flatten Build_Model Build_Proofs Build_Order Lin_Model.
From Coq Require Import Permutation Sorted Reals Lra.
Local Open Scope list_scope.

(* ---------- np.where ---------- *)
Lemma where_In m k i : In k (where_from i m) <-> (i <= k)%nat /\ nth_error m (k - i) = Some true.
Proof.
  revert i. induction m as [|b m IH]; intros i; cbn [where_from].
  - split; [easy|]. intros [_ H]. destruct (k - i)%nat; discriminate.
  - assert (X : In k (where_from (S i) m) <-> (i < k)%nat /\ nth_error (b :: m) (k - i) = Some true).
    { rewrite IH. split; intros [H1 H2]; (split; [lia|]); replace (k - i)%nat with (S (k - S i)) in * by lia; exact H2. }
    assert (Y : (i <= k)%nat /\ nth_error (b :: m) (k - i) = Some true <-> (i = k /\ b = true) \/ (i < k)%nat /\ nth_error (b :: m) (k - i) = Some true).
    { split.
      - intros [H1 H2]. destruct (Nat.eq_dec i k) as [->|N].
        + left. replace (k - k)%nat with 0%nat in H2 by lia. cbn in H2. split; [reflexivity|congruence].
        + right. split; [lia|exact H2].
      - intros [[-> ->]|[H1 H2]]; [|split; [lia|exact H2]]. split; [lia|]. replace (k - k)%nat with 0%nat by lia. reflexivity. }
    rewrite Y, <- X. destruct b; cbn [In]; intuition congruence.
Qed.
Lemma np_where_In m k : In k (np_where m) <-> nth_error m k = Some true.
Proof. unfold np_where. rewrite where_In. rewrite Nat.sub_0_r. intuition lia. Qed.
Lemma where_sorted m i : StronglySorted lt (where_from i m).
Proof.
  revert i. induction m as [|b m IH]; intro i; cbn; [constructor|]. destruct b; [|apply IH]. constructor; [apply IH|].
  apply Forall_forall. intros k Hk. apply where_In in Hk. lia.
Qed.
Lemma sorted_nodup (l : list nat) : StronglySorted lt l -> NoDup l.
Proof. induction 1 as [|a l _ IH H]; constructor; [|exact IH]. intro Hi. rewrite Forall_forall in H. apply H in Hi. lia. Qed.
Lemma np_where_nodup m : NoDup (np_where m).
Proof. apply sorted_nodup, where_sorted. Qed.
Lemma nth_map2 {A B C} (f : A -> B -> C) l : forall m k, nth_error (map2 f l m) k =
  match nth_error l k, nth_error m k with Some a, Some b => Some (f a b) | _, _ => None end.
Proof.
  induction l as [|a l IH]; intros [|b m] [|k]; cbn; try reflexivity; try apply IH.
  destruct (nth_error l k); reflexivity.
Qed.
Lemma map2_length {A B C} (f : A -> B -> C) l : forall m, length (map2 f l m) = Nat.min (length l) (length m).
Proof. induction l as [|a l IH]; intros [|b m]; cbn; try reflexivity. now rewrite IH. Qed.

(* the four masks partition the indices *)
Definition four (a b : list bool) (second : bool) : list nat :=
  np_where (mask_and (mask_not a) (mask_not b)) ++ np_where (mask_and a (mask_not b)) ++
  (if second then np_where (mask_and (mask_not a) b) ++ np_where (mask_and a b) else np_where (mask_and a b) ++ np_where (mask_and (mask_not a) b)).
Lemma class_In (p q : bool -> bool) a b k : In k (np_where (mask_and (map p a) (map q b))) <->
  exists x y, nth_error a k = Some x /\ nth_error b k = Some y /\ p x = true /\ q y = true.
Proof.
  rewrite np_where_In. unfold mask_and. rewrite nth_map2, !nth_error_map.
  destruct (nth_error a k) as [x|], (nth_error b k) as [y|]; cbn; split; try discriminate; try (now intros (? & ? & ? & ? & _)).
  - intros [= H]. apply andb_true_iff in H as [H1 H2]. eauto 6.
  - intros (x' & y' & [= <-] & [= <-] & -> & ->). reflexivity.
Qed.
Lemma map_id_bool (l : list bool) : map (fun x : bool => x) l = l. Proof. apply map_id. Qed.
Lemma NoDup_app_intro {A} (l m : list A) : NoDup l -> NoDup m -> (forall x, In x l -> ~ In x m) -> NoDup (l ++ m).
Proof. intros H1 H2 H3. apply NoDup_app. split; [exact H1|]. split; [exact H2|]. intros x Hx Hy. exact (H3 x Hx Hy). Qed.
Lemma four_perm a b second : length a = length b -> Permutation (four a b second) (seq 0 (length a)).
Proof.
  intro L.
  assert (C : forall p q k, In k (np_where (mask_and (map p a) (map q b))) <->
    exists x y, nth_error a k = Some x /\ nth_error b k = Some y /\ p x = true /\ q y = true) by (intros; apply class_In).
  set (id1 := fun x : bool => x).
  assert (E1 : four a b second = np_where (mask_and (map negb a) (map negb b)) ++ np_where (mask_and (map id1 a) (map negb b)) ++
     (if second then np_where (mask_and (map negb a) (map id1 b)) ++ np_where (mask_and (map id1 a) (map id1 b))
      else np_where (mask_and (map id1 a) (map id1 b)) ++ np_where (mask_and (map negb a) (map id1 b)))).
  { unfold four, mask_not, id1. now rewrite !map_id_bool. }
  rewrite E1. apply NoDup_Permutation.
  - assert (D : forall p q p' q' k, (forall x y, p x = true -> q y = true -> p' x = true -> q' y = true -> False) ->
       In k (np_where (mask_and (map p a) (map q b))) -> ~ In k (np_where (mask_and (map p' a) (map q' b)))).
    { intros p q p' q' k H H1 H2. apply C in H1 as (x & y & X1 & Y1 & P1 & Q1). apply C in H2 as (x' & y' & X2 & Y2 & P2 & Q2).
      rewrite X1 in X2. rewrite Y1 in Y2. injection X2 as <-. injection Y2 as <-. eauto. }
    unfold id1 in *. destruct second; repeat (apply NoDup_app_intro; [apply np_where_nodup| |]); try apply np_where_nodup;
      intros k Hk Hk'; repeat (apply in_app_or in Hk' as [Hk'|Hk']); revert Hk Hk'; apply D; intros [|] [|]; cbn; congruence.
  - apply seq_NoDup.
  - intro k. rewrite in_seq. unfold id1 in *. split.
    + intro H. assert (X : exists x y, nth_error a k = Some x /\ nth_error b k = Some y).
      { destruct second; repeat (apply in_app_or in H as [H|H]); apply C in H as (x & y & H1 & H2 & _); eauto. }
      destruct X as (x & y & H1 & _). assert (k < length a)%nat by (apply nth_error_Some; congruence). lia.
    + intros [_ Hk]. cbn in Hk.
      destruct (nth_error a k) as [x|] eqn:X; [|apply nth_error_None in X; lia].
      destruct (nth_error b k) as [y|] eqn:Y; [|apply nth_error_None in Y; lia].
      destruct second; rewrite !in_app_iff, !C; destruct x, y;
        [do 3 right|do 1 right; left|do 2 right; left|left|do 2 right; left|do 1 right; left|do 3 right|left];
        eexists _, _; repeat split; eassumption || reflexivity.
Qed.

(* ---------- argsort inverts a permutation ---------- *)
Lemma ss_map {A B} (f : A -> B) (R1 : A -> A -> Prop) (R2 : B -> B -> Prop) l :
  (forall x y, R1 x y -> R2 (f x) (f y)) -> StronglySorted R1 l -> StronglySorted R2 (map f l).
Proof. intros H. induction 1 as [|a l _ IH F]; cbn; constructor; [exact IH|]. apply Forall_map. eapply Forall_impl; [|exact F]. auto. Qed.
Lemma seq_ssorted n : forall i, StronglySorted (fun x y => Nat.leb x y = true) (seq i n).
Proof. induction n as [|n IH]; intro i; cbn; constructor; [apply IH|]. apply Forall_forall. intros k Hk. apply in_seq in Hk. apply Nat.leb_le. lia. Qed.
Lemma map_nth_seq (p : list nat) : map (fun i => nth i p 0%nat) (seq 0 (length p)) = p.
Proof.
  apply nth_ext with (d := 0%nat) (d' := 0%nat); rewrite map_length, seq_length; [reflexivity|]. intros k Hk.
  rewrite nth_indep with (d' := nth 0 p 0%nat) by (rewrite map_length, seq_length; exact Hk).
  rewrite (map_nth (fun i => nth i p 0%nat)). now rewrite seq_nth by exact Hk.
Qed.
Lemma argsort_perm p : Permutation (argsort p) (seq 0 (length p)).
Proof. symmetry. apply isort_perm. Qed.
Lemma argsort_inverts p n : Permutation p (seq 0 n) -> map (fun i => nth i p 0%nat) (argsort p) = seq 0 n.
Proof.
  intro Hp. apply (sorted_unique Nat.leb).
  - rewrite <- Hp. etransitivity; [apply Permutation_map, argsort_perm|]. rewrite map_nth_seq. reflexivity.
  - unfold argsort. eapply ss_map; [|apply isort_sorted].
    + intros x y H. exact H.
    + intros x y. rewrite !Nat.leb_le. lia.
    + intros x y z. rewrite !Nat.leb_le. lia.
  - apply seq_ssorted.
  - intros x y _ _ H1 H2. apply Nat.leb_le in H1, H2. lia.
Qed.

(* ---------- take ---------- *)
Lemma take_map {A B} (f : A -> B) l idx : take (map f l) idx = (r <- take l idx ;; Ok (map f r)).
Proof.
  induction idx as [|i idx IH]; cbn; [reflexivity|]. rewrite nth_error_map. destruct (nth_error l i) as [a|]; cbn; [|reflexivity].
  rewrite IH. destruct (take l idx); reflexivity.
Qed.
Lemma take_ok {A} (l : list A) idx : (forall i, In i idx -> (i < length l)%nat) ->
  exists r, take l idx = Ok r /\ length r = length idx /\ forall k i, nth_error idx k = Some i -> nth_error r k = nth_error l i.
Proof.
  induction idx as [|i idx IH]; intro H; cbn.
  - exists []. repeat split. intros [|k] j; discriminate.
  - destruct (nth_error l i) as [a|] eqn:E; [|apply nth_error_None in E; specialize (H i (or_introl eq_refl)); lia].
    destruct IH as (r & Hr & L & N); [intros j Hj; apply H; now right|]. rewrite Hr. cbn. exists (a :: r). cbn. split; [reflexivity|].
    split; [lia|]. intros [|k] j Hk; cbn in *; [injection Hk as <-; now rewrite E|eauto].
Qed.
Lemma nth_error_ext {A} (l m : list A) : (forall k, nth_error l k = nth_error m k) -> l = m.
Proof.
  revert m. induction l as [|a l IH]; intros [|b m] H; [reflexivity|specialize (H 0%nat); discriminate|specialize (H 0%nat); discriminate|].
  f_equal; [specialize (H 0%nat); cbn in H; congruence|]. apply IH. intro k. exact (H (S k)).
Qed.
Lemma take_id {A} (l : list A) : take l (seq 0 (length l)) = Ok l.
Proof.
  destruct (take_ok l (seq 0 (length l))) as (r & Hr & L & N); [intros i Hi; apply in_seq in Hi; lia|]. rewrite Hr. f_equal.
  apply nth_error_ext. intro k. destruct (Nat.lt_ge_cases k (length l)) as [Hk|Hk].
  - apply N. rewrite nth_error_nth' with (d := 0%nat) by (rewrite seq_length; exact Hk). now rewrite seq_nth by exact Hk.
  - rewrite seq_length in L. rewrite !(proj2 (nth_error_None _ _)) by lia. reflexivity.
Qed.
Lemma take_undo {A} (l : list A) p r : Permutation p (seq 0 (length l)) -> take l p = Ok r -> take r (argsort p) = Ok l.
Proof.
  intros Hp Ht. assert (Lp : length p = length l) by (rewrite Hp; apply seq_length).
  destruct (take_ok l p) as (r' & Hr & L & N); [intros i Hi; apply (Permutation_in _ Hp), in_seq in Hi; lia|].
  rewrite Ht in Hr. injection Hr as <-.
  pose proof (argsort_inverts p (length l) Hp) as Hi. pose proof (argsort_perm p) as Ha.
  destruct (take_ok r (argsort p)) as (s & Hs & Ls & Ns).
  { intros i Hin. apply (Permutation_in _ Ha), in_seq in Hin. lia. }
  rewrite Hs. f_equal. apply nth_error_ext. intro k. destruct (Nat.lt_ge_cases k (length l)) as [Hk|Hk].
  - assert (La : length (argsort p) = length l) by (rewrite Ha, seq_length; exact Lp).
    destruct (nth_error (argsort p) k) as [i|] eqn:E; [|apply nth_error_None in E; lia].
    rewrite (Ns _ _ E). assert (Hin : In i (argsort p)) by (eapply nth_error_In; exact E).
    apply (Permutation_in _ Ha), in_seq in Hin.
    destruct (nth_error p i) as [j|] eqn:E2; [|apply nth_error_None in E2; lia].
    rewrite (N _ _ E2). f_equal.
    apply (f_equal (fun x => nth_error x k)) in Hi. rewrite nth_error_map, E in Hi. cbn in Hi.
    rewrite nth_error_nth' with (d := 0%nat) in Hi by (rewrite seq_length; exact Hk). rewrite seq_nth in Hi by exact Hk.
    rewrite (nth_error_nth p i 0%nat E2) in Hi. cbn in Hi. congruence.
  - rewrite !(proj2 (nth_error_None _ _)); [reflexivity|lia|]. rewrite Ls, Ha, seq_length. lia.
Qed.
Lemma take_length {A} (l : list A) idx r : take l idx = Ok r -> length r = length idx.
Proof.
  revert r. induction idx as [|i idx IH]; cbn; intros r H; [injection H as <-; reflexivity|].
  destruct (nth_error l i); [|discriminate]. destruct (take l idx) as [r'|]; [|discriminate]. cbn in H. injection H as <-. cbn. f_equal. now apply IH.
Qed.
Lemma mapM_map {A B C} (f : B -> result C) (g : A -> B) (h : A -> C) l : (forall a, In a l -> f (g a) = Ok (h a)) -> mapM f (map g l) = Ok (map h l).
Proof. induction l as [|a l IH]; intro H; cbn; [reflexivity|]. rewrite H by now left. cbn. rewrite IH by (intros; apply H; now right). reflexivity. Qed.

(* ---------- the orders ---------- *)
Lemma from_model_var vars eqs : var_order (from_model vars eqs) = four (v_lag vars eqs) (v_lead vars eqs) false.
Proof. reflexivity. Qed.
Lemma from_model_eq vars eqs : eq_order (from_model vars eqs) = four (e_lag vars eqs) (e_lead vars eqs) true.
Proof. reflexivity. Qed.
Lemma var_order_perm vars eqs : Permutation (var_order (from_model vars eqs)) (seq 0 (length vars)).
Proof. rewrite from_model_var. unfold v_lag, v_lead. rewrite four_perm; rewrite !map_length; reflexivity. Qed.
Lemma eq_order_perm vars eqs : Permutation (eq_order (from_model vars eqs)) (seq 0 (length eqs)).
Proof. rewrite from_model_eq. unfold e_lag, e_lead. rewrite four_perm; rewrite !map_length; reflexivity. Qed.
Lemma take_order {A} (l : list A) p : Permutation p (seq 0 (length l)) -> exists r, take l p = Ok r /\ Permutation r l /\
  (if nat_list_eqb p (seq 0 (length p)) then Ok r else take r (argsort p)) = Ok l.
Proof.
  intro Hp. destruct (take_ok l p) as (r & Hr & L & N); [intros i Hi; apply (Permutation_in _ Hp), in_seq in Hi; lia|].
  exists r. split; [exact Hr|]. assert (Lp : length p = length l) by (rewrite Hp; apply seq_length).
  assert (U := take_undo l p r Hp Hr). split.
  - clear U. revert Hr. rewrite <- (app_nil_r r). intros Hr.
    assert (X : forall idx r', take l idx = Ok r' -> Permutation idx (seq 0 (length l)) -> Permutation r' l); [|rewrite app_nil_r in *; eauto].
    intros idx r' H P. assert (E : exists d : list A, r' = flat_map (fun i => match nth_error l i with Some a => [a] | None => [] end) idx).
    { exists []. clear P. revert r' H. induction idx as [|i idx IH]; cbn; intros r' H; [injection H as <-; reflexivity|].
      destruct (nth_error l i); [|discriminate]. destruct (take l idx) as [q|]; [|discriminate]. cbn in H. injection H as <-. cbn. f_equal. now apply IH. }
    destruct E as [_ ->]. rewrite (Permutation_flat_map _ P). clear. 
    assert (Y : forall n, (n <= length l)%nat -> flat_map (fun i => match nth_error l i with Some a => [a] | None => [] end) (seq 0 n) = firstn n l).
    { induction n as [|n IH]; intro Hn; [reflexivity|]. rewrite seq_S, flat_map_app, IH by lia. cbn. rewrite app_nil_r.
      destruct (nth_error l n) as [a|] eqn:E; [|apply nth_error_None in E; lia].
      clear IH. revert n Hn E. induction l as [|b l IH]; intros [|n] Hn E; cbn in *; try lia; [congruence|]. f_equal. apply IH; [lia|exact E]. }
    rewrite Y by lia. now rewrite firstn_all.
  - unfold nat_list_eqb. destruct (list_eq_dec Nat.eq_dec p (seq 0 (length p))) as [E|_]; [|exact U].
    rewrite <- Hr, E, Lp. apply take_id.
Qed.

(* ---------- build_jacobians ---------- *)
Section Jac.
Variable ord : set_order.
Variable simp : sx -> sx.
Variable shocks : list sym.
Let cell (eq : sx) (v : sym) : sx := simp (eq_to_ss ord (diff v eq) shocks).
Definition full (spec : list sx * list sym) : matrix sx := map (fun eq => map (cell eq) (snd spec)) (fst spec).
Lemma rows_spec (rows : matrix sx) w pre post : (forall r, In r rows -> length r = w) ->
  rows_of (pre ++ concat rows ++ post) (length pre) w (length rows) = rows.
Proof.
  intro H. unfold rows_of. revert pre. induction rows as [|r rows IH]; intro pre; [reflexivity|]. cbn [length seq map].
  assert (Lr : length r = w) by (apply H; now left). f_equal.
  - rewrite Nat.mul_0_l, Nat.add_0_r. rewrite skipn_app, skipn_all, Nat.sub_diag. cbn. rewrite <- app_assoc, <- Lr, firstn_app, firstn_all, Nat.sub_diag. cbn. apply app_nil_r.
  - rewrite <- seq_shift, map_map. rewrite <- (IH (fun r' Hr' => H r' (or_intror Hr')) (pre ++ r)) at 2.
    apply map_ext. intro i. cbn [concat]. rewrite <- !app_assoc. rewrite app_length, Lr. replace (length pre + S i * w)%nat with (length pre + w + i * w)%nat by lia. reflexivity.
Qed.
Lemma cut_spec specs : forall pre, cut (pre ++ map simp (concat (concat (map (grid ord shocks) specs)))) (length pre)
    (map (fun s => (length (fst s), length (snd s))) specs) = map full specs.
Proof.
  induction specs as [|[eqs wrt] specs IH]; intro pre; [reflexivity|]. cbn [map cut fst snd].
  destruct (Nat.eqb (length eqs) 0 || Nat.eqb (length wrt) 0)%bool eqn:E.
  - assert (G0 : grid ord shocks (eqs, wrt) = []).
    { apply orb_true_iff in E as [E|E]; apply Nat.eqb_eq, length_zero_iff_nil in E; subst; [reflexivity|]. destruct eqs; reflexivity. }
    rewrite G0. cbn [concat app]. rewrite IH. apply (f_equal2 cons); [|reflexivity]. unfold full. cbn [fst snd].
    apply orb_true_iff in E as [E|E]; apply Nat.eqb_eq, length_zero_iff_nil in E; subst; [reflexivity|]. cbn.
    clear G0. induction eqs as [|e eqs IHe]; cbn; [reflexivity|]. f_equal. exact IHe.
  - apply orb_false_iff in E as [E1 E2]. apply Nat.eqb_neq in E1, E2.
    assert (G1 : grid ord shocks (eqs, wrt) = map (fun eq => map (fun v => eq_to_ss ord (diff v eq) shocks) wrt) eqs).
    { destruct eqs as [|e eqs]; [cbn in E1; lia|]. destruct wrt as [|w wrt]; [cbn in E2; lia|]. reflexivity. }
    rewrite G1. cbn [concat]. rewrite concat_app, map_app.
    assert (C : map simp (concat (map (fun eq => map (fun v => eq_to_ss ord (diff v eq) shocks) wrt) eqs)) = concat (full (eqs, wrt))).
    { rewrite concat_map, map_map. unfold full. cbn. f_equal. apply map_ext. intro eq. rewrite map_map. reflexivity. }
    rewrite C. apply (f_equal2 cons).
    + pose proof (rows_spec (full (eqs, wrt)) (length wrt) pre (map simp (concat (concat (map (grid ord shocks) specs))))) as Hr.
      assert (Lf : length (full (eqs, wrt)) = length eqs) by (unfold full; rewrite map_length; reflexivity). rewrite Lf in Hr. apply Hr.
      intros r Hi. unfold full in Hi. apply in_map_iff in Hi as (eq & <- & _). apply map_length.
    + rewrite app_assoc. replace (length pre + length eqs * length wrt)%nat with (length (pre ++ concat (full (eqs, wrt)))); [apply IH|].
      rewrite app_length. f_equal. unfold full. cbn [fst snd]. clear. induction eqs as [|e eqs IH]; cbn; [reflexivity|]. rewrite app_length, map_length, IH. lia.
Qed.
Lemma build_jacobians_spec specs : build_jacobians ord simp specs shocks = map full specs.
Proof. unfold build_jacobians. exact (cut_spec specs []). Qed.
End Jac.
