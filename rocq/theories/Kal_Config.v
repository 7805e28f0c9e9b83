(* What a successful configure guarantees about the stored configuration. *)
From Verif Require Import Common Sym_Model Sym_Spec Sym_Proofs SR_Model Kal_Model Kal_Spec Kal_Proofs.
From Coq Require Import Reals Permutation.
Local Open Scope nat_scope.
Local Open Scope list_scope.

Record wf (m : kmodel) (c : config) : Prop := WF {
  wf_vars : NoDup (k_vars m);
  wf_agg : NoDup (map fst (c_agg c));
  wf_agg_obs : forall v a, In (v, a) (c_agg c) -> In v (c_observed c);
  wf_period : forall v a, In (v, a) (c_agg c) -> mem a cumulator_aggregations = true -> (2 <= c_period c)%Z;
  wf_obs : NoDup (map fst (c_obs c));
  wf_eqs : forall n i coeffs v lag k, In (n, (i, coeffs)) (c_obs c) -> In ((v, lag), k) coeffs -> In v (k_vars m) /\ (lag <= 0)%Z;
  wf_depths : NoDup (map fst (c_depths c));
  wf_pos : forall v d, In (v, d) (c_depths c) -> 0 < d;
  wf_enough : forall n i coeffs v lag k, In (n, (i, coeffs)) (c_obs c) -> In ((v, lag), k) coeffs ->
    (0 < - lag + (if cumulates (get n (c_agg c)) then c_period c - 1 else 0))%Z ->
    exists d, get v (c_depths c) = Some d /\ (- lag + (if cumulates (get n (c_agg c)) then c_period c - 1 else 0) <= Z.of_nat d)%Z;
  wf_starts : c_starts c = lag_starts (length (k_vars m) + n_cumulator_states c) (c_depths c) }.

(* depths *)
Definition deeper (d1 d2 : list (chars * nat)) : Prop := forall v x, get v d1 = Some x -> exists y, get v d2 = Some y /\ x <= y.
Definition fine (d : list (chars * nat)) : Prop := NoDup (map fst d) /\ forall v x, get v d = Some x -> 0 < x.
Lemma deeper_refl d : deeper d d. Proof. intros v x H. exists x. auto. Qed.
Lemma deeper_trans d1 d2 d3 : deeper d1 d2 -> deeper d2 d3 -> deeper d1 d3.
Proof. intros H1 H2 v x H. destruct (H1 v x H) as (y & Hy & L1). destruct (H2 v y Hy) as (z & Hz & L2). exists z. split; [exact Hz|lia]. Qed.
Lemma need_depth_spec b d v lag k : fine d -> fine (need_depth b d ((v, lag), k)) /\ deeper d (need_depth b d ((v, lag), k)) /\
  ((0 < - lag + b)%Z -> exists y, get v (need_depth b d ((v, lag), k)) = Some y /\ (- lag + b <= Z.of_nat y)%Z).
Proof.
  intros [F1 F2]. unfold need_depth. destruct (Z.ltb_spec 0 (- lag + b)) as [H|H].
  - split; [split; [now apply put_nodup|]|split].
    + intros w x. rewrite put_get. destruct (chars_eqb w v) eqn:E; [|apply F2]. intro Hx. injection Hx as <-. destruct (get v d); lia.
    + intros w x Hw. rewrite put_get. destruct (chars_eqb w v) eqn:E; [|exists x; auto]. apply chars_eqb_eq in E. subst w. rewrite Hw. eexists. split; [reflexivity|lia].
    + intros _. rewrite put_get, chars_eqb_refl. eexists. split; [reflexivity|]. destruct (get v d); lia.
  - split; [split; assumption|]. split; [apply deeper_refl|lia].
Qed.
Lemma need_all b l : forall d, fine d -> let d' := fold_left (need_depth b) l d in fine d' /\ deeper d d' /\
  forall v lag k, In ((v, lag), k) l -> (0 < - lag + b)%Z -> exists y, get v d' = Some y /\ (- lag + b <= Z.of_nat y)%Z.
Proof.
  induction l as [|[[v lag] k] l IH]; intros d Hd; cbv zeta; cbn [fold_left].
  - split; [exact Hd|]. split; [apply deeper_refl|]. intros ? ? ? [].
  - destruct (need_depth_spec b d v lag k Hd) as (N1 & N2 & N3). destruct (IH _ N1) as (I1 & I2 & I3). cbv zeta in I1, I2, I3. split; [exact I1|]. split; [eapply deeper_trans; eassumption|].
    intros w lg q [E|Hin] Hp; [|now apply (I3 w lg q)]. injection E as <- <- <-. destruct (N3 Hp) as (y & Hy & Ly). destruct (I2 _ _ Hy) as (z & Hz & Lz). exists z. split; [exact Hz|lia].
Qed.
Lemma lag_depths_spec agg period (obs : list (chars * linear_eq)) : forall d, fine d ->
  let d' := fold_left (fun depths ne => fold_left (need_depth (if cumulates (get (fst ne) agg) then period - 1 else 0)%Z) (snd (snd ne)) depths) obs d in
  fine d' /\ deeper d d' /\
  forall n i coeffs v lag k, In (n, (i, coeffs)) obs -> In ((v, lag), k) coeffs -> (0 < - lag + (if cumulates (get n agg) then period - 1 else 0))%Z ->
    exists y, get v d' = Some y /\ (- lag + (if cumulates (get n agg) then period - 1 else 0) <= Z.of_nat y)%Z.
Proof.
  induction obs as [|[n [i coeffs]] obs IH]; intros d Hd; cbv zeta; cbn [fold_left].
  - split; [exact Hd|]. split; [apply deeper_refl|]. intros ? ? ? ? ? ? [].
  - cbn [fst snd]. destruct (need_all (if cumulates (get n agg) then period - 1 else 0)%Z coeffs d Hd) as (N1 & N2 & N3). cbv zeta in N1, N2, N3. destruct (IH _ N1) as (I1 & I2 & I3). cbv zeta in I1, I2, I3.
    split; [exact I1|]. split; [eapply deeper_trans; eassumption|]. intros n' i' co' v lag k [E|Hin] Hk Hp; [|now apply (I3 n' i' co' v lag k)].
    injection E as <- <- <-. destruct (N3 v lag k Hk Hp) as (y & Hy & Ly). destruct (I2 _ _ Hy) as (z & Hz & Lz). exists z. split; [exact Hz|lia].
Qed.

Lemma linearize_keys m ord e v lag k : set_order_ok ord -> In ((v, lag), k) (snd (linearize_equation m ord e)) -> In (SDate v lag) (atoms e).
Proof.
  intros Ho H. unfold linearize_equation in H. cbn [snd] in H. apply in_map_iff in H. destruct H as (key & E & Hk). injection E as E _. subst key.
  unfold appearing in Hk. apply in_map_iff in Hk. destruct Hk as (s & Es & Hs). apply (proj1 (ord_in ord Ho _ _)) in Hs. apply filter_In in Hs. destruct Hs as [Hs Hd].
  destruct s; try discriminate. cbn in Es. now injection Es as <- <-.
Qed.
Lemma check_ok m e e' : check_equation m e = Ok e' -> e' = e /\ forall v t, In (SDate v t) (atoms e) -> In v (k_vars m) /\ (t <= 0)%Z.
Proof.
  unfold check_equation. destruct (existsb (bad_symbol m) (atoms e)) eqn:E; [discriminate|]. intro H. injection H as <-. split; [reflexivity|]. intros v t Hin.
  assert (Hb : bad_symbol m (SDate v t) = false). { destruct (bad_symbol m (SDate v t)) eqn:B; [|reflexivity]. assert (existsb (bad_symbol m) (atoms e) = true) by (rewrite existsb_exists; eauto). congruence. }
  cbn in Hb. apply orb_false_iff in Hb. destruct Hb as [H1 H2]. apply Z.ltb_ge in H1. apply negb_false_iff, mem_In in H2. auto.
Qed.
Definition eqs_ok (m : kmodel) (obs : list (chars * linear_eq)) : Prop := NoDup (map fst obs) /\
  forall n i coeffs v lag k, get n obs = Some (i, coeffs) -> In ((v, lag), k) coeffs -> In v (k_vars m) /\ (lag <= 0)%Z.
Lemma fill_spec m ord l : set_order_ok ord -> forall done obs, fill_equations m ord l done = (obs, Ok tt) -> eqs_ok m done ->
  eqs_ok m obs /\ (forall x, In x (map fst obs) <-> In x (map fst l) \/ In x (map fst done)) /\
  forall n, ~ In n (map fst l) -> get n obs = get n done.
Proof.
  intro Ho. induction l as [|[name parsed] l IH]; intros done obs H Hd; cbn [fill_equations] in H.
  - injection H as <-. split; [exact Hd|]. split; [cbn; tauto|reflexivity].
  - destruct parsed as [e|x]; [|discriminate]. cbn [bind] in H. destruct (check_equation m e) as [e'|x] eqn:Ec; [|discriminate]. destruct (check_ok _ _ _ Ec) as [-> Hc].
    destruct (IH _ _ H) as (I1 & I2 & I3).
    { destruct Hd as [D1 D2]. split; [now apply put_nodup|]. intros n i coeffs v lag k Hg Hk. rewrite put_get in Hg. destruct (chars_eqb n name) eqn:E; [|now apply (D2 n i coeffs v lag k)].
      assert (Hg2 : linearize_equation m ord e = (i, coeffs)) by congruence. apply Hc. apply (linearize_keys m ord e v lag k Ho). rewrite Hg2. exact Hk. }
    split; [exact I1|]. split.
    + intro x. rewrite I2, put_keys. cbn. intuition.
    + intros n Hn. rewrite I3 by (cbn in Hn; tauto). rewrite put_get. destruct (chars_eqb n name) eqn:E; [|reflexivity]. apply chars_eqb_eq in E. subst. exfalso. apply Hn. now left.
Qed.
(* the equations are filled in under their names, in order *)
Lemma fill_get m ord l : set_order_ok ord -> forall done obs, fill_equations m ord l done = (obs, Ok tt) -> NoDup (map fst l) ->
  forall n p, In (n, p) l -> exists e, p = Ok e /\ check_equation m e = Ok e /\ get n obs = Some (linearize_equation m ord e).
Proof.
  intro Ho. induction l as [|[name parsed] l IH]; intros done obs H Hn n p Hin; [destruct Hin|]. cbn [fill_equations] in H. destruct parsed as [e|x]; [|discriminate]. cbn [bind] in H. destruct (check_equation m e) as [e'|x] eqn:Ec; [|discriminate].
  destruct (check_ok _ _ _ Ec) as [-> Hc]. cbn in Hn. inversion Hn as [|? ? N1 N2]; subst. destruct Hin as [E|Hin]; [|now apply (IH _ _ H N2)].
  injection E as -> <-. exists e. split; [reflexivity|]. split; [exact Ec|]. clear IH.
  assert (Hg : forall l done obs, fill_equations m ord l done = (obs, Ok tt) -> ~ In n (map fst l) -> get n obs = get n done).
  { clear. induction l as [|[name parsed] l IH]; intros done obs H Hn; cbn [fill_equations] in H; [now injection H as <-|].
    destruct parsed as [e|x]; [|discriminate]. cbn [bind] in H. destruct (check_equation m e) as [e'|x]; [|discriminate]. rewrite (IH _ _ H) by (cbn in Hn; tauto).
    rewrite put_get. destruct (chars_eqb n name) eqn:E; [|reflexivity]. apply chars_eqb_eq in E. subst. exfalso. apply Hn. now left. }
  rewrite (Hg _ _ _ H N1), put_get, chars_eqb_refl. reflexivity.
Qed.

Lemma all_in_spec l big : all_in l big = true <-> incl l big.
Proof. unfold all_in. rewrite forallb_forall. split; intros H x Hx; [apply mem_In, H, Hx|apply mem_In, H, Hx]. Qed.
Ltac split_valid H := unfold valid in H; repeat (apply andb_prop in H; let X := fresh "V" in destruct H as [H X]).
Lemma configure_wf m W ord c0 a c : set_order_ok ord -> proper m a -> configure m W ord c0 a = (c, Ok tt) ->
  wf m c /\ c_observed c = a_observed a /\ c_error c = or_nil (a_error a) /\ c_const c = constants m a /\ c_agg c = or_nil (a_agg a) /\
  c_period c = a_period a /\ c_ssint c = or_nil (a_ssint a) /\ c_full c = a_full a /\ c_states c = state_names m c /\
  fill_equations m ord (or_nil (a_obs a)) [] = (c_obs c, Ok tt) /\ valid m c0 a = true /\
  exists b, make_symbolic_graph m W c (fun _ => 0%R) (fun _ _ => 0%R) = Ok b.
Proof.
  intros Ho (P1 & P2 & P3) H. unfold configure in H. destruct (valid m c0 a) eqn:Hv; [|discriminate]. cbn [negb] in H. assert (Hv0 := Hv). split_valid Hv.
  destruct (fill_equations m ord (or_nil (a_obs a)) []) as [obs r] eqn:Ef. destruct r as [[]|x]; [|discriminate]. cbv zeta in H.
  match type of H with (match make_symbolic_graph _ _ ?c2 _ _ with _ => _ end) = _ => set (cc := c2) in H end.
  destruct (make_symbolic_graph m W cc (fun _ => 0%R) (fun _ _ => 0%R)) as [b|x] eqn:Eb; [|discriminate]. injection H as <-.
  destruct (fill_spec m ord _ Ho _ _ Ef) as ((F1 & F2) & F3 & F4); [split; [constructor|intros; discriminate]|].
  assert (Hfin : fine []) by (split; [constructor|intros; discriminate]).
  destruct (lag_depths_spec (or_nil (a_agg a)) (a_period a) obs [] Hfin) as ((D1 & D2) & _ & D3). cbv zeta in D1, D2, D3.
  change (fold_left _ obs []) with (lag_depths (or_nil (a_agg a)) (a_period a) obs) in D1, D2, D3.
  split; [|do 10 (split; [reflexivity|]); exists b; exact Eb].
  constructor; unfold cc; cbn [c_agg c_observed c_period c_obs c_depths c_starts].
  - exact P1.
  - exact P2.
  - intros v x Hin. rewrite all_in_spec in V8. apply V8. now apply (in_map fst) in Hin.
  - intros v x Hin Hm. apply negb_true_iff, andb_false_iff in V6. destruct V6 as [C|C]; [|now apply Z.ltb_ge in C].
    exfalso. assert (existsb (fun vm => mem (snd vm) cumulator_aggregations) (or_nil (a_agg a)) = true) by (rewrite existsb_exists; exists (v, x); auto). congruence.
  - exact F1.
  - intros n i coeffs v lag k Hin Hk. apply (F2 n i coeffs v lag k); [now apply get_nodup|exact Hk].
  - exact D1.
  - intros v d Hin. apply (D2 v d). now apply get_nodup.
  - intros n i coeffs v lag k Hin Hk Hp. now apply (D3 n i coeffs v lag k).
  - reflexivity.
Qed.
