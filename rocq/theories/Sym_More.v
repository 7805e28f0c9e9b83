From Verif Require Import Common Sym_Model Sym_Spec Sym_Proofs Sym_Diff Sym_Flatten.
From Coq Require Import Permutation Reals Lra.
Local Open Scope list_scope.

(* ---------- eq_to_ss ---------- *)
Lemma run_to_ss l s : subs_seq (map (fun s => (s, Sy (to_ss_sym s))) l) (Sy s) =
  if in_dec sym_eq_dec s l then Sy (to_ss_sym s) else Sy s.
Proof.
  unfold subs_seq. revert s. induction l as [|v l IH]; intro s; cbn [map fold_left fst snd subs1].
  - destruct (in_dec sym_eq_dec s []) as [[]|]; reflexivity.
  - destruct (sym_eqb s v) eqn:E.
    + apply sym_eqb_eq in E. subst v. rewrite IH.
      destruct (in_dec sym_eq_dec s (s :: l)) as [_|N]; [|exfalso; apply N; left; reflexivity].
      destruct (in_dec sym_eq_dec (to_ss_sym s) l); [destruct s|]; reflexivity.
    + apply sym_eqb_neq in E. rewrite IH.
      destruct (in_dec sym_eq_dec s l) as [Hi|Hi]; destruct (in_dec sym_eq_dec s (v :: l)) as [Hj|Hj]; auto.
      * exfalso. apply Hj. right. exact Hi.
      * destruct Hj as [Hj|Hj]; [congruence|contradiction].
Qed.
Lemma subs_seq_cst l (z : Z) : subs_seq l (Cst z) = Cst z.
Proof. unfold subs_seq. induction l; cbn; auto. Qed.
Lemma run_zero (l : list sym) s : subs_seq (map (fun s => (to_ss_sym s, Cst 0)) l) (Sy s) =
  if in_dec sym_eq_dec s (map to_ss_sym l) then Cst 0 else Sy s.
Proof.
  unfold subs_seq. induction l as [|v l IH]; cbn [map fold_left fst snd subs1].
  - destruct (in_dec sym_eq_dec s []) as [[]|]; reflexivity.
  - destruct (sym_eqb s (to_ss_sym v)) eqn:E.
    + apply sym_eqb_eq in E. destruct (in_dec sym_eq_dec s (to_ss_sym v :: map to_ss_sym l)) as [_|N].
      * apply subs_seq_cst.
      * exfalso. apply N. left. auto.
    + apply sym_eqb_neq in E. rewrite IH.
      destruct (in_dec sym_eq_dec s (map to_ss_sym l)) as [Hi|Hi];
      destruct (in_dec sym_eq_dec s (to_ss_sym v :: map to_ss_sym l)) as [Hj|Hj]; auto.
      * exfalso. apply Hj. right. exact Hi.
      * destruct Hj as [Hj|Hj]; [congruence|contradiction].
Qed.

(* every variable at its steady state, every shock at zero *)
Definition rest_env {V} (A : alg V) (shocks : list sym) (env : sym -> V) : sym -> V := fun s =>
  match s with
  | SPar n => env (SPar n)
  | SDate b _ | SSs b => if in_dec sym_eq_dec (SSs b) (map to_ss_sym shocks) then a_cst V A 0 else env (SSs b)
  end.
Lemma eq_to_ss_means ord : set_order_ok ord -> forall V (A : alg V) env eq shocks,
  (forall s, In s shocks -> exists b t, s = SDate b t) ->
  ev A env (eq_to_ss ord eq shocks) = ev A (rest_env A shocks env) eq.
Proof.
  intros Hord V A env eq shocks Hsh. unfold eq_to_ss. cbv zeta.
  rewrite (subs_seq_smap (map (fun s => (to_ss_sym s, Cst 0)) shocks)), ev_smap.
  rewrite subs_seq_smap, ev_smap. apply ev_ext. intros s Hs. rewrite run_to_ss.
  destruct (in_dec sym_eq_dec s (filter time_aware (ord (atoms eq)))) as [Hi|Hi].
  - cbn [ev]. rewrite run_zero. destruct s as [n|b t|b]; cbn [to_ss_sym rest_env];
      [apply filter_In in Hi as [_ Hi]; discriminate| |];
    destruct (in_dec sym_eq_dec (SSs b) (map to_ss_sym shocks)); reflexivity.
  - cbn [ev]. rewrite run_zero. destruct s as [n|b t|b]; cbn [rest_env].
    + destruct (in_dec sym_eq_dec (SPar n) (map to_ss_sym shocks)) as [Hj|Hj]; [|reflexivity].
      exfalso. apply in_map_iff in Hj as (s & E & Hj). destruct (Hsh s Hj) as (b & t & ->). discriminate.
    + exfalso. apply Hi, filter_In. split; [now apply ord_in|reflexivity].
    + exfalso. apply Hi, filter_In. split; [now apply ord_in|reflexivity].
Qed.

(* ---------- expand_subs_for_all_times ---------- *)
(* A path on which  x = rhs  holds in every period (and at the steady state). *)
Definition holds_always {V} (A : alg V) (env : sym -> V) (x : chars) (rhs : sx) : Prop :=
  (forall k, env (SDate x k) = ev A env (shift k rhs)) /\ env (SSs x) = ev A env (smap (fun s => Sy (to_ss_sym s)) rhs).

Lemma expand_alias_sound {V} (A : alg V) env x y e :
  holds_always A env x (Sy (SDate y 0)) -> x <> y ->
  ev A env (subs_seq (expand_subs1 (SDate x 0) (Sy (SDate y 0))) e) = ev A env e.
Proof.
  intros [H Hss] Hxy. rewrite subs_seq_smap, ev_smap. apply ev_ext. intros s _.
  rewrite subs_seq_simul.
  - unfold slookup. cbn [expand_subs1 map set_date find fst snd].
    repeat match goal with |- context [sym_eqb ?a ?b] => destruct (sym_eqb a b) eqn:?E end;
    repeat match goal with E : sym_eqb _ _ = true |- _ => apply sym_eqb_eq in E end; subst; try reflexivity; cbn [snd].
    + specialize (H (-1)%Z). cbn in H. auto.
    + specialize (H 0%Z). cbn in H. auto.
    + specialize (H 1%Z). cbn in H. auto.
    + cbn in Hss. auto.
  - cbn. repeat constructor; cbn; intuition congruence.
  - intros k w Hkw s' Hs' Hin. cbn in Hkw, Hin.
    repeat (destruct Hkw as [Hkw|Hkw]; [injection Hkw as <- <-; cbn in Hs'; destruct Hs' as [<-|[]]; intuition congruence|]). destruct Hkw.
Qed.
Lemma expand_const_sound {V} (A : alg V) env x rhs e :
  (forall s, In s (atoms rhs) -> exists n, s = SPar n) -> holds_always A env x rhs ->
  ev A env (subs_seq (expand_subs1 (SDate x 0) rhs) e) = ev A env e.
Proof.
  intros Hp [H Hss]. rewrite subs_seq_smap, ev_smap. apply ev_ext. intros s _.
  assert (Hr : forall t, (match rhs with Sy s => Sy (set_date t s) | _ => rhs end) = rhs).
  { intro t. destruct rhs as [z|s0|a b|a b|a|f k a]; try reflexivity.
    destruct (Hp s0 (or_introl eq_refl)) as (n & ->). reflexivity. }
  assert (Hr2 : ev A env (smap (fun s => Sy (to_ss_sym s)) rhs) = ev A env rhs).
  { rewrite ev_smap. apply ev_ext. intros s0 Hs0. destruct (Hp s0 Hs0) as (n & ->). reflexivity. }
  assert (Hr3 : forall k, ev A env (shift k rhs) = ev A env rhs).
  { intro k. rewrite ev_shift. apply ev_ext. intros s0 Hs0. destruct (Hp s0 Hs0) as (n & ->). reflexivity. }
  rewrite subs_seq_simul.
  - unfold slookup. cbn [expand_subs1 map set_date find fst snd].
    repeat match goal with |- context [sym_eqb ?a ?b] => destruct (sym_eqb a b) eqn:?E end;
    repeat match goal with E : sym_eqb _ _ = true |- _ => apply sym_eqb_eq in E end; subst; try reflexivity; cbn [snd];
    rewrite Hr; rewrite ?H, ?Hss, ?Hr2, ?Hr3; reflexivity.
  - cbn. repeat constructor; cbn; intuition congruence.
  - intros k w Hkw s' Hs' Hin. cbn [expand_subs1 map] in Hkw. rewrite !Hr in Hkw.
    assert (w = rhs) by (cbn in Hkw; intuition congruence). subst w. destruct (Hp s' Hs') as (n & ->).
    cbn in Hin. intuition congruence.
Qed.

Definition Zalg : alg Z := Alg Z (fun z => z) Z.add Z.mul Z.opp (fun _ _ z => z).
(* x = -y : the date of y is not moved *)
Definition neg_env : sym -> Z := fun s =>
  match s with SDate b t => if chars_eqb b (str "x") then (- t)%Z else t | _ => 0%Z end.
Lemma neg_holds : holds_always Zalg neg_env (str "x") (Ng (Sy (SDate (str "y") 0))).
Proof. split; [intro k; cbn -[Z.add Z.opp Z.sub]; lia|reflexivity]. Qed.
Lemma neg_breaks :
  ev Zalg neg_env (subs_seq (expand_subs1 (SDate (str "x") 0) (Ng (Sy (SDate (str "y") 0)))) (Sy (SDate (str "x") 1)))
  <> ev Zalg neg_env (Sy (SDate (str "x") 1)).
Proof. cbv. discriminate. Qed.
(* x = y[-1] : the lag is lost *)
Definition lag_env : sym -> Z := fun s =>
  match s with SDate b t => if chars_eqb b (str "x") then (t - 1)%Z else t | _ => 0%Z end.
Lemma lag_holds : holds_always Zalg lag_env (str "x") (Sy (SDate (str "y") (-1))).
Proof. split; [intro k; cbn -[Z.add Z.opp Z.sub]; lia|reflexivity]. Qed.
Lemma lag_breaks :
  ev Zalg lag_env (subs_seq (expand_subs1 (SDate (str "x") 0) (Sy (SDate (str "y") (-1)))) (Sy (SDate (str "x") 0)))
  <> ev Zalg lag_env (Sy (SDate (str "x") 0)).
Proof. cbv. discriminate. Qed.
Lemma all_dates_refuted :
  ~ (forall (A : alg Z) env x rhs e, holds_always A env x rhs -> ~ In (SDate x 0) (atoms rhs) ->
       ev A env (subs_seq (expand_subs1 (SDate x 0) rhs) e) = ev A env e).
Proof.
  intro H. apply neg_breaks. apply H; [exact neg_holds|]. cbn. intros [E|[]]; discriminate.
Qed.
Lemma all_dates_symbol_refuted :
  ~ (forall (A : alg Z) env x y t e, holds_always A env x (Sy (SDate y t)) -> x <> y ->
       ev A env (subs_seq (expand_subs1 (SDate x 0) (Sy (SDate y t))) e) = ev A env e).
Proof. intro H. apply lag_breaks. apply H; [exact lag_holds|discriminate]. Qed.

(* ---------- flatten with a self-reference ---------- *)
Definition id_ord : set_order := nodup sym_eq_dec.
Lemma id_ord_ok : set_order_ok id_ord.
Proof. intro l. apply Permutation_refl. Qed.
Definition selfdict : sdict := [(SPar (str "x"), Ad (Sy (SPar (str "x"))) (Cst 1))].
Lemma self_flat : flatten id_ord id_ord selfdict = Ok selfdict.
Proof. vm_compute. reflexivity. Qed.
Lemma self_refutes :
  ~ (forall d f, NoDup (map fst d) -> flatten id_ord id_ord d = Ok f ->
       forall k w s, In (k, w) f -> In s (atoms w) -> ~ In s (map fst d)).
Proof.
  intro H. apply (H selfdict selfdict) with (k := SPar (str "x")) (w := Ad (Sy (SPar (str "x"))) (Cst 1)) (s := SPar (str "x")).
  - repeat constructor. easy.
  - exact self_flat.
  - left. reflexivity.
  - left. reflexivity.
  - left. reflexivity.
Qed.

(* ---------- diff_through_time with a dated discount factor ---------- *)
(* L = x[-2], discount m[0]: the code weighs the second period by m[1]^2 instead of m[0]*m[1]. *)
Definition vd_L : sx := Sy (SDate (str "x") (-2)).
Definition vd_m : sx := Sy (SDate (str "m") 0).
Lemma vd_value : exists d, diff_through_time id_ord vd_L (str "x") 0 vd_m = Ok d /\
  forall env : sym -> Z, ev Zalg env d = (env (SDate (str "m") 1) * env (SDate (str "m") 1))%Z.
Proof. eexists. split; [vm_compute; reflexivity|]. intro env. cbv -[Z.add Z.mul Z.opp]. ring. Qed.

(* a smooth world in which every function symbol is interpreted by the exponential *)
Definition expworld : smooth := Smooth (fun _ _ => exp) (fun _ _ => True) (fun _ _ x _ => derivable_pt_lim_exp x).
Definition sp (n : string) : sym := SPar (str n).
