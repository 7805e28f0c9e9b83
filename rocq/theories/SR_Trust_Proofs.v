(* Quadratic models, dogleg and Steihaug steps. *)
From Verif Require Import Common SR_Model SR_Spec SR_Proofs.
From Coq Require Import Reals Lra Psatz.
Local Open Scope R_scope.

(* the positive root of a quadratic that is negative at 0 *)
Lemma positive_root dd pd q : 0 < dd -> q < 0 -> let tau := (- pd + sqrt (Rmax (pd * pd - dd * q) 0)) / dd in
  0 < tau /\ dd * (tau * tau) + 2 * pd * tau + q = 0 /\ forall a, 0 < a -> 0 <= dd * (a * a) + 2 * pd * a + q -> tau <= a.
Proof.
  intros Hd Hq tau. assert (Hdisc : 0 < pd * pd - dd * q) by nra. unfold tau. rewrite Rmax_left by lra.
  set (S := sqrt (pd * pd - dd * q)). assert (HS : S * S = pd * pd - dd * q) by (apply sqrt_sqrt; lra). assert (HS0 : 0 <= S) by apply sqrt_pos.
  assert (HSp : Rabs pd < S) by (apply Rsqr_incrst_0; [unfold Rsqr; rewrite <- Rabs_mult, Rabs_right by nra; nra|apply Rabs_pos|assumption]).
  pose proof (Rle_abs pd). pose proof (Rle_abs (- pd)) as H1. rewrite Rabs_Ropp in H1. set (t := (- pd + S) / dd).
  assert (Ht : dd * t = - pd + S) by (unfold t; field; lra). assert (Hpos : 0 < t) by (unfold t; apply Rdiv_lt_0_compat; lra).
  split; [assumption|]. split.
  - assert (E : dd * (dd * (t * t) + 2 * pd * t + q) = 0) by (replace (dd * (dd * (t * t) + 2 * pd * t + q)) with ((dd * t) * (dd * t) + 2 * pd * (dd * t) + dd * q) by ring; rewrite Ht; nra). nra.
  - intros a Ha Hf. destruct (Rle_dec t a) as [|N]; [assumption|]. exfalso. assert (Hlt : a < t) by lra.
    assert (E : dd * (dd * (a * a) + 2 * pd * a + q) = (dd * a - dd * t) * (dd * a + pd + S)) by (rewrite Ht; nra).
    assert (0 < dd * a) by nra. assert (0 < dd * a + pd + S) by lra. assert (dd * a - dd * t < 0) by nra. nra.
Qed.

Section Quadratic.
Variables (n : nat) (J : mat) (r : vec).
Notation "u · v" := (dot n u v) (at level 40).
Let g := tmv n J r.
(* the model, relative to its value at 0 *)
Definition model (p : vec) : R := g · p + / 2 * (mv n J p · mv n J p).
Lemma predicted_model p : predicted n J g p = - model p.
Proof. reflexivity. Qed.
Lemma mv_dot_add u v : mv n J (vadd u v) · mv n J (vadd u v) = mv n J u · mv n J u + 2 * (mv n J u · mv n J v) + mv n J v · mv n J v.
Proof.
  rewrite (dot_ext n _ _ (vadd (mv n J u) (mv n J v)) (vadd (mv n J u) (mv n J v))) by (intros; apply mv_add).
  rewrite dot_add, !dot_add_l. rewrite (dot_comm n (mv n J v) (mv n J u)). ring.
Qed.
Lemma mv_dot_scale w a v : w · mv n J (vscale a v) = a * (w · mv n J v).
Proof. rewrite (dot_ext n w (mv n J (vscale a v)) w (vscale a (mv n J v))) by (intros; reflexivity || apply mv_scale). apply dot_scale. Qed.
Lemma mv_scale_dot a u w : mv n J (vscale a u) · w = a * (mv n J u · w).
Proof. rewrite dot_comm, mv_dot_scale, dot_comm. reflexivity. Qed.
Lemma model_add p a d : model (vadd p (vscale a d)) = model p + a * (g · d + mv n J p · mv n J d) + / 2 * (a * a) * (mv n J d · mv n J d).
Proof. unfold model. rewrite dot_add, dot_scale, mv_dot_add, mv_dot_scale, mv_scale_dot, mv_dot_scale. field. Qed.
Lemma model_zero : model vzero = 0.
Proof. unfold model. rewrite dot_zero. rewrite (dot_ext n (mv n J vzero) (mv n J vzero) vzero vzero). { rewrite dot_zero. ring. }
  all: intros i _; unfold mv, vzero; rewrite (rsum_ext n _ (fun j => 0 * J i j)) by (intros; ring); rewrite rsum_scale; ring. Qed.
Lemma model_scale a d : model (vscale a d) = a * (g · d) + / 2 * (a * a) * (mv n J d · mv n J d).
Proof. unfold model. rewrite dot_scale, mv_dot_scale, mv_scale_dot. ring. Qed.
Lemma model_residual p : model p = / 2 * (vadd r (mv n J p) · vadd r (mv n J p)) - / 2 * (r · r).
Proof. unfold model. unfold g. rewrite adjoint, dot_add, !dot_add_l, (dot_comm n (mv n J p) r). field. Qed.
Lemma hess u v : u · tmv n J (mv n J v) = mv n J u · mv n J v.
Proof. rewrite dot_comm, adjoint, dot_comm. reflexivity. Qed.
Lemma norm_add_sq p a d : vadd p (vscale a d) · vadd p (vscale a d) = (d · d) * (a * a) + 2 * (p · d) * a + p · p.
Proof. rewrite dot_add, !dot_add_l, !dot_scale, !dot_scale_l, (dot_comm n d p). ring. Qed.

(* the step to the boundary *)
Lemma boundary_spec p d delta : 0 < delta -> norm n p < delta -> 0 < d · d ->
  exists tau, boundary_step n p d delta = vadd p (vscale tau d) /\ 0 < tau /\ norm n (boundary_step n p d delta) = delta /\
    forall a, 0 < a -> delta <= norm n (vadd p (vscale a d)) -> tau <= a.
Proof.
  intros Hdl Hp Hd. pose proof (norm_sq n p). pose proof (norm_pos n p).
  assert (Hq : p · p - delta * delta < 0) by nra. destruct (positive_root (d · d) (p · d) (p · p - delta * delta) Hd Hq) as (T1 & T2 & T3).
  set (tau := (- (p · d) + sqrt (Rmax ((p · d) * (p · d) - (d · d) * (p · p - delta * delta)) 0)) / (d · d)) in *.
  exists tau. split; [reflexivity|]. split; [assumption|]. change (boundary_step n p d delta) with (vadd p (vscale tau d)). split.
  - unfold norm. rewrite norm_add_sq. replace (d · d * (tau * tau) + 2 * (p · d) * tau + p · p) with (delta * delta) by lra. apply sqrt_square. lra.
  - intros a Ha Hn. apply T3; [assumption|]. pose proof (norm_sq n (vadd p (vscale a d))) as E. rewrite norm_add_sq in E. nra.
Qed.

(* conjugate gradients *)
Lemma cg_spec delta : 0 < delta -> forall k p rr d, norm n p < delta -> 0 < rr · rr -> rr · d = - (rr · rr) ->
  (forall i, (i < n)%nat -> rr i = g i + tmv n J (mv n J p) i) -> 0 < g · g ->
  norm n (cg_loop n J g delta k p rr d (rr · rr)) <= delta /\ model (cg_loop n J g delta k p rr d (rr · rr)) <= model p /\
  ((0 < k)%nat -> model (cg_loop n J g delta k p rr d (rr · rr)) < model p).
Proof.
  intro Hdl. induction k as [|k IH]; intros p rr d Hp Hr Hrd Hres Hg; cbn [cg_loop]; [split; [lra|]; split; [lra|lia]|].
  rewrite hess. set (h := mv n J d · mv n J d). assert (Hh : 0 <= h) by apply dot_pos.
  assert (Hd : 0 < d · d).
  { pose proof (dot_pos n d). destruct (Req_dec (d · d) 0) as [E|N]; [|lra]. pose proof (dot_self_zero_l n d rr E) as C. rewrite dot_comm in C. lra. }
  assert (Hslope : g · d + mv n J p · mv n J d = - (rr · rr)).
  { rewrite <- Hrd, <- (hess p d), (dot_comm n p). rewrite adjoint, (dot_comm n (mv n J d)), <- adjoint.
    rewrite <- dot_add_l. apply dot_ext; [|reflexivity]. intros i Hi. unfold vadd. rewrite (Hres i Hi). reflexivity. }
  destruct (boundary_spec p d delta Hdl Hp Hd) as (tau & B1 & B2 & B3 & B4).
  assert (Hb : (forall a, 0 < h -> a = rr · rr / h -> delta <= norm n (vadd p (vscale a d)) -> model (boundary_step n p d delta) < model p) /\ (h <= 0 -> model (boundary_step n p d delta) < model p)).
  { rewrite B1, model_add, Hslope. fold h. split.
    - intros a Hpos Ea Hn. assert (Ha : 0 < a) by (rewrite Ea; now apply Rdiv_lt_0_compat). specialize (B4 a Ha Hn).
      assert (Eh : a * h = rr · rr) by (rewrite Ea; field; lra). assert (tau * h <= rr · rr) by nra. nra.
    - intro H0. assert (h = 0) as -> by lra. nra. }
  destruct (rleb_spec h 0) as [H0|H0].
  { destruct Hb as [_ Hb]. specialize (Hb H0). split; [lra|]. split; [lra|]. intros _. assumption. }
  set (alpha := rr · rr / h). assert (Ha : 0 < alpha) by now apply Rdiv_lt_0_compat. assert (Eh : alpha * h = rr · rr) by (unfold alpha; field; lra).
  destruct (rleb_spec delta (norm n (vadd p (vscale alpha d)))) as [Hn|Hn].
  { destruct Hb as [Hb _]. specialize (Hb alpha H0 eq_refl Hn). split; [lra|]. split; [lra|]. intros _. assumption. }
  assert (Hm : model (vadd p (vscale alpha d)) < model p) by (rewrite model_add, Hslope; fold h; nra).
  set (rr' := vadd rr (vscale alpha (tmv n J (mv n J d)))).
  destruct (rltb_spec (sqrt (rr' · rr')) (/ 10 ^ 10 * norm n g)) as [Hs|Hs]; [split; [lra|split; [lra|intros _; assumption]]|].
  assert (Hg0 : 0 < norm n g) by (pose proof (norm_pos n g); destruct (Req_dec (norm n g) 0) as [E|N]; [apply (norm_zero_iff n) in E; lra|lra]).
  assert (Hr' : 0 < rr' · rr').
  { pose proof (dot_pos n rr'). destruct (Req_dec (rr' · rr') 0) as [E|N]; [|lra]. rewrite E, sqrt_0 in Hs. assert (0 < / 10 ^ 10) by (apply Rinv_0_lt_compat, pow_lt; lra). nra. }
  destruct (IH (vadd p (vscale alpha d)) rr' (vsub (vscale (rr' · rr' / (rr · rr)) d) rr')) as (I1 & I2 & I3); [assumption|assumption| | |assumption|].
  - assert (E0 : rr' · d = 0) by (unfold rr'; rewrite dot_add_l, dot_scale_l, (dot_comm n (tmv n J (mv n J d)) d), hess, Hrd; fold h; lra).
    rewrite dot_sub, dot_scale, E0. ring.
  - intros i Hi. unfold rr', vadd at 1, vscale at 1. rewrite (Hres i Hi).
    assert (E : tmv n J (mv n J (vadd p (vscale alpha d))) i = tmv n J (mv n J p) i + alpha * tmv n J (mv n J d) i).
    { unfold tmv at 1. rewrite (rsum_ext n _ (fun k0 => J k0 i * mv n J p k0 + alpha * (J k0 i * mv n J d k0))) by (intros; rewrite mv_add, mv_scale; ring).
      rewrite rsum_add, rsum_scale. reflexivity. }
    rewrite E. ring.
  - split; [assumption|]. split; [lra|]. intros _. lra.
Qed.
Lemma steihaug_spec delta : 0 < delta -> norm n (steihaug n J g delta) <= delta /\ model (steihaug n J g delta) <= 0 /\
  (/ 10 ^ 15 <= norm n g -> model (steihaug n J g delta) < 0).
Proof.
  intro Hd. unfold steihaug. change (sqrt (g · g)) with (norm n g). assert (H15 : 0 < / 10 ^ 15) by (apply Rinv_0_lt_compat, pow_lt; lra).
  assert (Hz : norm n vzero = 0) by (apply norm_zero_iff, dot_zero).
  destruct (rltb_spec (norm n g) (/ 10 ^ 15)) as [Hl|Hl].
  - rewrite Hz, model_zero. split; [lra|]. split; [lra|]. lra.
  - assert (Hg : 0 < g · g) by (rewrite <- norm_sq; nra).
    assert (Hn : (0 < 2 * n)%nat). { destruct n; [|lia]. cbn in Hg. lra. }
    destruct (cg_spec delta Hd (2 * n) vzero g (vneg g)) as (C1 & C2 & C3); [rewrite Hz; lra|assumption|apply dot_neg| |assumption|].
    + intros i _. assert (E : forall k, mv n J vzero k = 0) by (intro k; unfold mv, vzero; rewrite (rsum_ext n _ (fun j => 0 * J k j)) by (intros; ring); rewrite rsum_scale; ring).
      unfold tmv at 1. rewrite (rsum_ext n _ (fun k => 0 * J k i)) by (intros; rewrite E; ring). rewrite rsum_scale. ring.
    + rewrite model_zero in *. split; [assumption|]. split; [assumption|]. intros _. now apply C3.
Qed.

(* the dogleg *)
Lemma tiny_pos : 0 < tiny.
Proof. apply Rinv_0_lt_compat, pow_lt. lra. Qed.
Lemma dogleg_spec lin delta : 0 < delta -> norm n (dogleg_step n lin J r g delta) <= delta /\
  (tiny <= mv n J g · mv n J g -> (forall p, lin J (vneg r) = Some p -> solves n J (vneg r) p) -> model (dogleg_step n lin J r g delta) < 0).
Proof.
  intro Hd. pose proof tiny_pos as Ht. unfold dogleg_step. set (q := mv n J g · mv n J g).
  destruct (rltb_spec q tiny) as [Hq|Hq].
  { split; [|lra]. destruct (rltb_spec (norm n g) tiny) as [Hg|Hg].
    - assert (norm n vzero = 0) as -> by apply norm_zero_iff, dot_zero. lra.
    - rewrite norm_scale, Rabs_Ropp, Rabs_right. { right. field. lra. } apply Rle_ge. apply Rlt_le, Rdiv_lt_0_compat; lra. }
  assert (Hgg : 0 < g · g).
  { pose proof (dot_pos n g). destruct (Req_dec (g · g) 0) as [E|N]; [exfalso|lra].
    assert (E0 : q = 0); [|lra]. unfold q. rewrite <- (dot_zero n (mv n J g)). apply dot_ext; [reflexivity|]. intros i _.
    unfold mv, vzero. rewrite (rsum_ext n _ (fun j => 0 * J i j)); [rewrite rsum_scale; ring|]. intros j Hj. rewrite (dot_self_zero n g E j Hj). ring. }
  assert (Hrr : 0 < r · r).
  { pose proof (dot_pos n r). destruct (Req_dec (r · r) 0) as [E0|N]; [exfalso|lra].
    assert (g · g = 0); [|lra]. unfold g at 1. rewrite adjoint. now apply dot_self_zero_l. }
  set (pc := vscale (- (g · g / q)) g).
  assert (Hcauchy : forall s, 0 < s <= 1 -> model (vscale s pc) < 0).
  { intros s Hs. rewrite model_scale. unfold pc. rewrite dot_scale, mv_scale_dot, mv_dot_scale. fold q. set (a := g · g / q).
    assert (Ha : 0 < a) by (apply Rdiv_lt_0_compat; lra). assert (Ea : a * q = g · g) by (unfold a; field; lra).
    replace (s * (- a * (g · g)) + / 2 * (s * s) * (- a * (- a * q))) with (- (s * a * (g · g) * (1 - / 2 * s))) by (replace (- a * (- a * q)) with (a * (a * q)) by ring; rewrite Ea; field).
    assert (0 < s * a * (g · g)) by (apply Rmult_lt_0_compat; [nra|lra]). nra. }
  assert (Hfull : model pc < 0).
  { replace (model pc) with (model (vscale 1 pc)); [apply Hcauchy; lra|]. rewrite model_scale. unfold model. ring. }
  assert (Hnorm : forall s, 0 <= s -> norm n (vscale s pc) = s * norm n pc) by (intros s Hs; rewrite norm_scale, Rabs_right; [reflexivity|lra]).
  pose proof (norm_pos n pc) as Hnp.
  destruct (lin J (vneg r)) as [pn|] eqn:El.
  - destruct (rleb_spec (norm n pn) delta) as [Hn|Hn].
    + split; [assumption|]. intros _ Hsol. specialize (Hsol pn eq_refl). rewrite model_residual.
      assert (E : vadd r (mv n J pn) · vadd r (mv n J pn) = 0).
      { rewrite <- (dot_zero n vzero). apply dot_ext; intros i Hi; unfold vadd, vzero, mv; rewrite (Hsol i Hi); unfold vneg; ring. }
      rewrite E. lra.
    + destruct (rleb_spec delta (norm n pc)) as [Hc|Hc].
      * assert (0 < delta / norm n pc <= 1) by (split; [apply Rdiv_lt_0_compat; lra|apply (Rmult_le_reg_r (norm n pc)); [lra|]; unfold Rdiv; rewrite Rmult_assoc, Rinv_l; lra]).
        split; [rewrite Hnorm by lra; right; field; lra|]. intros _ _. now apply Hcauchy.
      * set (diff := vsub pn pc).
        assert (Epn : forall i, vadd pc (vscale 1 diff) i = pn i) by (intro i; unfold vadd, vscale, diff, vsub; ring).
        assert (Hdd : 0 < diff · diff).
        { pose proof (dot_pos n diff). destruct (Req_dec (diff · diff) 0) as [E|N]; [exfalso|lra].
          assert (Es : norm n pn = norm n pc). { unfold norm. f_equal. apply dot_ext; intros i Hi; pose proof (dot_self_zero n diff E i Hi) as H0; unfold diff, vsub in H0; lra. }
          lra. }
        destruct (boundary_spec pc diff delta Hd Hc Hdd) as (tau & B1 & B2 & B3 & B4).
        change (vadd pc (vscale ((- (pc · diff) + sqrt (Rmax (pc · diff * (pc · diff) - diff · diff * (pc · pc - delta * delta)) 0)) / (diff · diff)) diff)) with (boundary_step n pc diff delta).
        split; [lra|]. intros _ Hsol. specialize (Hsol pn eq_refl).
        assert (Ht1 : tau <= 1). { apply B4; [lra|]. assert (En : norm n (vadd pc (vscale 1 diff)) = norm n pn) by (unfold norm; f_equal; apply dot_ext; intros i _; apply Epn). lra. }
        rewrite B1, model_add. set (c := g · diff + mv n J pc · mv n J diff). set (e := mv n J diff · mv n J diff). assert (He : 0 <= e) by apply dot_pos.
        assert (Hmn : model (vadd pc (vscale 1 diff)) < 0).
        { rewrite model_residual. assert (E : vadd r (mv n J (vadd pc (vscale 1 diff))) · vadd r (mv n J (vadd pc (vscale 1 diff))) = 0).
          { rewrite <- (dot_zero n vzero). apply dot_ext; intros i Hi; unfold vadd at 1, vzero; unfold mv; rewrite (rsum_ext n _ (fun j => J i j * pn j)) by (intros; rewrite Epn; reflexivity); rewrite (Hsol i Hi); unfold vneg; ring. }
          rewrite E. lra. }
        rewrite model_add in Hmn. fold c e in Hmn. set (mp := model pc) in *.
        assert (mp + tau * c + / 2 * (tau * tau) * e <= (1 - tau) * mp + tau * (mp + 1 * c + / 2 * (1 * 1) * e)).
        { assert (Hsq : tau * tau <= tau) by nra. pose proof (Rmult_le_compat_r e _ _ He Hsq). lra. }
        set (w := mp + 1 * c + / 2 * (1 * 1) * e) in *. clearbody w mp. nra.
  - destruct (rleb_spec (norm n pc) delta) as [Hc|Hc]; [split; [assumption|intros _ _; assumption]|].
    assert (0 < delta / norm n pc <= 1) by (split; [apply Rdiv_lt_0_compat; lra|apply (Rmult_le_reg_r (norm n pc)); [lra|]; unfold Rdiv; rewrite Rmult_assoc, Rinv_l; lra]).
    split; [rewrite Hnorm by lra; right; field; lra|]. intros _ _. now apply Hcauchy.
Qed.
End Quadratic.
