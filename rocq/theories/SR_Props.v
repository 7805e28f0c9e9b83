(* The result of sparse_root; line searches. *)
From Verif Require Import Common SR_Model SR_Spec SR_Proofs.
From Coq Require Import Reals Lra Psatz.
Local Open Scope R_scope.

(* ---- one unknown: the tool for the concrete cases ---- *)
Definition scalar (r J : R -> R) : vec -> vec * mat := fun x => (fun _ => r (x 0%nat), fun _ _ => J (x 0%nat)).
Definition divide (A : mat) (b : vec) : option vec := if Req_EM_T (A 0%nat 0%nat) 0 then None else Some (fun i => b i / A i i).
Lemma divide_exact A b p : divide A b = Some p -> solves 1 A b p.
Proof.
  unfold divide. destruct (Req_EM_T (A 0%nat 0%nat) 0) as [E|E]; [discriminate|]. intro H. injection H as <-. intros i Hi.
  replace i with 0%nat by lia. cbn. field. exact E.
Qed.
Definition reference (g : globalization) (h : list R) (phi : R) : option R :=
  match g with
  | Armijo _ _ _ _ => Some phi
  | Nonmonotone _ _ _ memory _ => match push memory h phi with nil => None | y :: l => Some (list_max y l) end
  end.
Definition history_after (g : globalization) (h : list R) (phi : R) : list R :=
  match g with Armijo _ _ _ _ => h | Nonmonotone _ _ _ memory _ => push memory h phi end.
Definition c1_of (g : globalization) : R := match g with Armijo c _ _ _ | Nonmonotone c _ _ _ _ => c end.
Lemma one_newton r J g m (x0 : R) f_tol x_tol ref :
  let x1 := x0 + - r x0 / J x0 in
  search_merit g = None -> (0 < search_iterations g)%nat -> J x0 <> 0 -> r x0 <> 0 -> f_tol <= Rabs (r x0) ->
  reference g (m_history m) (/ 2 * (r x0 * r x0)) = Some ref -> / 2 * (r x1 * r x1) <= ref + c1_of g * (- (r x0 * r x0)) ->
  exists o m' c, sparse_root 1 (scalar r J) (Line_search (Newton divide) g) m (fun _ => x0) f_tol x_tol 1 = Ok (Finished o m' c) /\
    o_x o 0%nat = x1 /\ o_fun o 0%nat = r x1 /\ m_history m' = history_after g (m_history m) (/ 2 * (r x0 * r x0)) /\
    (Rabs (r x1) < f_tol \/ Rabs (- r x0 / J x0) < x_tol * (1 + Rabs x1) -> o_success o = true).
Proof.
  cbv zeta. set (x1 := x0 + - r x0 / J x0). intros Hm Hk HJ Hr Hf Href Hle.
  set (phi := / 2 * (r x0 * r x0)) in *. cbn [sparse_root]. unfold sparse_root. cbn [Nat.eqb].
  assert (Est : start 1 (scalar r J) (fun _ => x0) = ST (fun _ => x0) (fun _ => r x0) (fun _ _ => J x0) phi 0 1).
  { unfold start, scalar. cbn. f_equal. unfold merit, dot, phi. cbn. ring. }
  rewrite Est. cbn [s_res]. assert (Ema : forall v, maxabs 1 v = Rabs (v 0%nat)) by (intro v; unfold maxabs; cbn; apply Rmax_right, Rabs_pos).
  rewrite Ema. destruct (rltb_spec (Rabs (r x0)) f_tol) as [C|_]; [lra|]. cbn [iterate step init].
  set (dx := fun i : nat => vneg (fun _ => r x0) i / J x0).
  assert (ED : compute 1 (Newton divide) (m_dir m) (fun _ => r x0) (fun _ _ => J x0) = Ok (m_dir m, Prop_ dx (- (r x0 * r x0)))).
  { cbn [compute]. unfold divide. destruct (Req_EM_T (J x0) 0) as [C|_]; [contradiction|]. cbn [or_gradient]. fold dx.
    assert (Es : dot 1 (fun _ => r x0) (mv 1 (fun _ _ => J x0) dx) = - (r x0 * r x0)) by (unfold dot, mv, dx, vneg; cbn; field; assumption).
    rewrite Es. unfold orient. destruct (rleb_spec 0 (- (r x0 * r x0))) as [C|_]; [nra|reflexivity]. }
  unfold line_step. cbn [fst snd m_dir m_history s_res s_jac s_x s_phi reset]. rewrite ED. cbn [bind fst snd].
  assert (Eb : forall k beta, (0 < k)%nat -> backtrack 1 (scalar r J) (c1_of g) beta None (fun _ => x0) dx (- (r x0 * r x0)) ref k 1 1 =
     Some (Found (vadd (fun _ => x0) (vscale 1 dx)) (fun _ => r x1) (fun _ _ => J x1) (/ 2 * (r x1 * r x1)) 1 1 1)).
  { intros [|k] beta Hk'; [lia|]. cbn [backtrack]. unfold scalar at 1. assert (Ex : vadd (fun _ => x0) (vscale 1 dx) 0%nat = x1) by (unfold vadd, vscale, dx, vneg, x1; ring).
    rewrite Ex. assert (Ep : merit 1 (fun _ => r x1) = / 2 * (r x1 * r x1)) by (unfold merit, dot; cbn; ring). rewrite Ep, Rmult_1_r.
    destruct (rleb_spec (/ 2 * (r x1 * r x1)) (ref + c1_of g * - (r x0 * r x0))) as [_|C]; [reflexivity|lra]. }
  assert (ES : search 1 (scalar r J) g (m_history m) (fun _ => x0) phi (Prop_ dx (- (r x0 * r x0))) =
     Ok (history_after g (m_history m) phi, Some (Found (vadd (fun _ => x0) (vscale 1 dx)) (fun _ => r x1) (fun _ _ => J x1) (/ 2 * (r x1 * r x1)) 1 1 1))).
  { destruct g as [c1 beta k mf|c1 beta k mem mf]; cbn [search reference history_after search_merit search_iterations c1_of d_dir d_slope] in *; subst mf.
    - injection Href as <-. now rewrite Eb.
    - destruct (push mem (m_history m) phi) as [|y l]; [discriminate|]. injection Href as <-. now rewrite Eb. }
  rewrite ES. cbn [bind fst snd negb i_accepted i_step i_calls f_x f_res f_jac f_phi f_alpha f_evals f_calls d_dir m_scalar].
  set (s' := advance _ _ _ _ _ _).
  assert (Hfin : forall b : bool, exists o, make_result s' b = o /\ o_x o 0%nat = x1 /\ o_fun o 0%nat = r x1 /\ o_success o = b).
  { intro b. eexists. split; [reflexivity|]. split; [unfold make_result, s'; cbn; unfold vadd, vscale, dx, vneg, x1; ring|]. split; reflexivity. }
  assert (Hc : Rabs (r x1) < f_tol \/ Rabs (- r x0 / J x0) < x_tol * (1 + Rabs x1) -> converged 1 s' f_tol x_tol (vscale 1 dx) = true).
  { intro H. unfold converged, small_step. rewrite !Ema. apply orb_true_iff. unfold s'. cbn [s_res s_x advance].
    replace (vscale 1 dx 0%nat) with (- r x0 / J x0) by (unfold vscale, dx, vneg; ring).
    replace (vadd (fun _ => x0) (vscale 1 dx) 0%nat) with x1 by (unfold vadd, vscale, dx, vneg, x1; ring).
    destruct H as [H|H]; [left|right]; [destruct (rltb_spec (Rabs (r x1)) f_tol)|destruct (rltb_spec (Rabs (- r x0 / J x0)) (x_tol * (1 + Rabs x1)))]; try reflexivity; lra. }
  destruct (converged 1 s' f_tol x_tol (vscale 1 dx)).
  - destruct (Hfin true) as (o & <- & F1 & F2 & F3). eexists _, _, _. split; [reflexivity|]. split; [assumption|]. split; [assumption|]. split; [reflexivity|]. reflexivity.
  - destruct (Hfin false) as (o & <- & F1 & F2 & F3). eexists _, _, _. split; [reflexivity|]. split; [assumption|]. split; [assumption|]. split; [reflexivity|].
    intro H. specialize (Hc H). discriminate.
Qed.

(* ---- C35: what the result says ---- *)
Theorem C35_result : forall n f v m x0 f_tol x_tol maxiter o m' calls, sparse_root n f v m x0 f_tol x_tol maxiter = Ok (Finished o m' calls) ->
  o_fun o = residual f (o_x o) /\ o_jac o = jacobian f (o_x o) /\ (o_nit o <= maxiter)%nat /\
  (o_success o = false -> ~ forall i, (i < n)%nat -> Rabs (o_fun o i) < f_tol) /\
  (o_success o = true -> (forall i, (i < n)%nat -> Rabs (o_fun o i) < f_tol) \/
     (* the run cut off one iteration earlier ends at a point less than the step tolerance away *)
     exists j o1 m1 c1 dx md mx, o_nit o = S j /\ sparse_root n f v m x0 f_tol x_tol j = Ok (Finished o1 m1 c1) /\ o_success o1 = false /\ o_nit o1 = j /\
       o_x o = vadd (o_x o1) dx /\ largest n dx md /\ largest n (o_x o) mx /\ md < x_tol * (1 + mx)).
Proof.
  intros n f v m x0 f_tol x_tol maxiter o m' calls H.
  assert (Hn : (0 < n)%nat) by (unfold sparse_root in H; destruct (Nat.eqb_spec n 0); [discriminate|lia]).
  assert (Hbelow : forall w, maxabs n w < f_tol -> forall i, (i < n)%nat -> Rabs (w i) < f_tol) by (intros w Hw i Hi; pose proof (maxabs_ge n w i Hi); lra).
  pose proof H as H0. eapply (sparse_root_spec n f v (fun _ _ => True) (fun _ _ => True) (fun _ => True)) in H0; [|exact I|tauto].
  destruct H0 as (o' & m'' & c & s' & E & _ & _ & _ & B3 & B4 & _ & B6 & _). injection E as <- <- <-.
  split; [unfold residual; now rewrite <- B3|]. split; [unfold jacobian; now rewrite <- B3|]. split; [assumption|]. split.
  - intros Hs C. destruct (B6 Hs) as [C' _]. destruct (maxabs_largest n (o_fun o) Hn) as [_ (i & Hi & E)]. specialize (C i Hi). lra.
  - intro Hs. unfold sparse_root in H. destruct (Nat.eqb_spec n 0) as [?|N0]; [discriminate|].
    destruct (rltb_spec (maxabs n (s_res (start n f x0))) f_tol) as [Hl|Hl].
    + injection H as <- _ _. left. now apply Hbelow.
    + destruct (start_good n f x0) as (G1 & G2 & G3 & G4).
      destruct (iterate_last n f v f_tol x_tol _ _ _ _ _ _ _ G1 H Hs) as (j & o1 & m1 & c1 & dx & D1 & D2 & D3 & D4 & D5 & [D6 | D6]); [left; now apply Hbelow|right].
      rewrite G4 in *. exists j, o1, m1, c1, dx, (maxabs n dx), (maxabs n (o_x o)). split; [assumption|]. split.
      { unfold sparse_root. destruct (Nat.eqb_spec n 0); [contradiction|]. destruct (rltb_spec (maxabs n (s_res (start n f x0))) f_tol); [lra|assumption]. }
      split; [assumption|]. split; [assumption|]. split; [assumption|]. split; [now apply maxabs_largest|]. split; [now apply maxabs_largest|assumption].
Qed.
(* a run that ended before its limit does not depend on the limit *)
Theorem C35_more_iterations : forall n f v m x0 f_tol x_tol maxiter more o m' calls,
  sparse_root n f v m x0 f_tol x_tol maxiter = Ok (Finished o m' calls) -> o_success o = true \/ (o_nit o < maxiter)%nat ->
  sparse_root n f v m x0 f_tol x_tol (maxiter + more) = Ok (Finished o m' calls).
Proof.
  intros n f v m x0 f_tol x_tol maxiter more o m' calls H Hs. unfold sparse_root in *. destruct (Nat.eqb n 0); [discriminate|].
  destruct (rltb (maxabs n (s_res (start n f x0))) f_tol); [exact H|]. destruct (start_good n f x0) as (G1 & G2 & G3 & G4).
  apply iterate_longer; [assumption|assumption|]. now rewrite G4.
Qed.
(* a root is recognised at once *)
Theorem C35_already_there : forall n f v m x0 f_tol x_tol maxiter, (0 < n)%nat -> 0 < f_tol -> (forall i, (i < n)%nat -> Rabs (residual f x0 i) < f_tol) ->
  exists m' , sparse_root n f v m x0 f_tol x_tol maxiter = Ok (Finished (Outcome x0 true (residual f x0) (jacobian f x0) 0 1) m' 1).
Proof.
  intros n f v m x0 f_tol x_tol maxiter Hn Ht H. unfold sparse_root. destruct (Nat.eqb_spec n 0); [lia|].
  destruct (maxabs_largest n (s_res (start n f x0)) Hn) as [_ (i & Hi & E)].
  assert (ER : s_res (start n f x0) = residual f x0) by (unfold start, residual; destruct (f x0); reflexivity).
  rewrite ER in *. destruct (rltb_spec (maxabs n (residual f x0)) f_tol) as [_|C]; [|specialize (H i Hi); lra].
  eexists. unfold make_result. do 2 f_equal. unfold start, residual, jacobian. destruct (f x0); reflexivity.
Qed.
(* it always returns, unless it is configured in one of three bad ways *)
Definition configured (v : solver) : Prop :=
  match v with
  | Line_search d g =>
      match d with Newton _ => True | Chord _ every => (0 < every)%nat | Krylov method _ _ _ => method <> None end /\
      match g with Armijo _ _ _ _ => True | Nonmonotone _ _ _ memory _ => (0 < memory)%nat end
  | _ => True
  end.
Lemma compute_ok n d s r J : match d with Newton _ => True | Chord _ every => (0 < every)%nat | Krylov method _ _ _ => method <> None end ->
  exists x, compute n d s r J = Ok x.
Proof.
  destruct d as [lin|lin every|method emax emin ew]; intro Hd; cbn [compute]; [eauto| |].
  - destruct (cached_jac s); [destruct (Nat.eqb_spec every 0); [lia|]|]; cbn [bind]; eauto.
  - destruct method; [eauto|contradiction].
Qed.
Lemma push_nonempty memory h x : (0 < memory)%nat -> exists y l, push memory h x = y :: l.
Proof.
  intro Hm. unfold push. destruct (skipn (length (h ++ [x]) - memory) (h ++ [x])) as [|y l] eqn:E; [|eauto].
  assert (L : length (skipn (length (h ++ [x]) - memory) (h ++ [x])) = 0%nat) by now rewrite E. rewrite skipn_length, app_length in L. cbn in L. lia.
Qed.
Lemma search_ok n f g h x phi p : match g with Armijo _ _ _ _ => True | Nonmonotone _ _ _ memory _ => (0 < memory)%nat end ->
  exists y, search n f g h x phi p = Ok y.
Proof.
  destruct g as [c1 beta k mf|c1 beta k mem mf]; intro Hg; cbn [search]; [eauto|]. destruct (push_nonempty mem h phi Hg) as (y & l & ->). eauto.
Qed.
Theorem C35_returns : forall n f v m x0 f_tol x_tol maxiter, (0 < n)%nat -> configured v ->
  exists o m' calls, sparse_root n f v m x0 f_tol x_tol maxiter = Ok (Finished o m' calls).
Proof.
  intros n f v m x0 f_tol x_tol maxiter Hn Hv. unfold sparse_root. destruct (Nat.eqb_spec n 0); [lia|].
  destruct (rltb (maxabs n (s_res (start n f x0))) f_tol); [eauto|]. destruct (start_good n f x0) as (G1 & _).
  apply iterate_finishes; [|assumption]. intros m1 s1. destruct v as [d g|o lin|o|o lin]; cbn [step]; eauto. unfold line_step.
  destruct Hv as [Hd Hg]. destruct (compute_ok n d (m_dir m1) (s_res s1) (s_jac s1) Hd) as [[ds p] EC]. cbn [fst snd]. rewrite EC. cbn [bind fst snd].
  destruct (search_ok n f g (m_history m1) (s_x s1) (s_phi s1) p Hg) as [[h ls] ES]. rewrite ES. cbn [bind fst snd]. destruct ls; cbn [bind]; eauto.
Qed.
(* success alone does not mean that the residuals are below the tolerance *)
Theorem C35_success_refuted : ~ forall n f v m x0 tol maxiter o m' calls, 0 < tol -> sparse_root n f v m x0 tol tol maxiter = Ok (Finished o m' calls) ->
  o_success o = true -> forall i, (i < n)%nat -> Rabs (o_fun o i) < tol.
Proof.
  intro H. set (r := fun x : R => 10 ^ 10 * x ^ 2). set (J := fun x : R => 2 * 10 ^ 10 * x). set (e := / 10 ^ 8).
  assert (He : 0 < e) by (unfold e; lra). assert (He8 : e * 10 ^ 8 = 1) by (unfold e; lra).
  assert (ER : r e = 100 * e) by (unfold r, e; lra). assert (EJ : J e = 200) by (unfold J, e; lra).
  assert (EX : e + - r e / J e = / 2 * e) by (rewrite ER, EJ; field). assert (ER1 : r (/ 2 * e) = 25 * e) by (unfold r, e; lra).
  destruct (one_newton r J (Armijo (/ 10000) (/ 2) 20 None) fresh e e e (/ 2 * (r e * r e))) as (o & m' & c & E & E1 & E2 & E3 & E4).
  - reflexivity.
  - cbn. lia.
  - rewrite EJ. lra.
  - rewrite ER. lra.
  - rewrite ER, Rabs_right; lra.
  - reflexivity.
  - cbn [c1_of]. rewrite EX, ER1, ER. nra.
  - rewrite EX in *. specialize (H _ _ _ _ _ e _ _ _ _ He E). assert (Hs : o_success o = true).
    { apply E4. right. rewrite ER, EJ. replace (- (100 * e) / 200) with (- (/ 2 * e)) by field. rewrite Rabs_Ropp, !Rabs_right by lra. nra. }
    specialize (H Hs 0%nat (Nat.lt_0_1)). rewrite E2, ER1, Rabs_right in H by lra. lra.
Qed.
(* case: 2 x - 6 = 0 from 0 *)
Theorem C35_case : exists o m' c, sparse_root 1 (scalar (fun x => 2 * x - 6) (fun _ => 2)) (Line_search (Newton divide) (Armijo (/ 10000) (/ 2) 20 None)) fresh (fun _ => 0) (/ 100) (/ 100) 1
    = Ok (Finished o m' c) /\ o_x o 0%nat = 3 /\ o_fun o 0%nat = 0 /\ o_success o = true.
Proof.
  destruct (one_newton (fun x => 2 * x - 6) (fun _ => 2) (Armijo (/ 10000) (/ 2) 20 None) fresh 0 (/ 100) (/ 100) 18) as (o & m' & c & E & E1 & E2 & E3 & E4);
    try reflexivity; cbn [search_iterations c1_of]; try lia; try lra.
  - rewrite Rabs_left; lra.
  - cbn. f_equal. lra.
  - exists o, m', c. split; [exact E|]. split; [rewrite E1; lra|]. split; [rewrite E2; lra|]. apply E4. left. rewrite Rabs_right; lra.
Qed.
