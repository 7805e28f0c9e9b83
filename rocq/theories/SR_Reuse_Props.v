(* Chord and Krylov directions; reuse of solver objects; counting evaluations. *)
From Verif Require Import Common SR_Model SR_Spec SR_Proofs SR_Props SR_Search_Props SR_Trust_Proofs SR_Trust_Props.
From Coq Require Import Reals Lra Psatz.
Local Open Scope R_scope.

(* two runs proceed in step as long as single steps do *)
Definition same_end (a b : result finished) : Prop :=
  match a, b with
  | Ok (Finished o1 _ c1), Ok (Finished o2 _ c2) => o1 = o2 /\ c1 = c2
  | Ok Never, Ok Never => True
  | Err e1, Err e2 => e1 = e2
  | _, _ => False
  end.
Definition same_step (Sim : memory -> memory -> Prop) (a b : result stepped) : Prop :=
  match a, b with
  | Ok (Stepped m1 s1 i1), Ok (Stepped m2 s2 i2) => Sim m1 m2 /\ s1 = s2 /\ i1 = i2
  | Ok Hangs, Ok Hangs => True
  | Err e1, Err e2 => e1 = e2
  | _, _ => False
  end.
Lemma iterate_sim n f v1 v2 (Sim : memory -> memory -> Prop) f_tol x_tol :
  (forall m1 m2 s, Sim m1 m2 -> same_step Sim (step n f v1 m1 s) (step n f v2 m2 s)) ->
  forall k m1 m2 s c, Sim m1 m2 -> same_end (iterate n f v1 f_tol x_tol k m1 s c) (iterate n f v2 f_tol x_tol k m2 s c).
Proof.
  intro Hs. induction k as [|k IH]; intros m1 m2 s c Hm; cbn [iterate]; [cbn; auto|].
  specialize (Hs m1 m2 s Hm). destruct (step n f v1 m1 s) as [[m1' s1 i1|]|e1], (step n f v2 m2 s) as [[m2' s2 i2|]|e2]; cbn [same_step] in Hs; try contradiction; cbn [bind]; try exact I.
  - destruct Hs as (Hm' & -> & ->). destruct (negb (i_accepted i2)); [cbn; auto|]. destruct (converged n s2 f_tol x_tol (i_step i2)); [cbn; auto|]. now apply IH.
  - exact Hs.
Qed.
Lemma root_sim n f v1 v2 (Sim : memory -> memory -> Prop) m1 m2 x0 f_tol x_tol maxiter :
  (forall m1 m2 s, Sim m1 m2 -> same_step Sim (step n f v1 m1 s) (step n f v2 m2 s)) -> Sim (init v1 m1) (init v2 m2) ->
  same_end (sparse_root n f v1 m1 x0 f_tol x_tol maxiter) (sparse_root n f v2 m2 x0 f_tol x_tol maxiter).
Proof.
  intros Hs Hi. unfold sparse_root. destruct (Nat.eqb n 0); [reflexivity|]. destruct (rltb _ _); [cbn; auto|]. now apply iterate_sim with (Sim := Sim).
Qed.
(* line-search solvers with the same search whose directions agree *)
Lemma line_sim n f d1 d2 g (SimD : dstate -> dstate -> Prop) :
  (forall s1 s2 r J, SimD s1 s2 -> match compute n d1 s1 r J, compute n d2 s2 r J with
     | Ok (s1', p1), Ok (s2', p2) => SimD s1' s2' /\ p1 = p2 | Err e1, Err e2 => e1 = e2 | _, _ => False end) ->
  forall m1 m2 s, SimD (m_dir m1) (m_dir m2) /\ m_history m1 = m_history m2 ->
    same_step (fun a b => SimD (m_dir a) (m_dir b) /\ m_history a = m_history b) (step n f (Line_search d1 g) m1 s) (step n f (Line_search d2 g) m2 s).
Proof.
  intros Hc m1 m2 s [Hd Hh]. cbn [step]. unfold line_step. cbn [fst snd]. specialize (Hc (m_dir m1) (m_dir m2) (s_res s) (s_jac s) Hd).
  destruct (compute n d1 (m_dir m1) (s_res s) (s_jac s)) as [[s1 p1]|e1], (compute n d2 (m_dir m2) (s_res s) (s_jac s)) as [[s2 p2]|e2]; try contradiction; cbn [bind fst snd]; [|exact Hc].
  destruct Hc as [Hd' ->]. rewrite Hh. destruct (search n f g (m_history m2) (s_x s) (s_phi s) p2) as [[h ls]|]; cbn [bind fst snd]; [|reflexivity].
  destruct ls; cbn; auto.
Qed.

(* ---- C87: chord ---- *)
(* the direction the chord method searches at y when its Jacobian was taken at w: downhill for the Jacobian at y *)
Definition chord_direction n f (lin : mat -> vec -> option vec) (w y d : vec) : Prop :=
  exists e, (lin (jacobian f w) (fun i => - residual f y i) = Some e \/
             lin (jacobian f w) (fun i => - residual f y i) = None /\ e = (fun j => - rsum n (fun i => jacobian f w i j * residual f y i))) /\
    (slope_at n f y e < 0 /\ d = e \/ 0 <= slope_at n f y e /\ d = (fun i => - e i)).
(* iterates, newest first; number t is reached from number t-1 along a direction whose Jacobian was taken at the last iterate before it
   whose number is a multiple of [every] *)
Definition chord_trail n f lin every (trail : list vec) : Prop :=
  forall newer z y older, trail = (newer ++ z :: y :: older)%list ->
    exists w d alpha, nth_error (rev (y :: older)) (every * (length older / every)) = Some w /\ chord_direction n f lin w y d /\ z = vadd y (vscale alpha d).
Lemma div_stays t every : (0 < every)%nat -> Nat.modulo (S t) every <> 0%nat -> (S t / every)%nat = (t / every)%nat.
Proof.
  intros He Hm. pose proof (Nat.div_mod_eq (S t) every) as E. pose proof (Nat.mod_upper_bound (S t) every).
  apply (Nat.div_unique t every _ (S t mod every - 1)%nat); lia.
Qed.
Theorem C87_chord : forall n f lin every g m x0 f_tol x_tol maxiter o m' calls, (0 < every)%nat -> same_residuals f (search_merit g) ->
  sparse_root n f (Line_search (Chord lin every) g) m x0 f_tol x_tol maxiter = Ok (Finished o m' calls) ->
  exists trail, length trail = S (o_nit o) /\ hd_error trail = Some (o_x o) /\ last trail (o_x o) = x0 /\ chord_trail n f lin every trail.
Proof.
  intros n f lin every g m x0 f_tol x_tol maxiter o m' calls He Hmf H. set (v := Line_search (Chord lin every) g) in *.
  set (Inv := fun (m : memory) (s : state) => exists trail, length trail = S (s_nit s) /\ hd_error trail = Some (s_x s) /\ last trail (s_x s) = x0 /\ chord_trail n f lin every trail).
  set (Cache := fun (m : memory) (s : state) => exists trail, (length trail = S (s_nit s) /\ hd_error trail = Some (s_x s) /\ last trail (s_x s) = x0 /\ chord_trail n f lin every trail) /\
    call_count (m_dir m) = s_nit s /\ match s_nit s with O => cached_jac (m_dir m) = None | S t => exists w, nth_error (rev trail) (every * (t / every)) = Some w /\ cached_jac (m_dir m) = Some (jacobian f w) end).
  destruct (start_good n f x0) as (G1 & G2 & G3 & G4).
  assert (H0 : exists trail, length trail = S (s_nit (start n f x0)) /\ hd_error trail = Some (s_x (start n f x0)) /\ last trail (s_x (start n f x0)) = x0 /\ chord_trail n f lin every trail).
  { exists [x0]. rewrite G3, G4. split; [reflexivity|]. split; [reflexivity|]. split; [reflexivity|]. intros newer z y older E. destruct newer as [|a [|b newer]]; discriminate. }
  assert (Hstep : forall m s m2 s2 i, Cache m s -> good f s -> measured n f s -> step n f v m s = Ok (Stepped m2 s2 i) -> i_accepted i = true -> Cache m2 s2).
  { intros m1 s m2 s2 i (trail & (T1 & T2 & T3 & T4) & T5 & T6) Hg Hm HS Ha.
    pose proof HS as HS'. apply (step_facts n f v m1 s) in HS'; [|assumption]. destruct HS' as (m3 & s3 & i3 & EE & _ & _ & HF). injection EE as <- <- <-. destruct (HF Ha) as (F1 & F2 & F3 & _).
    destruct (line_facts n f (Chord lin every) g m1 s m2 s2 i Hmf Hg Hm HS) as (ds & p & h & r & C1 & C2 & C3 & C4 & C5 & C6 & C7 & C8).
    destruct (C7 Ha) as (ls & D1 & D2 & _). destruct (search_spec _ _ _ _ _ _ _ _ _ C2) as (c1 & beta & ref & E). rewrite D1 in E. symmetry in E. apply backtrack_spec in E. destruct E as (j & _ & _ & J3 & _).
    destruct trail as [|y older]; [discriminate|]. injection T2 as ->. destruct (good_parts f s Hg) as [ER EJ].
    (* the Jacobian in use *)
    assert (HJ : exists w, nth_error (rev (s_x s :: older)) (every * (s_nit s / every)) = Some w /\ cached_jac ds = Some (jacobian f w) /\ call_count ds = S (s_nit s) /\
       p = orient (or_gradient n (lin (jacobian f w) (vneg (s_res s))) (jacobian f w) (s_res s)) (dot n (s_res s) (mv n (s_jac s) (or_gradient n (lin (jacobian f w) (vneg (s_res s))) (jacobian f w) (s_res s))))).
    { assert (Hlast : nth_error (rev (s_x s :: older)) (s_nit s) = Some (s_x s)).
      { cbn [rev]. cbn in T1. injection T1 as T1. rewrite nth_error_app2; rewrite rev_length; [|lia]. rewrite T1, Nat.sub_diag. reflexivity. }
      cbn [compute] in C1. destruct (s_nit s) as [|t] eqn:EN.
      - rewrite T6 in C1. cbn [bind] in C1. injection C1 as <- <-. exists (s_x s). rewrite Nat.div_0_l, Nat.mul_0_r by lia. rewrite EJ, T5. cbn [cached_jac call_count]. auto.
      - destruct T6 as (w & W1 & W2). rewrite W2, T5 in C1. destruct (Nat.eqb_spec every 0) as [?|_]; [lia|]. cbn [bind] in C1.
        destruct (Nat.eqb_spec (Nat.modulo (S t) every) 0) as [Hmod|Hmod]; injection C1 as <- <-; cbn [cached_jac call_count].
        + exists (s_x s). assert (every * (S t / every) = S t)%nat as -> by (pose proof (Nat.div_mod_eq (S t) every); lia). rewrite EJ. auto.
        + exists w. rewrite div_stays by assumption. auto. }
    destruct HJ as (w & W1 & W2 & W3 & W4). exists (s_x s2 :: s_x s :: older). split; [|split].
    - cbn [length]. cbn [length] in T1. split; [lia|]. split; [reflexivity|]. split; [rewrite <- T3; cbn [last]; destruct older as [|b t]; [reflexivity|apply last_any; discriminate]|].
      intros newer z y older' E. destruct newer as [|b newer]; cbn [app] in E; [injection E as <- <- <-|injection E as _ E; apply (T4 newer z y older' E)].
      exists w, (d_dir p), (1 * beta ^ j). cbn in T1. injection T1 as T1. rewrite T1. split; [exact W1|]. split; [|rewrite D2; exact J3].
      exists (or_gradient n (lin (jacobian f w) (vneg (s_res s))) (jacobian f w) (s_res s)). rewrite <- ER. split.
      + unfold or_gradient. change (fun i => - s_res s i) with (vneg (s_res s)). destruct (lin (jacobian f w) (vneg (s_res s))); [left; reflexivity|right; split; reflexivity].
      + rewrite slope_dot by assumption. rewrite W4. unfold orient. destruct (rleb_spec 0 (dot n (s_res s) (mv n (s_jac s) (or_gradient n (lin (jacobian f w) (vneg (s_res s))) (jacobian f w) (s_res s))))); cbn [d_dir]; [right|left]; split; auto.
    - rewrite C4, F3. exact W3.
    - rewrite F3, C4. exists w. split; [|exact W2]. cbn [rev] in *. rewrite nth_error_app1; [exact W1|]. apply nth_error_Some. congruence. }
  assert (Hit : forall kk m s c, good f s -> measured n f s -> Cache m s -> iterate n f v f_tol x_tol kk m s c = Ok (Finished o m' calls) ->
     exists trail, length trail = S (o_nit o) /\ hd_error trail = Some (o_x o) /\ last trail (o_x o) = x0 /\ chord_trail n f lin every trail).
  { induction kk as [|kk IH]; intros m1 s c Hg Hm HC HI; cbn [iterate] in HI.
    - injection HI as <- _ _. destruct HC as (trail & HC & _). exists trail. exact HC.
    - destruct (step n f v m1 s) as [st|] eqn:ES; [|discriminate]. cbn [bind] in HI.
      destruct (step_facts n f v m1 s st Hg ES) as (m2 & s2 & i & -> & F1 & F2 & F3). destruct (i_accepted i) eqn:EA; cbn [negb] in HI.
      + destruct (F3 eq_refl) as (F4 & F5 & F6 & F7). pose proof (Hstep m1 s m2 s2 i HC Hg Hm ES EA) as HC2.
        destruct (converged n s2 f_tol x_tol (i_step i)).
        * injection HI as <- _ _. destruct HC2 as (trail & HC2 & _). exists trail. exact HC2.
        * apply (IH m2 s2 (c + i_calls i)%nat); [assumption|apply F7; exact Hmf|assumption|assumption].
      + injection HI as <- _ _. rewrite (F2 eq_refl). destruct HC as (trail & HC & _). exists trail. exact HC. }
  unfold sparse_root in H. destruct (Nat.eqb n 0); [discriminate|]. destruct (rltb (maxabs n (s_res (start n f x0))) f_tol).
  - injection H as <- _ _. exact H0.
  - apply Hit in H; [assumption|assumption|assumption|]. destruct H0 as (trail & H0). exists trail. split; [exact H0|]. rewrite G4. split; reflexivity.
Qed.
(* refreshing at every call is Newton's method *)
Theorem C87_chord_every_call : forall n f lin g m x0 f_tol x_tol maxiter,
  same_end (sparse_root n f (Line_search (Chord lin 1) g) m x0 f_tol x_tol maxiter) (sparse_root n f (Line_search (Newton lin) g) m x0 f_tol x_tol maxiter).
Proof.
  intros. apply root_sim with (Sim := fun a b => True /\ m_history a = m_history b); [|cbn; auto]. intros m1 m2 s Hm.
  apply (line_sim n f (Chord lin 1) (Newton lin) g (fun _ _ => True)); [|exact Hm]. intros s1 s2 r J _. cbn [compute].
  destruct (cached_jac s1) as [J'|]; cbn [bind Nat.eqb]; [|auto]. assert (E : Nat.modulo (call_count s1) 1 = 0%nat) by apply Nat.mod_1_r. rewrite E. cbn [bind Nat.eqb]. auto.
Qed.
(* never refreshing is an error at the second direction *)
Theorem C87_chord_zero : forall n f lin g m x0 f_tol x_tol o m' calls maxiter,
  sparse_root n f (Line_search (Chord lin 0) g) m x0 f_tol x_tol 1 = Ok (Finished o m' calls) -> o_success o = false -> o_nit o = 1%nat ->
  sparse_root n f (Line_search (Chord lin 0) g) m x0 f_tol x_tol (S (S maxiter)) = Err ZeroDivisionError.
Proof.
  intros n f lin g m x0 f_tol x_tol o m' calls maxiter. unfold sparse_root. destruct (Nat.eqb n 0); [discriminate|].
  destruct (start_good n f x0) as (G1 & G2 & G3 & G4).
  destruct (rltb (maxabs n (s_res (start n f x0))) f_tol); [intros H Hs; injection H as <- _ _; discriminate|].
  set (v := Line_search (Chord lin 0) g). change (iterate n f v f_tol x_tol (S (S maxiter))) with (iterate n f v f_tol x_tol (S (S maxiter))). intros H Hs Hn.
  cbn [iterate] in *. destruct (step n f v (init v m) (start n f x0)) as [st|] eqn:ES; [|discriminate]. cbn [bind] in *.
  destruct (step_facts n f v _ _ st G1 ES) as (m2 & s2 & i & -> & F1 & F2 & F3). destruct (i_accepted i) eqn:EA; cbn [negb] in *.
  - destruct (converged n s2 f_tol x_tol (i_step i)); [injection H as <- _ _; discriminate|].
    assert (HC : cached_jac (m_dir m2) <> None).
    { unfold v in ES. cbn [step init] in ES. unfold line_step in ES. cbn [fst snd m_dir reset compute cached_jac bind] in ES.
      match type of ES with context[search n f g ?h ?x ?ph ?p] => destruct (search n f g h x ph p) as [[h' ls]|]; [|discriminate] end.
      cbn [bind fst snd] in ES. destruct ls; cbn [bind] in ES; injection ES as <- _ _; cbn [m_dir cached_jac]; discriminate. }
    unfold v at 1. cbn [step]. unfold line_step. cbn [fst snd compute]. destruct (cached_jac (m_dir m2)); [reflexivity|contradiction].
  - injection H as <- _ _. rewrite (F2 eq_refl) in Hn. cbn in Hn. rewrite G4 in Hn. discriminate.
Qed.
(* Krylov: the solver is only ever asked for relative accuracies between eta_min and eta_max *)
Theorem C87_krylov_accuracy : forall n f fn1 fn2 eta_max eta_min ew g m x0 f_tol x_tol maxiter, eta_min <= eta_max ->
  (forall A b tol, eta_min * norm n b <= tol <= eta_max * norm n b -> fn1 A b tol = fn2 A b tol) ->
  same_end (sparse_root n f (Line_search (Krylov (Some fn1) eta_max eta_min ew) g) m x0 f_tol x_tol maxiter)
           (sparse_root n f (Line_search (Krylov (Some fn2) eta_max eta_min ew) g) m x0 f_tol x_tol maxiter).
Proof.
  intros n f fn1 fn2 emax emin ew g m x0 f_tol x_tol maxiter He Hfn.
  assert (Hnn : forall r, norm n (vneg r) = norm n r) by (intro r; unfold norm; rewrite dot_neg, dot_neg_l; f_equal; ring).
  apply root_sim with (Sim := fun a b => (m_dir a = m_dir b /\ emin <= eta (m_dir a) <= emax) /\ m_history a = m_history b).
  2: { cbn. split; [|reflexivity]. split; [reflexivity|lra]. }
  intros m1 m2 s Hm. apply (line_sim n f _ _ g (fun a b => a = b /\ emin <= eta a <= emax)); [|exact Hm]. intros s1 s2 r J [-> Hs]. cbn [compute].
  set (e' := if (ew && rltb 0 (prev_res_norm s2))%bool then _ else _).
  assert (Hr : emin <= e' <= emax). { unfold e'. destruct (ew && _)%bool; [|assumption]. unfold clip. split; [apply Rmin_glb; [apply Rmax_r|lra]|apply Rmin_r]. }
  assert (E : fn1 J (vneg r) (e' * norm n r) = fn2 J (vneg r) (e' * norm n r)) by (apply Hfn; rewrite Hnn; pose proof (norm_pos n r); nra).
  rewrite E. cbn [eta]. auto.
Qed.
Theorem C87_krylov_fixed : forall n f fn1 fn2 eta_max eta_min g m x0 f_tol x_tol maxiter,
  (forall A b, fn1 A b (eta_max * norm n b) = fn2 A b (eta_max * norm n b)) ->
  same_end (sparse_root n f (Line_search (Krylov (Some fn1) eta_max eta_min false) g) m x0 f_tol x_tol maxiter)
           (sparse_root n f (Line_search (Krylov (Some fn2) eta_max eta_min false) g) m x0 f_tol x_tol maxiter).
Proof.
  intros n f fn1 fn2 emax emin g m x0 f_tol x_tol maxiter Hfn.
  assert (Hnn : forall r, norm n (vneg r) = norm n r) by (intro r; unfold norm; rewrite dot_neg, dot_neg_l; f_equal; ring).
  apply root_sim with (Sim := fun a b => (m_dir a = m_dir b /\ eta (m_dir a) = emax) /\ m_history a = m_history b).
  2: { cbn. auto. }
  intros m1 m2 s Hm. apply (line_sim n f _ _ g (fun a b => a = b /\ eta a = emax)); [|exact Hm]. intros s1 s2 r J [-> Hs]. cbn [compute andb].
  rewrite Hs. rewrite <- (Hnn r), Hfn. cbn [eta]. auto.
Qed.
Theorem C87_unknown_method : forall n f eta_max eta_min ew g m x0 f_tol x_tol maxiter, (0 < n)%nat -> (0 < maxiter)%nat -> (exists i, (i < n)%nat /\ f_tol <= Rabs (residual f x0 i)) ->
  sparse_root n f (Line_search (Krylov None eta_max eta_min ew) g) m x0 f_tol x_tol maxiter = Err ValueError.
Proof.
  intros n f emax emin ew g m x0 f_tol x_tol maxiter Hn Hmax (i & Hi & Hr). unfold sparse_root. destruct (Nat.eqb_spec n 0); [lia|].
  assert (ER : s_res (start n f x0) = residual f x0) by (unfold start, residual; destruct (f x0); reflexivity).
  pose proof (maxabs_ge n (residual f x0) i Hi). rewrite ER. destruct (rltb_spec (maxabs n (residual f x0)) f_tol); [lra|].
  destruct maxiter as [|q]; [lia|]. reflexivity.
Qed.

(* ---- C88: reuse, and counting ---- *)
Definition remembers (v : solver) : Prop := match v with Line_search _ (Nonmonotone _ _ _ _ _) => True | _ => False end.
Theorem C88_reuse : forall n f v m1 m2 x0 f_tol x_tol maxiter, ~ remembers v ->
  same_end (sparse_root n f v m1 x0 f_tol x_tol maxiter) (sparse_root n f v m2 x0 f_tol x_tol maxiter).
Proof.
  intros n f v m1 m2 x0 f_tol x_tol maxiter Hv.
  assert (Hrefl : forall v' m0, (forall s, step n f v' m0 s = step n f v' m0 s) -> same_step (fun a b => m_scalar a = m_scalar b) (Ok Hangs) (Ok Hangs)) by (intros; exact I).
  destruct v as [d g|o lin|o|o lin].
  - destruct g as [c1 beta k mf|c1 beta k mem mf]; [|destruct Hv; exact I].
    set (D := fun s1 s2 : dstate => match d with Newton _ => True | Chord _ _ => cached_jac s1 = cached_jac s2 /\ call_count s1 = call_count s2
                | Krylov _ _ _ _ => eta s1 = eta s2 /\ prev_res_norm s1 = prev_res_norm s2 /\ prev_pred_norm s1 = prev_pred_norm s2 end).
    apply root_sim with (Sim := fun a b => D (m_dir a) (m_dir b)).
    + intros a b s Hab. cbn [step]. unfold line_step. cbn [fst snd].
      assert (HC : match compute n d (m_dir a) (s_res s) (s_jac s), compute n d (m_dir b) (s_res s) (s_jac s) with
         | Ok (s1', p1), Ok (s2', p2) => D s1' s2' /\ p1 = p2 | Err e1, Err e2 => e1 = e2 | _, _ => False end).
      { unfold D in *. destruct d as [lin|lin every|[fn|] emax emin ew]; cbn [compute].
        - auto.
        - destruct Hab as [H1 H2]. rewrite H1, H2. destruct (match cached_jac (m_dir b) with Some _ => _ | None => _ end); cbn [bind cached_jac call_count]; auto.
        - destruct Hab as (H1 & H2 & H3). rewrite H1, H2, H3. cbn [eta prev_res_norm prev_pred_norm]. auto.
        - reflexivity. }
      destruct (compute n d (m_dir a) (s_res s) (s_jac s)) as [[s1 p1]|e1], (compute n d (m_dir b) (s_res s) (s_jac s)) as [[s2 p2]|e2]; try contradiction; cbn [bind fst snd]; [|exact HC].
      destruct HC as [HD ->]. cbn [search bind fst snd]. destruct (backtrack n f c1 beta mf _ _ _ _ _ _ _); cbn; auto.
    + cbn [init m_dir]. unfold D. destruct d; cbn [reset]; auto.
  - apply root_sim with (Sim := fun a b => m_scalar a = m_scalar b); [|reflexivity]. intros a b s E. cbn [step]. rewrite E. destruct (tr_step n f o _ (m_scalar b) s) as [[[x y] i]|]; cbn; auto.
  - apply root_sim with (Sim := fun a b => m_scalar a = m_scalar b); [|reflexivity]. intros a b s E. cbn [step]. rewrite E. destruct (tr_step n f o _ (m_scalar b) s) as [[[x y] i]|]; cbn; auto.
  - apply root_sim with (Sim := fun a b => m_scalar a = m_scalar b); [|reflexivity]. intros a b s E. cbn [step]. rewrite E. destruct (lm_step n f o lin (m_scalar b) s) as [[[x y] i]|]; cbn; auto.
Qed.
(* evaluations: the reported number and the number of calls *)
Definition no_merit (v : solver) : Prop := match v with Line_search _ g => search_merit g = None | _ => True end.
Definition step_limit (v : solver) : nat :=
  match v with Line_search _ g => search_iterations g | Dogleg o _ | Gauss_newton o => Nat.max 1 (max_reject o) | Levenberg_marquardt o _ => Nat.max 1 (lm_max_reject o) end.
Lemma step_counts n f v m s m' s' i : good f s -> no_merit v -> step n f v m s = Ok (Stepped m' s' i) ->
  (i_calls i <= step_limit v)%nat /\ (i_accepted i = true -> s_nfev s' = (s_nfev s + i_calls i)%nat) /\ (i_accepted i = false -> s' = s).
Proof.
  intros Hg Hn H. pose proof H as H0. destruct (step_facts n f v m s _ Hg H0) as (m1 & s1 & i1 & E & C1 & C2 & _). injection E as <- <- <-.
  split; [destruct v; cbn [no_merit per_step step_limit] in *; try rewrite Hn in C1; assumption|]. split; [|assumption]. intro Ha.
  destruct v as [d g|o lin|o|o lin]; cbn [step] in H.
  - unfold line_step in H. cbn [fst snd] in H. destruct (compute n d (m_dir m) (s_res s) (s_jac s)) as [[ds p]|]; [|discriminate]. cbn [bind fst snd] in H.
    destruct (search n f g (m_history m) (s_x s) (s_phi s) p) as [[h ls]|] eqn:ES; [|discriminate]. cbn [bind fst snd] in H.
    destruct (search_spec _ _ _ _ _ _ _ _ _ ES) as (c1 & beta & ref & E). destruct ls as [ls|]; cbn [bind] in H; injection H as _ <- <-; [|discriminate].
    symmetry in E. apply backtrack_spec in E. destruct E as (j & _ & _ & _ & _ & _ & _ & _ & J8 & J9). cbn [no_merit] in Hn. rewrite Hn in *. cbn [i_calls advance s_nfev]. lia.
  - destruct (tr_loop_spec n f o (dogleg_sub n lin) s (S (max_reject o)) (m_scalar m) 0 0) as (d' & s2 & i2 & E & A1 & A2 & k & A3 & A4 & A5); [lia|lia|].
    unfold tr_step in H. rewrite E in H. injection H as _ <- <-. destruct (A5 Ha) as (_ & _ & _ & _ & _ & B6 & _). exact B6.
  - destruct (tr_loop_spec n f o (gauss_newton_sub n) s (S (max_reject o)) (m_scalar m) 0 0) as (d' & s2 & i2 & E & A1 & A2 & k & A3 & A4 & A5); [lia|lia|].
    unfold tr_step in H. rewrite E in H. injection H as _ <- <-. destruct (A5 Ha) as (_ & _ & _ & _ & _ & B6 & _). exact B6.
  - destruct (lm_loop_spec n f o lin s (S (lm_max_reject o)) (m_scalar m) 0 0) as (d' & s2 & i2 & E & A1 & A2 & A3 & A4); [lia|lia|].
    unfold lm_step in H. rewrite E in H. injection H as _ <- <-. destruct (A4 Ha) as (l & _ & _ & _ & _ & _ & _ & B6 & _). exact B6.
Qed.
Theorem C88_counts : forall n f v m x0 f_tol x_tol maxiter o m' calls, no_merit v -> sparse_root n f v m x0 f_tol x_tol maxiter = Ok (Finished o m' calls) ->
  (o_nfev o <= calls <= o_nfev o + step_limit v)%nat /\ (calls <= 1 + maxiter * step_limit v)%nat /\
  (o_success o = true \/ o_nit o = maxiter -> o_nfev o = calls).
Proof.
  intros n f v m x0 f_tol x_tol maxiter o m' calls Hn H. destruct (start_good n f x0) as (G1 & G2 & G3 & G4).
  assert (G5 : s_nfev (start n f x0) = 1%nat) by (unfold start; destruct (f x0); reflexivity).
  assert (Hit : forall k m s c, good f s -> (s_nfev s = c)%nat -> iterate n f v f_tol x_tol k m s c = Ok (Finished o m' calls) ->
    (o_nfev o <= calls <= o_nfev o + step_limit v)%nat /\ (calls <= c + k * step_limit v)%nat /\ (o_success o = true \/ o_nit o = (s_nit s + k)%nat -> o_nfev o = calls)).
  { induction k as [|k IH]; intros m1 s c Hg Hc HI; cbn [iterate] in HI.
    - injection HI as <- _ <-. cbn. lia.
    - destruct (step n f v m1 s) as [st|] eqn:ES; [|discriminate]. cbn [bind] in HI. destruct (step_facts n f v m1 s st Hg ES) as (m2 & s2 & i & -> & F1 & F2 & F3).
      destruct (step_counts n f v m1 s m2 s2 i Hg Hn ES) as (K1 & K2 & K3). destruct (i_accepted i) eqn:EA; cbn [negb] in HI.
      + destruct (F3 eq_refl) as (F4 & F5 & F6 & _). specialize (K2 eq_refl). destruct (converged n s2 f_tol x_tol (i_step i)).
        * injection HI as <- _ <-. cbn [o_nfev make_result o_success]. cbn [Nat.mul]. lia.
        * destruct (IH m2 s2 (c + i_calls i)%nat F4 ltac:(lia) HI) as (I1 & I2 & I3). cbn [Nat.mul]. split; [assumption|]. split; [lia|]. intros [Hs|Hs]; apply I3; [now left|right; lia].
      + injection HI as <- _ <-. rewrite (K3 eq_refl). cbn [o_nfev make_result o_success o_nit Nat.mul]. split; [lia|]. split; [lia|]. intros [C|C]; [discriminate|lia]. }
  unfold sparse_root in H. destruct (Nat.eqb n 0); [discriminate|]. destruct (rltb (maxabs n (s_res (start n f x0))) f_tol).
  - injection H as <- _ <-. cbn [o_nfev make_result o_success]. rewrite G5. lia.
  - apply Hit in H; [|assumption|assumption]. rewrite G4 in H. exact H.
Qed.
(* the total handed to the progress bar is never exceeded when steps try at most as often as it assumes *)
Theorem C88_limit : forall n f v m x0 f_tol x_tol maxiter o m' calls, no_merit v -> (0 < maxiter)%nat ->
  match v with Line_search _ _ => True | Dogleg o _ | Gauss_newton o => (max_reject o <= 50)%nat | Levenberg_marquardt o _ => (lm_max_reject o <= 50)%nat end ->
  sparse_root n f v m x0 f_tol x_tol maxiter = Ok (Finished o m' calls) -> (calls <= max_evaluations v maxiter)%nat.
Proof.
  intros n f v m x0 f_tol x_tol maxiter o m' calls Hn Hmax Hv H. destruct (C88_counts _ _ _ _ _ _ _ _ _ _ _ Hn H) as (_ & H2 & _).
  unfold max_evaluations. destruct v; cbn [step_limit search_iterations] in *; nia.
Qed.
(* the counts differ when the last step fails; here every trial does: the residual is 1 everywhere *)
Lemma tr_all_rejected n f o sub s : (forall x, objective n f x = s_phi s) -> 0 <= tr_eta o -> forall fuel delta rejects nfev, (max_reject o < fuel + rejects)%nat -> (rejects < max_reject o)%nat ->
  exists d, tr_loop n f o sub s fuel delta rejects nfev = Some (d, s, Info false vzero (nfev + (max_reject o - rejects))%nat).
Proof.
  intros Hc He. induction fuel as [|fuel IH]; intros delta rejects nfev Hf Hr; [lia|]. cbn [tr_loop].
  destruct (f (vadd (s_x s) (sub (s_jac s) (s_res s) (tmv n (s_jac s) (s_res s)) delta))) as [rt Jt] eqn:Ef.
  assert (Et : merit n rt = s_phi s). { rewrite <- (Hc (vadd (s_x s) (sub (s_jac s) (s_res s) (tmv n (s_jac s) (s_res s)) delta))). unfold objective, residual. rewrite Ef. reflexivity. }
  assert (Hrej : exists d, (if Nat.leb (max_reject o) (S rejects) then Some (delta * shrink o, s, Info false vzero (S nfev)) else tr_loop n f o sub s fuel (delta * shrink o) (S rejects) (S nfev)) = Some (d, s, Info false vzero (nfev + (max_reject o - rejects))%nat)).
  { destruct (Nat.leb_spec (max_reject o) (S rejects)) as [Hl|Hl].
    - eexists. replace (nfev + (max_reject o - rejects))%nat with (S nfev) by lia. reflexivity.
    - destruct (IH (delta * shrink o) (S rejects) (S nfev)) as [d E]; [lia|lia|]. exists d. rewrite E. replace (S nfev + (max_reject o - S rejects))%nat with (nfev + (max_reject o - rejects))%nat by lia. reflexivity. }
  destruct (rleb_spec (predicted n (s_jac s) (tmv n (s_jac s) (s_res s)) (sub (s_jac s) (s_res s) (tmv n (s_jac s) (s_res s)) delta)) 0) as [_|Hp]; [exact Hrej|].
  destruct (rltb_spec (tr_eta o) ((s_phi s - merit n rt) / predicted n (s_jac s) (tmv n (s_jac s) (s_res s)) (sub (s_jac s) (s_res s) (tmv n (s_jac s) (s_res s)) delta))) as [C|_]; [|exact Hrej].
  exfalso. rewrite Et in C. unfold Rminus in C. rewrite Rplus_opp_r in C. unfold Rdiv in C. rewrite Rmult_0_l in C. lra.
Qed.
Lemma constant_run k : (0 < k)%nat -> exists o m', sparse_root 1 (scalar (fun _ => 1) (fun _ => 1)) (Gauss_newton (TR 1 100 (/ 10) (/ 4) 2 k)) fresh (fun _ => 0) (/ 100) (/ 100) 1 = Ok (Finished o m' (S k)) /\ o_nfev o = 1%nat.
Proof.
  intro Hk. unfold sparse_root. cbn [Nat.eqb]. set (f := scalar (fun _ => 1) (fun _ => 1)). set (o := TR 1 100 (/ 10) (/ 4) 2 k).
  assert (Ema : forall v, maxabs 1 v = Rabs (v 0%nat)) by (intro v; unfold maxabs; cbn; apply Rmax_right, Rabs_pos).
  assert (ER : s_res (start 1 f (fun _ => 0)) 0%nat = 1) by reflexivity. rewrite Ema, ER. destruct (rltb_spec (Rabs 1) (/ 100)) as [C|_]; [rewrite Rabs_right in C; lra|].
  cbn [iterate step init m_scalar]. unfold tr_step.
  destruct (tr_all_rejected 1 f o (gauss_newton_sub 1) (start 1 f (fun _ => 0)) ltac:(intro; reflexivity) ltac:(cbn; lra) (S (max_reject o)) (delta0 o) 0%nat 0%nat ltac:(lia) ltac:(cbn; exact Hk)) as [d E].
  rewrite E. cbn [bind of_loop i_accepted negb i_calls]. cbn [max_reject o]. rewrite Nat.sub_0_r. cbn [Nat.add]. eexists _, _. split; reflexivity.
Qed.
Theorem C88_failed_step_refuted : ~ forall n f v m x0 f_tol x_tol maxiter o m' calls, no_merit v -> sparse_root n f v m x0 f_tol x_tol maxiter = Ok (Finished o m' calls) -> o_nfev o = calls.
Proof.
  intro H. destruct (constant_run 50 ltac:(lia)) as (o & m' & E & E1). apply H in E; [|exact I]. rewrite E1 in E. discriminate.
Qed.
Theorem C88_limit_refuted : ~ forall n f v m x0 f_tol x_tol maxiter o m' calls, no_merit v -> (0 < maxiter)%nat -> sparse_root n f v m x0 f_tol x_tol maxiter = Ok (Finished o m' calls) -> (calls <= max_evaluations v maxiter)%nat.
Proof.
  intro H. destruct (constant_run 60 ltac:(lia)) as (o & m' & E & E1). apply H in E; [|exact I|lia]. cbn in E. lia.
Qed.
