(* Theorems about perfect-foresight simulation. *)
From Verif Require Import Common Sort_Lib Sym_Model Sym_Spec Sym_Proofs Sym_More Build_Model Lin_Model Lin_Spec Lin_Proofs Lin_Main Lin_Props
  PF_Model PF_Spec PF_Assemble PF_Proofs PF_System PF_Request PF_Prepare.
From Coq Require Import Reals Lra.
Local Open Scope list_scope.

(* the requested values: the shocks and parameter paths of the call *)
Definition follows_request (m : pf_model) (a : pf_args) (E : economy) : Prop :=
  (forall b t, t < g_length a -> e_shock E b (Z.of_nat t) = user_shock a b t) /\
  (forall n t, t < g_length a -> e_par E n t = user_param m a n t).

(* C33 *)
Theorem C33_stacked_residual :
  forall G steady_state ord m a r E y, set_order_ok ord -> current_shocks m -> NoDup (p_params m) -> distinct_keys (g_paths a) ->
  prepare steady_state ord m a = Ok r -> length (p_eqs m) = length (q_vars (r_problem r)) ->
  follows_request m a E -> steady_values m E G (g_length a) ->
  variables_from (q_vars (r_problem r)) (g_length a) (r_initial r) (r_terminal r) y E ->
  exists res, merit G r (r_problem r) (g_length a) y = Ok res /\ length res = g_length a * length (p_eqs m) /\
    (forall t i eq, t < g_length a -> nth_error (p_eqs m) i = Some eq ->
       nth_error res (t * length (p_eqs m) + i) = Some (ev (Ralg G) (meaning (p_shocks m) E t) eq)) /\
    ((forall x, In x res -> x = 0%R) <-> holds G m E (g_length a)).
Proof.
  intros G ss ord m a r E y Ho Hc Hp Hk HP Hsq [HS HQ] Hst HV.
  destruct (prepared_rows ss ord m a r Ho Hp Hk HP) as [HX HR]. pose proof (prepare_inv ss ord m a r HP) as (HC & _).
  destruct (residual_meaning G ord m (r_problem r) Ho HC Hc (g_length a) (r_initial r) (r_terminal r) y (r_shocks r) (r_params r) E HV) as (res & R1 & R2 & R3); try assumption.
  { destruct HX as [X1 X2]. split; [assumption|]. intros t Ht. rewrite (X2 t Ht). f_equal. apply map_ext. intro s. symmetry. now apply HS. }
  { destruct HR as [X1 X2]. split; [assumption|]. intros t Ht. rewrite (X2 t Ht). f_equal. apply map_ext. intro n. symmetry. now apply HQ. }
  exists res. rewrite Hsq. split; [exact R1|]. split; [exact R2|]. split; [exact R3|]. split.
  - intros H t eq Ht He. apply In_nth_error in He. destruct He as (i & Hi). apply H. eapply nth_error_In. apply (R3 t i eq Ht Hi).
  - intros H x Hx. apply In_nth_error in Hx. destruct Hx as (k & Hx).
    assert (Hkl : k < length res) by (apply nth_error_Some; congruence). rewrite R2 in Hkl.
    set (n := length (q_vars (r_problem r))) in *. assert (Hn : n <> 0) by nia.
    pose proof (Nat.div_mod k n Hn) as Dk. pose proof (Nat.mod_upper_bound k n Hn) as Mk.
    destruct (nth_error (p_eqs m) (k mod n)) as [eq|] eqn:Ei; [|apply nth_error_None in Ei; lia].
    assert (Ht : k / n < g_length a) by nia.
    pose proof (R3 (k / n) (k mod n) eq Ht Ei) as Hr. replace (k / n * n + k mod n) with k in Hr by lia.
    rewrite Hx in Hr. injection Hr as ->. apply H; [assumption|]. eapply nth_error_In, Ei.
Qed.
Print Assumptions C33_stacked_residual.

(* the returned table, when the solver stopped at a root, is a solution of the model *)
Theorem C33_solution_satisfies_model :
  forall G simp steady_state root ord m a r cols rows x E, set_order_ok ord -> simp_ok simp -> current_shocks m -> NoDup (p_params m) ->
  distinct_keys (g_paths a) -> 1 <= g_length a ->
  solve_pf G simp steady_state root ord m a = Ok (cols, rows, x) ->
  prepare steady_state ord m a = Ok r -> length (p_eqs m) = length cols ->
  (exists res J, system G simp r (g_length a) x = Ok (res, J) /\ forall v, In v res -> v = 0%R) ->
  follows_request m a E -> steady_values m E G (g_length a) ->
  (forall b j t, nth_error cols j = Some b -> t < g_length a -> entry rows t j = Some (e_var E b (Z.of_nat t))) ->
  (forall b j, nth_error cols j = Some b -> nth_error (r_initial r) j = Some (e_var E b (-1)) /\
                                             nth_error (r_terminal r) j = Some (e_var E b (Z.of_nat (g_length a)))) ->
  length (r_initial r) = length cols -> length (r_terminal r) = length cols ->
  length rows = g_length a /\ holds G m E (g_length a).
Proof.
  intros G simp ss root ord m a r cols rows x E Ho Hsi Hc Hp Hk HT HS HP Hsq (res & J & HJ & Hz) HF Hst HE HB L1 L2.
  pose proof (prepare_inv ss ord m a r HP) as (HC & _). unfold solve_pf in HS. rewrite HP in HS. cbn [bind] in HS.
  destruct (root _ _) as [x0|]; [|discriminate]. cbn [bind] in HS.
  destruct (Nat.eqb_spec (length x0) (g_length a * length (q_vars (r_problem r)))) as [EL|]; [|discriminate].
  injection HS as <- <- <-. split; [rewrite map_length, seq_length; reflexivity|].
  assert (HV : variables_from (q_vars (r_problem r)) (g_length a) (r_initial r) (r_terminal r) x0 E).
  { split; [assumption|]. split; [assumption|]. split; [assumption|]. intros j b Hj. destruct (HB b j Hj) as [B1 B2].
    split; [assumption|]. split; [assumption|]. intros t Ht. pose proof (HE b j t Hj Ht) as He. unfold entry in He.
    set (n := length (q_vars (r_problem r))) in *. rewrite nth_error_map in He.
    replace (nth_error (seq 0 (g_length a)) t) with (Some t) in He.
    2:{ symmetry. rewrite (nth_error_nth' _ 0) by (rewrite seq_length; assumption). rewrite seq_nth by assumption. reflexivity. }
    cbn [option_map] in He. assert (Hjn : j < n) by (apply nth_error_Some; congruence). rewrite <- He. symmetry. apply row_slice; [nia|assumption]. }
  destruct (C33_stacked_residual G ss ord m a r E x0 Ho Hc Hp Hk HP Hsq HF Hst HV) as (res' & R1 & R2 & R3 & R4). apply R4.
  destruct (substituted ord m (r_problem r) Ho HC) as (eqs & E1 & E2 & f & Ef & _).
  destruct (system_ok G simp Hsi (r_problem r) (g_length a) (r_initial r) (r_terminal r) (r_shocks r) (r_params r) x0 HT) as (r'' & J'' & S1 & S2 & _).
  { apply HV. } { rewrite E2, Ef, map_length. assumption. }
  unfold system in HJ. rewrite HJ in S1. injection S1 as <- <-. unfold merit in R1. rewrite S2 in R1. injection R1 as <-. exact Hz.
Qed.
Print Assumptions C33_solution_satisfies_model.

(* an AR(1) with a forward-looking equation that mentions a steady-state value:
   K - rho K[-1] - eps = 0;  C - K[1] - K[ss] = 0, K[ss] = rho *)
Definition pv b t := Sy (SDate (str b) t).
Definition case_pf : pf_model :=
  PM [Ad (pv "K" 0) (Ng (Ad (Mu (Sy (SPar (str "rho"))) (pv "K" (-1))) (pv "eps" 0)));
      Ad (pv "C" 0) (Ng (Ad (pv "K" 1) (Sy (SSs (str "K")))))]
     [str "eps"] [str "rho"] [(SSs (str "K"), Sy (SPar (str "rho")))] (fun _ => [(str "rho", 2%R)]).
Definition case_args : pf_args :=
  PA 2 No_guess [(str "K_ss", 3%R)] [] [(str "eps", [5%R; 7%R])] [] [].
Definition case_ss : dict R -> result (dict R) := fun _ => Ok [(str "K_ss", 2%R); (str "C_ss", 4%R)].
Theorem C33_case :
  compile id_ord case_pf = Ok (PP [Ad (pv "K" 0) (Ng (Ad (Mu (Sy (SPar (str "rho"))) (pv "K" (-1))) (pv "eps" 0)));
      Ad (pv "C" 0) (Ng (Ad (pv "K" 1) (Sy (SPar (str "rho")))))] [str "C"; str "K"] [SDate (str "eps") 0] [str "rho"]) /\
  (exists r, prepare case_ss id_ord case_pf case_args = Ok r /\ r_initial r = [4%R; 3%R] /\ r_terminal r = [4%R; 2%R] /\
     r_shocks r = [[5%R]; [7%R]] /\ r_params r = [[2%R]; [2%R]] /\
     exists res, merit expworld r (r_problem r) 2 [31; 11; 4; 29]%R = Ok res /\ forall x, In x res -> x = 0%R) /\
  current_shocks case_pf.
Proof.
  split; [vm_compute; reflexivity|]. split.
  - eexists. split; [vm_compute; reflexivity|]. do 4 (split; [reflexivity|]). eexists. split; [cbn; reflexivity|].
    intros x Hx. cbn in Hx. repeat (destruct Hx as [<-|Hx]; [cbn; ring|]). destruct Hx.
  - intros b k [(eq & He & Hs)|(k' & v & Hkv & Hs)] Hb; cbn in Hb.
    + destruct Hb as [<-|[]]. cbn in He. destruct He as [<-|[<-|[]]]; cbn in Hs; repeat (destruct Hs as [Hs|Hs]; [congruence|]); destruct Hs.
    + cbn in Hkv. destruct Hkv as [Hkv|[]]. injection Hkv as <- <-. cbn in Hs. destruct Hs as [Hs|[]]; discriminate.
Qed.

(* C34 *)
Theorem C34_assembled_blocks :
  forall Js n T J0 rest, length Js = T -> Js = J0 :: rest -> (forall J, In J Js -> has_shape J n (3 * n)) ->
  (forall J i k, In J Js -> entry J0 i k = Some 0%R -> entry J i k = Some 0%R) ->
  exists M, assemble Js n n T = Ok M /\ s_rows M = T * n /\ s_cols M = T * n /\ (forall o, In o (s_data M) -> o <> None) /\
    forall t s i j J, nth_error Js t = Some J -> s < T -> i < n -> j < n ->
      exists lag now lead, entry J i j = Some lag /\ entry J i (n + j) = Some now /\ entry J i (2 * n + j) = Some lead /\
      s_entry M (t * n + i) (s * n + j) = if Nat.eqb (s + 1) t then lag else if Nat.eqb s t then now else if Nat.eqb s (t + 1) then lead else 0%R.
Proof.
  intros Js n T J0 rest HT EJ HS Hpat. destruct (assemble_spec Js n n J0 rest EJ HS) as (M & M1 & M2 & M3 & M4 & M5). rewrite HT in *.
  exists M. split; [assumption|]. split; [assumption|]. split; [assumption|]. split; [assumption|].
  intros t s i j J HJ Hs Hi Hj. assert (Ht : t < T) by (rewrite <- HT; apply nth_error_Some; congruence).
  assert (Hin : In J Js) by (eapply nth_error_In, HJ). assert (Hin0 : In J0 Js) by (rewrite EJ; left; reflexivity).
  assert (He : forall J', In J' Js -> forall k, k < 3 * n -> entry J' i k = Some (val J' i k)).
  { intros J' HJ' k Hk. destruct (val_nth J' n (3 * n) i k (HS J' HJ') Hi Hk) as (rw & H1 & H2). unfold entry. rewrite H1. exact H2. }
  exists (val J i j), (val J i (n + j)), (val J i (2 * n + j)).
  split; [apply He; [assumption|lia]|]. split; [apply He; [assumption|lia]|]. split; [apply He; [assumption|lia]|].
  rewrite (M5 t s i j Ht Hs Hi Hj). rewrite (nth_error_nth _ _ _ HJ). cbv zeta beta.
  assert (K : forall k, k < 3 * n -> (if Req_EM_T (val J0 i k) 0 then 0%R else val J i k) = val J i k).
  { intros k Hk. destruct (Req_EM_T _ 0) as [E|]; [|reflexivity]. pose proof (Hpat J i k Hin) as Hp. rewrite (He J0 Hin0 k Hk), E in Hp.
    specialize (Hp eq_refl). rewrite (He J Hin k Hk) in Hp. congruence. }
  rewrite !K by lia. reflexivity.
Qed.
Print Assumptions C34_assembled_blocks.

(* one component of the stacked residual as a function of the whole vector *)
Definition residual_at (G : smooth) (r : prepared) (T k : nat) (y : list R) : R :=
  match merit G r (r_problem r) T y with Ok res => nth k res 0%R | Err _ => 0%R end.
(* the compiled equations (steady-state symbols replaced by their formulas) can be differentiated along the path *)
Definition equations_defined (G : smooth) (m : pf_model) (r : prepared) (E : economy) (T : nat) : Prop :=
  forall t eq, t < T -> In eq (q_eqs (r_problem r)) -> defined G (meaning (p_shocks m) E t) eq.
(* a partial derivative of an equation that vanishes in the first period vanishes in every period *)
Definition zeros_stay (G : smooth) (m : pf_model) (r : prepared) (E : economy) (T : nat) : Prop :=
  forall t eq b k, t < T -> In eq (q_eqs (r_problem r)) -> In b (q_vars (r_problem r)) -> (k = -1 \/ k = 0 \/ k = 1)%Z ->
    ev (Ralg G) (meaning (p_shocks m) E 0) (diff (SDate b k) eq) = 0%R -> ev (Ralg G) (meaning (p_shocks m) E t) (diff (SDate b k) eq) = 0%R.
Lemma defined_ext G env env' e : (forall s, In s (atoms e) -> env s = env' s) -> defined G env e -> defined G env' e.
Proof.
  induction e as [z|s|a IHa b IHb|a IHa b IHb|a IH|h k a IH]; intros H D; cbn [defined atoms] in *; try exact I.
  - destruct D. split; [apply IHa|apply IHb]; try assumption; intros; apply H, in_or_app; auto.
  - destruct D. split; [apply IHa|apply IHb]; try assumption; intros; apply H, in_or_app; auto.
  - auto.
  - destruct D. split; [auto|]. rewrite <- (ev_ext (Ralg G) env env' a H). assumption.
Qed.
Theorem C34_jacobian_is_derivative :
  forall G simp steady_state ord m a r y E res J, set_order_ok ord -> simp_ok simp -> 1 <= g_length a ->
  current_shocks m -> NoDup (p_params m) -> distinct_keys (g_paths a) ->
  prepare steady_state ord m a = Ok r -> length (p_eqs m) = length (q_vars (r_problem r)) ->
  follows_request m a E -> variables_from (q_vars (r_problem r)) (g_length a) (r_initial r) (r_terminal r) y E ->
  equations_defined G m r E (g_length a) -> zeros_stay G m r E (g_length a) ->
  system G simp r (g_length a) y = Ok (res, J) ->
  s_rows J = length y /\ s_cols J = length y /\
  forall i k, i < length y -> k < length y ->
    derivable_pt_lim (fun z => residual_at G r (g_length a) i (set_nth k z y)) (nth k y 0%R) (s_entry J i k).
Proof.
  intros G simp ss ord m a r y E res J Ho Hsi HT Hc Hp Hk HP Hsq [HS HQ] HV Hd Hz HJ. pose proof (prepare_inv ss ord m a r HP) as (HC & _).
  destruct (prepared_rows ss ord m a r Ho Hp Hk HP) as [HX HR].
  destruct (substituted ord m (r_problem r) Ho HC) as (eqs & E1 & E2 & f & Ef & _).
  assert (He : length (q_eqs (r_problem r)) = length (q_vars (r_problem r))) by (rewrite E2, Ef, map_length; assumption).
  pose proof (proj1 HV) as Hy. assert (HM : forall t eq s, t < g_length a -> In eq (q_eqs (r_problem r)) -> In s (atoms eq) ->
    env_at (r_problem r) (g_length a) (r_initial r) (r_terminal r) (r_shocks r) (r_params r) y t s = meaning (p_shocks m) E t s).
  { intros t eq s Ht Heq Hs. eapply (env_meaning ord m (r_problem r) Ho HC Hc); try eassumption.
    - destruct HX as [X1 X2]. split; [assumption|]. intros t' Ht'. rewrite (X2 t' Ht'). f_equal. apply map_ext. intro s'. symmetry. now apply HS.
    - destruct HR as [X1 X2]. split; [assumption|]. intros t' Ht'. rewrite (X2 t' Ht'). f_equal. apply map_ext. intro n. symmetry. now apply HQ. }
  destruct (system_ok G simp Hsi (r_problem r) (g_length a) (r_initial r) (r_terminal r) (r_shocks r) (r_params r) y HT Hy He)
    as (r' & J' & S1 & _ & S3 & S4 & _). unfold system in HJ. rewrite HJ in S1. injection S1 as <- <-. rewrite Hy.
  split; [assumption|]. split; [assumption|]. intros i k Hi Hk'.
  refine (derivative_is_entry G simp Hsi ord m (r_problem r) Ho HC (g_length a) (r_initial r) (r_terminal r) y (r_shocks r) (r_params r) Hy res J HT He _ _ HJ i k Hi Hk').
  - intros t eq Ht Heq. eapply defined_ext; [|apply (Hd t eq Ht Heq)]. intros s Hs. symmetry. eapply HM; eassumption.
  - intros t eq v Ht Heq Hv. assert (Hb : exists b k, In b (q_vars (r_problem r)) /\ (k = -1 \/ k = 0 \/ k = 1)%Z /\ v = SDate b k).
    { unfold wrt in Hv. rewrite !in_app_iff, !in_map_iff in Hv. destruct Hv as [(b & <- & Hb)|[(b & <- & Hb)|(b & <- & Hb)]]; [exists b, (-1)%Z|exists b, 0%Z|exists b, 1%Z]; auto. }
    destruct Hb as (b & k' & Hb & Hk0 & ->).
    rewrite (ev_ext (Ralg G) _ (meaning (p_shocks m) E 0) (diff (SDate b k') eq)) by (intros s Hs; apply atoms_diff in Hs; eapply HM; [lia|eassumption|assumption]).
    rewrite (ev_ext (Ralg G) (env_at _ _ _ _ _ _ _ t) (meaning (p_shocks m) E t) (diff (SDate b k') eq)) by (intros s Hs; apply atoms_diff in Hs; eapply HM; [assumption|eassumption|assumption]).
    apply Hz; assumption.
Qed.
Print Assumptions C34_jacobian_is_derivative.

(* Where the pattern of the first period is not the pattern of a later one, entries are lost: K_t K_{t-1} = 0 over two periods at
   the point (0, 3). The equation of period 1 has derivative 3 with respect to K_0; the assembled matrix has 0 there, because
   the derivative of the equation of period 0 with respect to K_{-1} is K_0 = 0. *)
Definition product_pf : pf_model := PM [Mu (pv "K" 0) (pv "K" (-1))] [] [] [] (fun _ => []).
Definition product_args : pf_args := PA 2 (Matrix [[0%R]; [3%R]] 1) [(str "K", 1%R)] [(str "K", 1%R)] [] [] [].
Theorem C34_lost_entries_refuted :
  exists r res J, prepare case_ss id_ord product_pf product_args = Ok r /\ r_guess r = [Some 0%R; Some 3%R] /\
    system expworld (fun e => e) r 2 [0; 3]%R = Ok (res, J) /\
    derivable_pt_lim (fun z => residual_at expworld r 2 1 (set_nth 0 z [0; 3]%R)) 0%R 3%R /\ s_entry J 1 0 = 0%R.
Proof.
  assert (HP : exists r, prepare case_ss id_ord product_pf product_args = Ok r /\ r_guess r = [Some 0%R; Some 3%R] /\
    r_problem r = PP [Mu (pv "K" 0) (pv "K" (-1))] [str "K"] [] [] /\ r_initial r = [1%R] /\ r_terminal r = [1%R]).
  { eexists. split; [vm_compute; reflexivity|]. repeat split. }
  destruct HP as (r & HP & Hg & Hr & Hi & Ht).
  destruct (system_ok expworld (fun e => e) id_simp_ok (r_problem r) 2 (r_initial r) (r_terminal r) (r_shocks r) (r_params r) [0; 3]%R)
    as (res & J & S1 & _ & _ & _ & _ & S6); [lia|rewrite Hr; reflexivity|rewrite Hr; reflexivity|].
  exists r, res, J. split; [exact HP|]. split; [exact Hg|]. split; [exact S1|]. split.
  - eapply derivable_ext with (f := fun z => (z * 3)%R).
    + intro z. unfold residual_at, merit. rewrite Hr, Hi, Ht. cbn. ring.
    + assert (H : derivable_pt_lim (fun z => z * 3)%R 0 (1 * 3 + 0 * 0)%R).
      { apply (derivable_pt_lim_mult (fun z => z) (fun _ => 3%R) 0 1 0); [apply derivable_pt_lim_id|apply derivable_pt_lim_const]. }
      replace (1 * 3 + 0 * 0)%R with 3%R in H by ring. exact H.
  - specialize (S6 1 0 0 0 (Mu (pv "K" 0) (pv "K" (-1))) (str "K")). rewrite Hr in S6. cbn [q_vars q_eqs length Nat.mul Nat.add] in S6.
    rewrite S6; [|lia|lia|reflexivity|reflexivity]. cbn [Nat.eqb Nat.add]. destruct (Req_EM_T _ 0) as [|N]; [reflexivity|].
    exfalso. apply N. rewrite Hi, Ht. vm_compute. ring.
Qed.
Print Assumptions C34_lost_entries_refuted.
(* the hypotheses of the derivative theorem are met by the model of C33_case, at every point and for every length: its partial
   derivatives are numbers and parameters *)
Theorem C34_case : forall r E T, r_problem r = PP [Ad (pv "K" 0) (Ng (Ad (Mu (Sy (SPar (str "rho"))) (pv "K" (-1))) (pv "eps" 0)));
      Ad (pv "C" 0) (Ng (Ad (pv "K" 1) (Sy (SPar (str "rho")))))] [str "C"; str "K"] [SDate (str "eps") 0] [str "rho"] ->
  (forall t, e_par E (str "rho") t = 2%R) ->
  equations_defined expworld case_pf r E T /\ zeros_stay expworld case_pf r E T.
Proof.
  intros r E T Hr Hrho. unfold equations_defined, zeros_stay. rewrite Hr. cbn [q_eqs q_vars]. split.
  - intros t eq _ [<-|[<-|[]]]; cbn; tauto.
  - intros t eq b k _ He [<-|[<-|[]]] [-> | [-> | ->]]; destruct He as [<-|[<-|[]]]; cbn; unfold meaning; cbn; rewrite ?Hrho; lra.
Qed.
