(* Perfect foresight: boundaries, the separately compiled merit function, validation, parameters and shocks, initial guesses. *)
From Verif Require Import Common Sort_Lib SymDict_Model Sym_Model Sym_Spec Sym_Proofs Sym_More Build_Model Build_Order Lin_Model Lin_Spec Lin_Proofs Lin_Main Lin_Props
  PF_Model PF_Spec PF_Assemble PF_Proofs PF_System PF_Request PF_Prepare PF_Props.
From Coq Require Import Reals Lra Permutation.
Local Open Scope list_scope.

(* ================= C77: boundary values ================= *)
(* vals are the boundary values of period t: conditions first, the steady state where the conditions are silent *)
Definition boundary_values_ok (steady_state : dict R -> result (dict R)) (a : pf_args) (conds : dict R) (t : nat)
    (names : list chars) (vals : list R) : Prop :=
  length vals = length names /\
  forall j b, nth_error names j = Some b -> exists x, nth_error vals j = Some x /\
    (forall v, unambiguous conds -> given conds b v -> x = v) /\
    ((forall v, ~ given conds b v) -> exists d, boundary_steady_state steady_state a t d /\
       forall v, steady_value d b v -> x = v).
Lemma boundary_meets ss a conds t names d v : NoDup names -> boundary names (normalize conds) d = Ok v ->
  (forall d', d = Some d' -> covers names (normalize conds) = false -> boundary_steady_state ss a t d') ->
  boundary_values_ok ss a conds t names v.
Proof.
  intros Hn HB Hd. destruct (boundary_spec _ _ _ _ Hn (normalize_nodup conds) HB) as [L S]. split; [assumption|].
  intros j b Hj. destruct (S j b Hj) as [S1 S2]. destruct (dlook b (normalize conds)) as [x|] eqn:E.
  - exists x. split; [now apply S1|]. split.
    + intros v' Hu Hg. apply (Hu b); [now apply normalize_given|assumption].
    + intro Hno. destruct (Hno x). now apply normalize_given.
  - destruct (S2 eq_refl) as (d' & -> & C & Hv). exists (ss_or_one d' b). split; [assumption|]. split.
    + intros v' Hu Hg. apply dlook_None in E. destruct E. apply normalize_keys. eauto.
    + intros _. exists d'. split; [now apply Hd|]. intros v' [Hs|[Hs Hs']]; unfold ss_or_one; rewrite Hs; [reflexivity|]. now rewrite Hs'.
Qed.
Theorem C77_boundaries :
  forall steady_state ord m a r, set_order_ok ord -> prepare steady_state ord m a = Ok r ->
  boundary_values_ok steady_state a (g_initial a) 0 (q_vars (r_problem r)) (r_initial r) /\
  boundary_values_ok steady_state a (g_terminal a) (g_length a - 1) (q_vars (r_problem r)) (r_terminal r).
Proof.
  intros ss ord m a r Ho HP. destruct (prepare_inv ss ord m a r HP) as (HC & _ & _ & (i & HI & Hi) & (t & HT & Ht) & _).
  destruct (compile_facts ord m (r_problem r) Ho HC) as (Hn & _). split; eapply boundary_meets; eassumption.
Qed.
Print Assumptions C77_boundaries.
(* the paths of the answer: the conditions of one boundary never touch the other *)
Theorem C77_case :
  exists r, prepare case_ss id_ord case_pf case_args = Ok r /\ q_vars (r_problem r) = [str "C"; str "K"] /\
    given (g_initial case_args) (str "K") 3%R /\ unambiguous (g_initial case_args) /\ r_initial r = [4%R; 3%R] /\ r_terminal r = [4%R; 2%R].
Proof.
  eexists. split; [vm_compute; reflexivity|]. split; [reflexivity|]. split; [exists (str "K_ss"); split; [left; reflexivity|reflexivity]|].
  split; [|split; reflexivity]. intros b x x' (k & [H|[]] & _) (k' & [H'|[]] & _). congruence.
Qed.
(* What "the conditions are silent" leaves open: a variable the steady-state dictionary does not mention starts at 1. *)
Theorem C77_missing_variable_is_one_refuted :
  exists r, prepare case_ss id_ord case_pf (PA 2 (Steady [(str "K_ss", 2%R)]) [] [] [] [] []) = Ok r /\
    q_vars (r_problem r) = [str "C"; str "K"] /\ r_initial r = [1%R; 2%R] /\ r_terminal r = [1%R; 2%R].
Proof. eexists. split; [vm_compute; reflexivity|]. repeat split. Qed.
(* "K" and "K_ss" in one dictionary are the same condition; the later one is used, without a message *)
Theorem C77_two_spellings_refuted :
  exists r r', prepare case_ss id_ord case_pf (PA 2 No_guess [(str "K", 3%R); (str "K_ss", 5%R)] [] [] [] []) = Ok r /\
    prepare case_ss id_ord case_pf (PA 2 No_guess [(str "K_ss", 5%R); (str "K", 3%R)] [] [] [] []) = Ok r' /\
    nth_error (r_initial r) 1 = Some 5%R /\ nth_error (r_initial r') 1 = Some 3%R.
Proof. eexists. eexists. split; [vm_compute; reflexivity|]. split; [vm_compute; reflexivity|]. split; reflexivity. Qed.
(* A steady-state dictionary passed as the guess is used at both ends, also when a parameter path ends elsewhere: with rho going
   from 2 to 3 and K_ss = rho, the terminal value is 2 with the dictionary and 3 without. *)
Definition rho_ss : dict R -> result (dict R) := fun u =>
  match dlook (str "rho") u with Some x => Ok [(str "K_ss", x); (str "C_ss", x)] | None => Ok [] end.
Definition rho_path : dict path := [(str "rho", Array [2%R; 3%R])].
Theorem C77_dictionary_ignores_paths_refuted :
  exists r r', prepare rho_ss id_ord case_pf (PA 2 (Steady [(str "K_ss", 2%R); (str "C_ss", 2%R)]) [] [] [] rho_path []) = Ok r /\
    r_terminal r = [2%R; 2%R] /\
    prepare rho_ss id_ord case_pf (PA 2 (Matrix [[0%R; 0%R]; [0%R; 0%R]] 2) [] [] [] rho_path []) = Ok r' /\
    r_initial r' = [2%R; 2%R] /\ r_terminal r' = [3%R; 3%R].
Proof.
  assert (Hs : same_values [(str "rho", 3%R)] [(str "rho", 2%R)] = false).
  { unfold same_values. cbn [combine forallb fst snd]. destruct (Req_EM_T 3 2) as [E|]; [lra|reflexivity]. }
  eexists. eexists. split; [vm_compute; reflexivity|]. split; [reflexivity|]. split.
  - unfold prepare. replace (compile id_ord case_pf) with (Ok (PP [Ad (pv "K" 0) (Ng (Ad (Mu (Sy (SPar (str "rho"))) (pv "K" (-1))) (pv "eps" 0)));
      Ad (pv "C" 0) (Ng (Ad (pv "K" 1) (Sy (SPar (str "rho")))))] [str "C"; str "K"] [SDate (str "eps") 0] [str "rho"])) by (symmetry; apply (proj1 C33_case)).
    cbn [bind]. change (boundary_kwargs (g_paths (PA 2 (Matrix [[0%R; 0%R]; [0%R; 0%R]] 2) [] [] [] rho_path []))) with (Ok ([(str "rho", 2%R)], [(str "rho", 3%R)])).
    cbn [bind g_guess]. change (Nat.eqb (length [[0%R; 0%R]; [0%R; 0%R]]) _ && _)%bool with true. cbv iota. unfold ss_if_needed.
    match goal with |- context [negb ?b] => change (negb b) with true end. cbv iota. rewrite Hs. vm_compute. reflexivity.
  - split; reflexivity.
Qed.

(* ================= C78: the merit function ================= *)
(* The residual function handed to the line search is compiled on its own, and the sets behind it may be walked in another order.
   It is the residual of the system whenever no two names of the model have the same natural sort key. *)
Definition distinct_sort_keys (m : pf_model) : Prop :=
  forall s s', mentioned m s -> mentioned m s' -> natural_key (par_name s) = natural_key (par_name s') -> par_name s = par_name s'.
Theorem C78_merit_is_the_residual :
  forall G simp steady_state ord ord' m a r P' y res J, set_order_ok ord -> set_order_ok ord' -> simp_ok simp ->
  (forall k v, In (k, v) (p_ss m) -> param_only v) -> distinct_sort_keys m -> current_shocks m ->
  (forall s, mentioned m s -> match s with SDate _ _ => True | _ => ~ In (par_name s) (p_shocks m) end) ->
  prepare steady_state ord m a = Ok r -> compile ord' m = Ok P' -> 1 <= g_length a ->
  length (p_eqs m) = length (q_vars (r_problem r)) -> length y = g_length a * length (p_eqs m) ->
  system G simp r (g_length a) y = Ok (res, J) -> merit G r P' (g_length a) y = Ok res.
Proof.
  intros G simp ss ord ord' m a r P' y res J Ho Ho' Hsi Hpo Hk Hc Hn HP HC' HT Hsq Hy HS.
  destruct (prepare_inv ss ord m a r HP) as (HC & _).
  rewrite (compile_canonical ord ord' m (r_problem r) Ho Ho' Hpo Hk Hc Hn HC) in HC'. injection HC' as <-.
  destruct (substituted ord m (r_problem r) Ho HC) as (eqs & E1 & E2 & f & Ef & _).
  destruct (system_ok G simp Hsi (r_problem r) (g_length a) (r_initial r) (r_terminal r) (r_shocks r) (r_params r) y HT) as (r'' & J'' & S1 & S2 & _).
  { rewrite <- Hsq. assumption. } { rewrite E2, Ef, map_length. assumption. }
  unfold system in HS. rewrite HS in S1. injection S1 as <- <-. exact S2.
Qed.
Print Assumptions C78_merit_is_the_residual.
Theorem C78_case : (forall k v, In (k, v) (p_ss case_pf) -> param_only v) /\
  (forall s, mentioned case_pf s -> In (par_name s) [str "K"; str "C"; str "eps"; str "rho"]) /\ distinct_sort_keys case_pf /\
  (forall s, mentioned case_pf s -> match s with SDate _ _ => True | _ => ~ In (par_name s) (p_shocks case_pf) end).
Proof.
  assert (Hm : forall s, mentioned case_pf s -> In s [SDate (str "K") 0; SPar (str "rho"); SDate (str "K") (-1); SDate (str "eps") 0; SDate (str "C") 0; SDate (str "K") 1; SSs (str "K")]).
  { intros s [(eq & He & Hs)|(k & v & Hkv & Hs)].
    - cbn in He. destruct He as [<-|[<-|[]]]; cbn in Hs; repeat (destruct Hs as [<-|Hs]; [cbn; tauto|]); destruct Hs.
    - cbn in Hkv. destruct Hkv as [Hkv|[]]. injection Hkv as <- <-. cbn in Hs. destruct Hs as [<-|[]]. cbn. tauto. }
  split; [|split; [|split]].
  - intros k v [H|[]]. injection H as <- <-. intros s [<-|[]]. eexists; reflexivity.
  - intros s Hs. apply Hm in Hs. cbn in Hs. repeat (destruct Hs as [<-|Hs]; [cbn; tauto|]). destruct Hs.
  - intros s s' Hs Hs'. apply Hm in Hs, Hs'. cbn in Hs, Hs'.
    repeat (destruct Hs as [<-|Hs]; [repeat (destruct Hs' as [<-|Hs']; [vm_compute; congruence|]); destruct Hs'|]). destruct Hs.
  - intros s Hs. apply Hm in Hs. cbn in Hs. repeat (destruct Hs as [<-|Hs]; [try exact I; cbn; intros [H|[]]; discriminate H|]). destruct Hs.
Qed.

(* ================= C79: validation ================= *)
Definition valid_request (a : pf_args) (vars shocks params : list chars) : Prop :=
  (forall k x, In (k, x) (g_initial a) -> In (removesuffix k) vars) /\
  (forall k x, In (k, x) (g_terminal a) -> In (removesuffix k) vars) /\
  (forall k p, In (k, p) (g_shocks a) -> In k shocks /\ length p = g_length a) /\
  (forall k p, In (k, p) (g_paths a) -> In k params /\ match p with Array l => length l = g_length a | _ => True end).
Definition request_of (a : pf_args) (P : problem) : Prop := valid_request a (q_vars P) (map par_name (q_shocks P)) (q_params P).
Lemma keys_known c names : (forall k, In k (map fst (normalize c)) -> In k names) <-> (forall k x, In (k, x) c -> In (removesuffix k) names).
Proof.
  split.
  - intros H k x Hin. apply H, normalize_keys. exists x, k. auto.
  - intros H b Hb. apply normalize_keys in Hb. destruct Hb as (x & k & Hin & <-). eapply H, Hin.
Qed.
Lemma valid_iff a P : validate a (normalize (g_initial a)) (normalize (g_terminal a)) P = Ok tt <-> request_of a P.
Proof. rewrite validate_ok, !keys_known. reflexivity. Qed.
Theorem C79_accepted_requests_are_valid :
  forall steady_state ord m a r, prepare steady_state ord m a = Ok r -> request_of a (r_problem r).
Proof. intros ss ord m a r HP. apply valid_iff. now destruct (prepare_inv ss ord m a r HP) as (_ & _ & HV & _). Qed.
(* With conditions for every variable at both ends and a guess that is an array or a table, no steady state is needed, and the
   request is accepted exactly when it is valid; what is wrong is reported as ValueError. *)
Definition all_given (c : dict R) (vars : list chars) : Prop := forall b, In b vars -> exists x, given c b x.
Definition proper_guess (a : pf_args) (vars : list chars) : Prop :=
  match g_guess a with
  | Frame cols rows => length rows = g_length a /\ NoDup cols
  | Matrix rows n => length rows = g_length a /\ n = length vars
  | _ => False
  end.
Lemma unique_ok l : NoDup l -> (fix unique l := match l with [] => true | c :: l' => negb (existsb (chars_eqb c) l') && unique l' end) l = true.
Proof.
  induction 1 as [|c l Hc Hl IH]; [reflexivity|]. cbn. rewrite IH, andb_true_r. destruct (existsb (chars_eqb c) l) eqn:E; [|reflexivity].
  apply existsb_chars in E. contradiction.
Qed.
Lemma validate_cases a i t P : validate a i t P = Ok tt \/ validate a i t P = Err ValueError.
Proof. destruct (validate a i t P) as [[]|e] eqn:E; [auto|]. apply validate_err in E. subst. auto. Qed.
Theorem C79_valid_requests_are_accepted :
  forall steady_state ord m a P, compile ord m = Ok P ->
  (forall n, In n (q_params P) -> exists x, dlook n (p_defaults m []) = Some x) ->
  all_given (g_initial a) (q_vars P) -> all_given (g_terminal a) (q_vars P) -> proper_guess a (q_vars P) ->
  (forall k p, In (k, p) (g_paths a) -> match p with Number _ => True | Array l => l <> [] | Sequence _ => False end) ->
  (request_of a P -> exists r, prepare steady_state ord m a = Ok r /\ r_problem r = P) /\
  (~ request_of a P -> prepare steady_state ord m a = Err ValueError).
Proof.
  intros ss ord m a P HC Hd Hi Ht Hg Hp.
  assert (HK : exists ik tk, boundary_kwargs (g_paths a) = Ok (ik, tk)).
  { unfold boundary_kwargs. rewrite (mapM_all _ (fun kv => match snd kv with Array (x :: l) => (fst kv, x, last (x :: l) 0%R) | Number x => (fst kv, x, x) | _ => (fst kv, 0%R, 0%R) end)).
    - cbn [bind]. eauto.
    - intros (k & p) Hin. specialize (Hp k p Hin). destruct p as [x|[|x l]|l]; [reflexivity|congruence|reflexivity|destruct Hp]. }
  destruct HK as (ik & tk & HK).
  assert (Ci : covers (q_vars P) (normalize (g_initial a)) = true) by (apply covers_iff; intros b Hb; apply normalize_keys; auto).
  assert (Ct : covers (q_vars P) (normalize (g_terminal a)) = true) by (apply covers_iff; intros b Hb; apply normalize_keys; auto).
  unfold prepare. rewrite HC. cbn [bind]. rewrite HK. cbn [bind]. rewrite Ci, Ct. cbn [negb].
  assert (HG : exists g0, (match g_guess a with
           | Steady d => Ok (map Some (tile (g_length a) (ss_array d (q_vars P))), Some d, Some d)
           | Frame columns rows =>
               if Nat.eqb (length rows) (g_length a)
               then v <- reindex columns rows (q_vars P) ;;
                    sss <- ss_if_needed ss a false false ik tk ;; Ok (concat v, fst sss, snd sss)
               else Err ValueError
           | Matrix rows n_cols =>
               if (Nat.eqb (length rows) (g_length a) && Nat.eqb n_cols (length (q_vars P)))%bool
               then sss <- ss_if_needed ss a false false ik tk ;; Ok (map Some (concat rows), fst sss, snd sss)
               else Err ValueError
           | No_guess =>
               d <- compute_ss ss a ik ;;
               d' <- (if same_values tk ik then Ok d else compute_ss ss a tk) ;;
               Ok (map Some (tile (g_length a) (ss_array d (q_vars P))), Some d, Some d')
           end) = Ok (g0, None, None)).
  { unfold proper_guess in Hg. destruct (g_guess a) as [|d0|cols rows|rows nc]; try destruct Hg.
    - rewrite H, Nat.eqb_refl. unfold reindex. rewrite (unique_ok cols H0). cbn. eauto.
    - subst nc. rewrite H, !Nat.eqb_refl. cbn. eauto. }
  destruct HG as (g0 & HG). rewrite HG. cbn [bind].
  split; intro HV.
  - pose proof (proj2 (valid_iff a P) HV) as HV'. rewrite HV'. cbn [bind]. apply validate_ok in HV'. destruct HV' as (V1 & V2 & V3 & V4).
    destruct (boundary_ok (q_vars P) (normalize (g_initial a)) None V1 ltac:(congruence)) as (yi & ->). cbn [bind].
    destruct (boundary_ok (q_vars P) (normalize (g_terminal a)) None V2 ltac:(congruence)) as (yt & ->). cbn [bind].
    destruct (shock_matrix_ok a (map par_name (q_shocks P)) (fun k p H => proj2 (V3 k p H))) as (x & ->). cbn [bind].
    unfold build_param_matrix. rewrite (mapM_all _ (fun n => match dlook n (p_defaults m []) with Some x => x | None => 0%R end)).
    2:{ intros n Hn. destruct (Hd n Hn) as (v & ->). reflexivity. }
    cbn [bind]. destruct (set_paths_ok (g_length a) (q_params P) (g_paths a)) with (cols := map (fun x => repeat x (g_length a)) (map (fun n => match dlook n (p_defaults m []) with Some x => x | None => 0%R end) (q_params P))) as (cols & ->).
    { intros k p Hin. split; [exact (proj1 (V4 k p Hin))|]. pose proof (proj2 (V4 k p Hin)) as Hq. specialize (Hp k p Hin). destruct p; cbn; [exact I|assumption|destruct Hp]. }
    cbn [bind]. eexists. split; reflexivity.
  - destruct (validate_cases a (normalize (g_initial a)) (normalize (g_terminal a)) P) as [E|E]; [destruct HV; now apply valid_iff|].
    rewrite E. reflexivity.
Qed.
Print Assumptions C79_valid_requests_are_accepted.
Theorem C79_case :
  let a := PA 2 (Matrix [[0%R; 0%R]; [0%R; 0%R]] 2) [(str "K", 3%R); (str "C", 1%R)] [(str "K_ss", 3%R); (str "C", 1%R)] [(str "eps", [5%R; 7%R])] [(str "rho", Array [2%R; 2%R])] [] in
  all_given (g_initial a) [str "C"; str "K"] /\ all_given (g_terminal a) [str "C"; str "K"] /\ proper_guess a [str "C"; str "K"] /\
  valid_request a [str "C"; str "K"] [str "eps"] [str "rho"].
Proof.
  cbv zeta. split; [|split; [|split]].
  - intros b [<-|[<-|[]]]; [exists 1%R, (str "C")|exists 3%R, (str "K")]; cbn; auto.
  - intros b [<-|[<-|[]]]; [exists 1%R, (str "C")|exists 3%R, (str "K_ss")]; cbn; auto.
  - split; reflexivity.
  - split; [|split; [|split]].
    + intros k x [H|[H|[]]]; injection H as <- _; cbn; auto.
    + intros k x [H|[H|[]]]; injection H as <- _; cbn; auto.
    + intros k p [H|[]]; injection H as <- <-; cbn; auto.
    + intros k p [H|[]]; injection H as <- <-; cbn; auto.
Qed.
(* a path given as a plain list (not an array) never gets that far *)
Theorem C79_list_path_refuted : forall steady_state ord m a P k l, compile ord m = Ok P -> g_paths a = [(k, Sequence l)] ->
  prepare steady_state ord m a = Err TypeError.
Proof. intros ss ord m a P k l HC Hp. unfold prepare. rewrite HC. cbn [bind]. rewrite Hp. reflexivity. Qed.

(* ================= C80: shocks and parameters ================= *)
Theorem C80_requested_values :
  forall steady_state ord m a r, set_order_ok ord -> NoDup (p_params m) -> distinct_keys (g_paths a) ->
  prepare steady_state ord m a = Ok r ->
  length (r_shocks r) = g_length a /\ length (r_params r) = g_length a /\
  (forall t i s, t < g_length a -> nth_error (q_shocks (r_problem r)) i = Some s -> entry (r_shocks r) t i = Some (user_shock a (par_name s) t)) /\
  (forall t i n, t < g_length a -> nth_error (q_params (r_problem r)) i = Some n -> entry (r_params r) t i = Some (user_param m a n t)).
Proof.
  intros ss ord m a r Ho Hp Hk HP. destruct (prepared_rows ss ord m a r Ho Hp Hk HP) as [[X1 X2] [R1 R2]].
  split; [assumption|]. split; [assumption|]. split.
  - intros t i s Ht Hi. unfold entry. rewrite (X2 t Ht), nth_error_map, Hi. reflexivity.
  - intros t i n Ht Hi. unfold entry. rewrite (R2 t Ht), nth_error_map, Hi. reflexivity.
Qed.
Print Assumptions C80_requested_values.
Theorem C80_case :
  exists r, prepare case_ss id_ord case_pf (PA 2 No_guess [] [] [(str "eps", [5%R; 7%R])] [(str "rho", Number 9%R)] []) = Ok r /\
    r_shocks r = [[5%R]; [7%R]] /\ r_params r = [[9%R]; [9%R]].
Proof.
  assert (Hs : same_values [(str "rho", 9%R)] [(str "rho", 9%R)] = true).
  { unfold same_values. cbn [combine forallb fst snd]. destruct (Req_EM_T 9 9) as [|N]; [reflexivity|lra]. }
  eexists. split.
  - unfold prepare. replace (compile id_ord case_pf) with (Ok (PP [Ad (pv "K" 0) (Ng (Ad (Mu (Sy (SPar (str "rho"))) (pv "K" (-1))) (pv "eps" 0)));
      Ad (pv "C" 0) (Ng (Ad (pv "K" 1) (Sy (SPar (str "rho")))))] [str "C"; str "K"] [SDate (str "eps") 0] [str "rho"])) by (symmetry; apply (proj1 C33_case)).
    cbn [bind]. change (boundary_kwargs (g_paths (PA 2 No_guess [] [] [(str "eps", [5%R; 7%R])] [(str "rho", Number 9%R)] []))) with (Ok ([(str "rho", 9%R)], [(str "rho", 9%R)])).
    cbn [bind g_guess]. rewrite Hs. vm_compute. reflexivity.
  - split; reflexivity.
Qed.
(* A deterministic parameter is not recomputed along a path of the parameter it is defined from: phi = 2 rho, rho moved from 2 to 3. *)
Definition double_pf : pf_model :=
  PM [Ad (pv "K" 0) (Ng (Mu (Sy (SPar (str "phi"))) (Sy (SPar (str "rho")))))] [] [str "rho"; str "phi"] []
     (fun u => match dlook (str "rho") u with Some x => [(str "rho", x); (str "phi", 2 * x)%R] | None => [(str "rho", 2%R); (str "phi", 2 * 2)%R] end).
Theorem C80_deterministic_parameters_stay_refuted :
  exists r, prepare case_ss id_ord double_pf (PA 1 (Matrix [[0%R]] 1) [(str "K", 0%R)] [(str "K", 0%R)] [] [(str "rho", Number 3%R)] []) = Ok r /\
    q_params (r_problem r) = [str "rho"; str "phi"] /\ r_params r = [[3%R; (2 * 2)%R]] /\
    dlook (str "phi") (p_defaults double_pf [(str "rho", 3%R)]) = Some (2 * 3)%R.
Proof. eexists. split; [vm_compute; reflexivity|]. repeat split. Qed.
(* A shock written with a lag gets its value of the current period. *)
Definition lagged_pf : pf_model := PM [Ad (pv "K" 0) (Ng (pv "eps" (-1)))] [str "eps"] [] [] (fun _ => []).
Theorem C80_lagged_shock_refuted :
  exists r res, prepare case_ss id_ord lagged_pf (PA 2 (Matrix [[0%R]; [0%R]] 1) [(str "K", 0%R)] [(str "K", 0%R)] [(str "eps", [5%R; 7%R])] [] []) = Ok r /\
    merit expworld r (r_problem r) 2 [5; 7]%R = Ok res /\ forall x, In x res -> x = 0%R.
Proof.
  eexists. eexists. split; [vm_compute; reflexivity|]. split; [cbn; reflexivity|].
  intros x Hx. cbn in Hx. repeat (destruct Hx as [<-|Hx]; [cbn; ring|]). destruct Hx.
Qed.
(* An equation that mentions a symbol that is no variable, no shock and no parameter of the model (a calibrated parameter, which is not
   among params + deterministic_params) cannot be compiled. *)
Theorem C80_calibrated_parameter_refuted :
  forall steady_state ord m a n eq, set_order_ok ord -> In eq (p_eqs m) -> In (SPar n) (atoms eq) -> ~ In n (p_params m) ->
  p_ss m = [] -> (forall e s, In e (p_eqs m) -> In s (atoms e) -> is_ss s = false) ->
  exists e, prepare steady_state ord m a = Err e.
Proof.
  intros ss ord m a n eq Ho He Hn Hp Hss Hno. destruct (prepare ss ord m a) as [r|e] eqn:HP; [|eauto]. exfalso.
  destruct (prepare_inv ss ord m a r HP) as (HC & _). destruct (compile_facts ord m (r_problem r) Ho HC) as (_ & _ & _ & _ & Q5 & _ & Q7).
  assert (Heq : q_eqs (r_problem r) = p_eqs m).
  { revert HC. unfold compile. unfold substitute_ss. replace (ss_atoms (p_eqs m)) with (@nil sym).
    - destruct (ord []) as [|s l] eqn:Eo.
      + cbn [bind]. destruct (classify ord (p_eqs m) (p_shocks m)) as [[[[? ?] ?] ?]|]; [|discriminate]. cbn [bind]. destruct (forallb _ _); [|discriminate]. intro H. injection H as <-. reflexivity.
      + pose proof (Ho []) as H1. rewrite Eo in H1. cbn in H1. apply Permutation_sym, Permutation_nil in H1. discriminate.
    - symmetry. unfold ss_atoms. destruct (filter is_ss (flat_map atoms (p_eqs m))) as [|s l] eqn:E; [reflexivity|].
      assert (H : In s (filter is_ss (flat_map atoms (p_eqs m)))) by (rewrite E; left; reflexivity).
      apply filter_In in H. destruct H as [H1 H2]. apply in_flat_map in H1. destruct H1 as (e & H1 & H3). rewrite (Hno e s H1 H3) in H2. discriminate. }
  rewrite Heq in Q7. specialize (Q7 eq (SPar n) He Hn). cbn in Q7. apply Hp, Q5, Q7.
Qed.

(* ================= C81: make_piecewise_x0 ================= *)
Lemma seq_at T t : t < T -> nth_error (seq 0 T) t = Some t.
Proof. intro H. rewrite (nth_error_nth' _ 0) by (rewrite seq_length; assumption). rewrite seq_nth by assumption. reflexivity. Qed.
Lemma ss_array_at d names j b : nth_error names j = Some b -> nth_error (ss_array d names) j = Some (ss_or_one d b).
Proof. intro H. unfold ss_array. rewrite nth_error_map, H. reflexivity. Qed.
Lemma steady_ss_or_one d b v : steady_value d b v -> ss_or_one d b = v.
Proof. unfold ss_or_one. intros [-> | [-> ->]]; reflexivity. Qed.
(* T rows, one column per name; every entry lies between the two steady-state values; old values before the transition, new ones
   after it; a transition of two or more periods starts at the old values, ends at the new ones and moves by equal steps *)
Theorem C81_piecewise_guess :
  forall ss0 ss1 T names start n, let '(cols, rows) := piecewise_x0 ss0 ss1 T (Some names) (Some start) n in
  cols = names /\ has_shape rows T (length names) /\
  forall t j b v0 v1, t < T -> nth_error names j = Some b -> steady_value ss0 b v0 -> steady_value ss1 b v1 ->
    exists x, entry rows t j = Some x /\ (Rmin v0 v1 <= x <= Rmax v0 v1)%R /\
      (t < start -> x = v0) /\ (start + n <= t -> x = v1) /\
      (start <= t < start + n -> start + n <= T -> 2 <= n -> x = (v0 + INR (t - start) * ((v1 - v0) / INR (n - 1)))%R).
Proof.
  intros ss0 ss1 T names start n. unfold piecewise_x0. set (stop := Nat.min (start + n) T). set (k := stop - start). split; [reflexivity|].
  assert (Hrow : forall t, length (if (Nat.leb start t && Nat.ltb t stop)%bool
                 then if Nat.eqb k 1 then ss_array ss1 names
                      else map2 (fun a b => ((1 - weight k (t - start)) * a + weight k (t - start) * b)%R) (ss_array ss0 names) (ss_array ss1 names)
                 else if Nat.leb stop t then ss_array ss1 names else ss_array ss0 names) = length names).
  { intro t. assert (La : forall d, length (ss_array d names) = length names) by (intro; apply map_length).
    destruct (_ && _)%bool; [destruct (Nat.eqb k 1)|destruct (Nat.leb stop t)]; try apply La. rewrite map2_length, !La. lia. }
  split.
  { split; [rewrite map_length, seq_length; reflexivity|]. intros rw Hrw. apply in_map_iff in Hrw. destruct Hrw as (t & <- & _). apply Hrow. }
  intros t j b v0 v1 Ht Hj H0 H1. unfold entry. rewrite nth_error_map, (seq_at T t Ht). cbn [option_map].
  apply steady_ss_or_one in H0, H1. pose proof (ss_array_at ss0 names j b Hj) as A0. pose proof (ss_array_at ss1 names j b Hj) as A1. rewrite H0 in A0. rewrite H1 in A1.
  pose proof (Rmin_l v0 v1). pose proof (Rmin_r v0 v1). pose proof (Rmax_l v0 v1). pose proof (Rmax_r v0 v1).
  destruct (Nat.leb_spec start t) as [Hs|Hs]; destruct (Nat.ltb_spec t stop) as [Hst|Hst]; cbn [andb].
  - destruct (Nat.eqb_spec k 1) as [E|E].
    + exists v1. split; [assumption|]. split; [lra|]. split; [lia|]. split; [reflexivity|]. subst k stop. lia.
    + assert (Hk : t - start < k /\ 2 <= k) by (subst k; lia).
      exists ((1 - weight k (t - start)) * v0 + weight k (t - start) * v1)%R. split.
      { assert (Hn0 : nth_error (map2 (fun a b => ((1 - weight k (t - start)) * a + weight k (t - start) * b)%R) (ss_array ss0 names) (ss_array ss1 names)) j = Some ((1 - weight k (t - start)) * v0 + weight k (t - start) * v1)%R).
        { revert A0 A1. generalize (ss_array ss0 names) (ss_array ss1 names). clear. intros l l'. revert l' j. induction l as [|x l IH]; intros [|y l'] [|j]; cbn; try discriminate; intros; [congruence|now apply IH]. }
        exact Hn0. }
      destruct (weight_bounds k (t - start)) as [W1 W2]; [lia|lia|]. split; [split|].
      * apply Rle_trans with ((1 - weight k (t - start)) * Rmin v0 v1 + weight k (t - start) * Rmin v0 v1)%R; [lra|]. apply Rplus_le_compat; apply Rmult_le_compat_l; lra.
      * apply Rle_trans with ((1 - weight k (t - start)) * Rmax v0 v1 + weight k (t - start) * Rmax v0 v1)%R; [|lra]. apply Rplus_le_compat; apply Rmult_le_compat_l; lra.
      * split; [lia|]. split; [subst stop; lia|]. intros _ Hle Hn2. assert (Ek : k = n) by (subst k stop; lia). rewrite Ek. unfold weight. field. apply not_0_INR. lia.
  - destruct (Nat.leb_spec stop t) as [Hle|]; [|lia]. exists v1. split; [assumption|]. split; [lra|]. split; [lia|]. split; [reflexivity|]. subst stop. lia.
  - destruct (Nat.leb_spec stop t) as [Hle|]; [lia|]. exists v0. split; [assumption|]. split; [lra|]. split; [reflexivity|]. split; [lia|]. lia.
  - subst stop. lia.
Qed.
Print Assumptions C81_piecewise_guess.
(* a transition of one period is a step *)
Theorem C81_step : forall ss0 ss1 T names start t j b v0 v1, t < T -> nth_error names j = Some b -> steady_value ss0 b v0 -> steady_value ss1 b v1 ->
  entry (snd (piecewise_x0 ss0 ss1 T (Some names) (Some start) 1)) t j = Some (if Nat.ltb t start then v0 else v1).
Proof.
  intros ss0 ss1 T names start t j b v0 v1 Ht Hj H0 H1. apply steady_ss_or_one in H0, H1.
  pose proof (ss_array_at ss0 names j b Hj) as A0. pose proof (ss_array_at ss1 names j b Hj) as A1. rewrite H0 in A0. rewrite H1 in A1.
  unfold piecewise_x0, entry. cbn [snd]. rewrite nth_error_map, (seq_at T t Ht). cbn [option_map].
  destruct (Nat.ltb_spec t start) as [Hs|Hs].
  - destruct (Nat.leb_spec start t) as [|_]; [lia|]. cbn [andb]. destruct (Nat.leb_spec (Nat.min (start + 1) T) t) as [|_]; [lia|assumption].
  - destruct (Nat.leb_spec start t) as [_|]; [|lia]. destruct (Nat.ltb_spec t (Nat.min (start + 1) T)) as [Hl|Hl]; cbn [andb].
    + replace (Nat.min (start + 1) T - start) with 1 by lia. cbn. assumption.
    + destruct (Nat.leb_spec (Nat.min (start + 1) T) t) as [_|]; [assumption|lia].
Qed.
(* without names, the columns are the variables of either dictionary, each once, in alphabetical order; passing the table to the
   solver as it is gives the guess in the order of the model's variables *)
Theorem C81_inferred_columns : forall ss0 ss1 T start n b,
  In b (fst (piecewise_x0 ss0 ss1 T None start n)) <-> exists x, given ss0 b x \/ given ss1 b x.
Proof.
  intros ss0 ss1 T start n b. unfold piecewise_x0, infer_names. cbn [fst].
  assert (HP : In b (isort chars_leb (nodup (list_eq_dec ascii_dec) (map (fun kv : chars * R => removesuffix (fst kv)) (ss0 ++ ss1)))) <->
               In b (nodup (list_eq_dec ascii_dec) (map (fun kv : chars * R => removesuffix (fst kv)) (ss0 ++ ss1)))).
  { split; apply Permutation_in; [apply Permutation_sym, isort_perm|apply isort_perm]. }
  rewrite HP, nodup_In, in_map_iff. split.
  - intros ((k & x) & <- & Hin). apply in_app_or in Hin. exists x. destruct Hin as [H|H]; [left|right]; exists k; auto.
  - intros (x & [(k & Hin & <-)|(k & Hin & <-)]); exists (k, x); split; auto; apply in_or_app; auto.
Qed.
Theorem C81_columns_once : forall ss0 ss1 T start n, NoDup (fst (piecewise_x0 ss0 ss1 T None start n)).
Proof.
  intros. unfold piecewise_x0, infer_names. cbn [fst]. eapply Permutation_NoDup; [apply isort_perm|apply NoDup_nodup].
Qed.
Theorem C81_as_guess : forall ord m ss0 ss1 T start n steady_state a r cols rows, set_order_ok ord ->
  piecewise_x0 ss0 ss1 T None (Some start) n = (cols, rows) -> g_guess a = Frame cols rows -> g_length a = T ->
  prepare steady_state ord m a = Ok r ->
  forall t j b, t < T -> nth_error (q_vars (r_problem r)) j = Some b ->
    nth_error (r_guess r) (t * length (q_vars (r_problem r)) + j) =
    Some (match position b cols with Some i => entry rows t i | None => None end).
Proof.
  intros ord m ss0 ss1 T start n ss a r cols rows Ho HX Hg HT HP t j b Ht Hj.
  assert (Hgv : r_guess r = concat (map (fun row => map (fun n => match position n cols with Some i => nth_error row i | None => None end) (q_vars (r_problem r))) rows) /\ length rows = T).
  { revert HP. unfold prepare. destruct (compile ord m) as [P|]; [|discriminate]. cbn [bind]. destruct (boundary_kwargs (g_paths a)) as [(ik & tk)|]; [|discriminate]. cbn [bind].
    rewrite Hg. destruct (Nat.eqb_spec (length rows) (g_length a)) as [El|]; [|discriminate]. unfold reindex.
    match goal with |- context [if ?u then Ok _ else _] => destruct u; [|discriminate] end. cbn [bind].
    destruct (ss_if_needed _ _ _ _ _ _) as [(i0 & t0)|]; [|discriminate]. cbn [bind fst snd].
    destruct (validate _ _ _ P) as [[]|]; [|discriminate]. cbn [bind]. destruct (boundary (q_vars P) (normalize (g_initial a)) i0) as [yi|]; [|discriminate]. cbn [bind].
    destruct (boundary (q_vars P) (normalize (g_terminal a)) t0) as [yt|]; [|discriminate]. cbn [bind].
    destruct (build_shock_matrix _ _ _) as [x|]; [|discriminate]. cbn [bind]. destruct (build_param_matrix _ _ _ _) as [ps|]; [|discriminate]. cbn [bind].
    intro H. injection H as <-. cbn [r_guess r_problem]. split; [reflexivity|congruence]. }
  destruct Hgv as [-> HL]. set (N := length (q_vars (r_problem r))). assert (Hjn : j < N) by (apply nth_error_Some; congruence).
  destruct (nth_error rows t) as [rw|] eqn:Er; [|apply nth_error_None in Er; lia].
  assert (Hb : forall l, In l (map (fun row => map (fun n => match position n cols with Some i => nth_error row i | None => None end) (q_vars (r_problem r))) rows) -> length l = N).
  { intros l Hl. apply in_map_iff in Hl. destruct Hl as (rw' & <- & _). apply map_length. }
  rewrite (concat_nth N _ Hb t j Hjn) by (rewrite map_length; lia).
  erewrite (nth_error_nth (map _ rows)); [|rewrite nth_error_map, Er; reflexivity].
  rewrite nth_error_map, Hj. cbn [option_map]. f_equal. unfold entry. rewrite Er. reflexivity.
Qed.
Theorem C81_case : piecewise_x0 [(str "K_ss", 1%R)] [(str "K", 3%R)] 4 None (Some 1) 2 =
  ([str "K"], [[1%R]; [((1 - weight 2 0) * 1 + weight 2 0 * 3)%R]; [((1 - weight 2 1) * 1 + weight 2 1 * 3)%R]; [3%R]]).
Proof. reflexivity. Qed.
