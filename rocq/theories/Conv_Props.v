(* Conversion of sympy expressions with a shared cache, and the wiring of an estimation model. *)
From Verif Require Import Common Conv_Model Conv_Spec Conv_Proofs Conv_Runs Conv_Wire.
From Coq Require Import ZArith.

(* ---------- a concrete setting: integers, sums and products; a common-subexpression pass that names every output ---------- *)
Definition zsem (f : bool) (l : list Z) : Z := if f then fold_right Z.mul 1%Z l else fold_right Z.add 0%Z l.
Notation zexpr := (expr Z bool).
Definition tmp (n : nat) : sym := Sym (temp_name n) CSymbol 0.
Fixpoint name_all (n : nat) (es : list zexpr) : list (sym * zexpr) * list zexpr :=
  match es with [] => ([], []) | e :: t => ((tmp n, e) :: fst (name_all (S n) t), Sy (tmp n) :: snd (name_all (S n) t)) end.
Definition zcse := name_all 0.
Lemma temp_name_inj a b : temp_name a = temp_name b -> a = b.
Proof. unfold temp_name. intro e. apply app_inv_head in e. apply (f_equal undec) in e. rewrite !undec_dec in e. injection e as e. lia. Qed.
Lemma tmp_is_temp n : is_temp (key_of (tmp n)).
Proof. exists n. reflexivity. Qed.
Lemma name_all_value es : forall n s, Forall clean es ->
  Forall2 (fun r e => evale zsem (extend zsem s (fst (name_all n es))) r = evale zsem s e) (snd (name_all n es)) es /\
  (forall k, (forall m, n <= m -> k <> key_of (tmp m)) -> extend zsem s (fst (name_all n es)) k = s k).
Proof.
  induction es as [|e es IH]; intros n s C; cbn [name_all fst snd extend]; [split; [constructor|auto]|].
  inversion C as [|? ? ce C']; subst. set (s' := set_key (key_of (tmp n)) (evale zsem s e) s). destruct (IH (S n) s' C') as [a b]. split.
  - constructor.
    + cbn [evale]. rewrite b.
      * unfold s', set_key. destruct (key_dec (key_of (tmp n)) (key_of (tmp n))); congruence.
      * intros m lt q. apply (f_equal fst) in q. apply temp_name_inj in q. lia.
    + clear - a C'. assert (forall x, In x es -> evale zsem s' x = evale zsem s x) as same.
      { intros x i. apply evale_ext. intros y o. unfold s', set_key. destruct (key_dec (key_of (tmp n)) (key_of y)) as [q|q]; auto.
        exfalso. rewrite Forall_forall in C'. apply (C' x i y o). rewrite <- q. apply tmp_is_temp. }
      eapply Forall2_impl2; [|exact a]. cbn. intros r x _ i ->. now apply same.
  - intros k h. rewrite b by (intros m lt; apply h; lia). unfold s', set_key. destruct (key_dec (key_of (tmp n)) k) as [<-|]; auto.
    exfalso. eapply h; eauto.
Qed.
Lemma zcse_ok : cse_ok zsem zcse.
Proof.
  intros es C. unfold zcse. split; [|split].
  - assert (forall n known, defined_before known (fst (name_all n es))) as H; [|apply H].
    induction C as [|e es ce C IH]; intros n known; cbn [name_all fst defined_before]; auto. split; [apply tmp_is_temp|split; [|apply IH]].
    intros x o t. exfalso. exact (ce x o t).
  - assert (forall n e x, In e (snd (name_all n es)) -> occurs x e -> In (key_of x) (map (fun p => key_of (fst p)) (fst (name_all n es)))) as H; [|intros e x i o _; eapply H; eauto].
    clear. induction es as [|e' es IH]; intros n e x i o; cbn [name_all fst snd map In] in *; [destruct i|]. destruct i as [<-|i].
    + inversion o; subst. now left.
    + right. eapply IH; eauto.
  - intro s. now apply name_all_value.
Qed.
(* the derivative of a sum or product of two, taken to the steady state of the one variable K *)
Definition K_ss : sym := Sym (str "K_ss") CTime 0.
Definition K_t : sym := Sym (str "K_t") CTime 0.
Definition K_lag : sym := Sym (str "K_t-1") CTime 0.
Definition K_lead : sym := Sym (str "K_t+1") CTime 0.
Definition eps : sym := Sym (str "epsilon_t") CTime 0.
Definition alpha : sym := Sym (str "alpha") CSymbol 0.
Definition beta : sym := Sym (str "beta") CSymbol 0.
Fixpoint d (v : sym) (e : zexpr) : zexpr :=
  match e with
  | Num _ => Num 0%Z
  | Sy s => if key_dec (key_of s) (key_of v) then Num 1%Z else Num 0%Z
  | App false [a; b] => App false [d v a; d v b]
  | App true [a; b] => App false [App true [d v a; b]; App true [a; d v b]]
  | _ => Num 0%Z
  end.
Fixpoint steady (e : zexpr) : zexpr :=
  match e with
  | Num v => Num v
  | Sy s => match scls s with CTime => if key_dec (key_of s) (key_of eps) then Num 0%Z else Sy K_ss | CSymbol => Sy s end
  | App f l => App f (map steady l)
  end.
Definition zderiv (e : zexpr) (v : sym) : zexpr := steady (d v e).
Definition znum (e : zexpr) : bool := match e with Num _ => true | _ => false end.

(* C123: sympy_to_pytensor and build_symbolic_jacobians, in any order and number, sharing one cache: one input for every
   symbol (name and class), never two symbols for one input, and every graph ever returned computes its expression. *)
Theorem C123_conversion_sound : forall (V Op : Type) (sem : Op -> list V -> V) cse deriv is_number zero (h : list (call V Op)),
  cse_ok sem cse -> Forall (clean_call deriv) h ->
  exists input : key -> nat,
    (forall k k', ~ is_temp k -> ~ is_temp k' -> input k = input k' -> k = k') /\
    Forall2 (right_answer sem deriv input) h (fst (run cse deriv is_number zero h empty)).
Proof.
  intros V Op sem cse deriv is_number zero h C H.
  destruct (run_ok sem cse deriv is_number zero C h empty H inv_empty) as (a & _ & c).
  exists (number (snd (run cse deriv is_number zero h empty))). split.
  - intros k k' t t'. apply number_inj; auto.
  - apply c; auto using kept_refl.
Qed.
Print Assumptions C123_conversion_sound.
Ltac not_temp := let n := fresh in let e := fresh in intros [n e]; cbn in e; discriminate.
Ltac occ := repeat match goal with
  | H : occurs _ (Num _) |- _ => inversion H
  | H : occurs _ (Sy _) |- _ => inversion H; clear H; subst
  | H : occurs _ (App _ _) |- _ => inversion H; clear H; subst
  | H : In _ (_ :: _) |- _ => destruct H as [H|H]; [subst|]
  | H : In _ [] |- _ => destruct H
  end.
Definition history : list (call Z bool) :=
  [Convert [alpha] [inr (App false [Sy alpha; Num 1%Z]); inl 7%Z; inr (App true [Sy alpha; Sy beta])] true;
   Jac [([App true [Sy alpha; Sy K_t]; Sy K_t], [K_t]); ([], [K_t]); ([Sy eps], [])];
   Convert [beta; alpha] [inr (Sy beta)] true].
Lemma history_clean : Forall (clean_call zderiv) history.
Proof.
  unfold history. repeat constructor; try not_temp.
  - intros x o. occ; not_temp.
  - intros x o. occ; not_temp.
  - intros s eq v hs he hv x o. cbn [In] in hs. destruct hs as [<-|[<-|[<-|[]]]]; cbn [fst snd] in he, hv; try contradiction.
    destruct hv as [<-|[]]. destruct he as [<-|[<-|[]]]; vm_compute in o; occ; not_temp.
  - intros x o. occ; not_temp.
Qed.
Theorem C123_conversion_sound_case : Forall (clean_call zderiv) history /\ cse_ok zsem zcse /\
  fst (run zcse zderiv znum 0%Z history empty)
  = [AConvert [Inp 0 (str "alpha")] [Ap false [Inp 0 (str "alpha"); Const 1%Z]; Const 7%Z; Ap true [Inp 0 (str "alpha"); Inp 1 (str "beta")]];
     AJac [[[Ap false [Ap true [Const 0%Z; Inp 2 (str "K_ss")]; Ap true [Inp 0 (str "alpha"); Const 1%Z]]]; [Const 1%Z]]; []; [[]]];
     AConvert [Inp 1 (str "beta"); Inp 0 (str "alpha")] [Inp 1 (str "beta")]].
Proof. split; [apply history_clean|split; [apply zcse_ok|]]. vm_compute. reflexivity. Qed.
(* without the proviso on names: a symbol called like a temporary of an earlier call is not an input any more *)
Theorem C123_reserved_name_refuted : exists h, cse_ok zsem zcse /\ ~ exists input, Forall2 (right_answer zsem zderiv input) h (fst (run zcse zderiv znum 0%Z h empty)).
Proof.
  exists [Convert [alpha] [inr (App false [Sy alpha; Num 1%Z]); inr (App true [Sy alpha; Num 2%Z])] true;
          Convert [tmp 0] [inr (Sy (tmp 0))] false].
  split; [apply zcse_ok|]. intros (input & H). inversion H as [|? ? ? ? _ H2 E1 E2]; subst. clear H.
  inversion H2 as [|? ? ? ? H3 _]; subst. clear H2. destruct H3 as [H3 _]. vm_compute in H3. discriminate.
Qed.

(* C124: the Jacobians built for several systems in one go: one matrix for each, of its shape, empty ones included, whose entry
   (i, j) computes the derivative of equation i with respect to symbol j, whatever was converted before. *)
Theorem C124_jacobian_entries : forall (V Op : Type) (sem : Op -> list V -> V) cse deriv is_number zero (h : list (call V Op)) specs,
  cse_ok sem cse -> Forall (clean_call deriv) h -> clean_call deriv (Jac specs) ->
  exists input ms, (forall k k', ~ is_temp k -> ~ is_temp k' -> input k = input k' -> k = k') /\
    fst (perform cse deriv is_number zero (Jac specs) (snd (run cse deriv is_number zero h empty))) = AJac ms /\
    length ms = length specs /\
    forall b eqs wrt, nth_error specs b = Some (eqs, wrt) -> exists m, nth_error ms b = Some m /\ is_matrix (length eqs) (length wrt) m /\
      forall i j eq v, nth_error eqs i = Some eq -> nth_error wrt j = Some v ->
        exists n, entry m i j = Some n /\ forall r, evaln sem r n = evale sem (fun k => r (input k)) (deriv eq v).
Proof.
  intros V Op sem cse deriv is_number zero h specs C H HJ.
  destruct (run_ok sem cse deriv is_number zero C h empty H inv_empty) as (a & _ & _).
  set (st := snd (run cse deriv is_number zero h empty)) in *.
  destruct (perform_ok sem cse deriv is_number zero C (Jac specs) st HJ a) as (a' & _ & c).
  exists (number (snd (perform cse deriv is_number zero (Jac specs) st))), (fst (jacobians cse deriv is_number zero specs st)).
  specialize (c _ a' (kept_refl _)). cbn [perform fst snd right_answer] in *.
  split; [intros k k' t t'; apply number_inj; auto|]. split; [reflexivity|].
  set (fin := snd (jacobians cse deriv is_number zero specs st)) in *.
  pose proof (c (fun _ => zero)) as c0. split; [eapply Forall2_len; eauto|].
  intros b eqs wrt eb. destruct (Forall2_nth_r _ _ _ c0 b _ eb) as (m & em & hm). exists m. split; [exact em|]. cbn [fst snd] in hm. split.
  - split; [eapply Forall2_len; eauto|]. clear - hm. induction hm; constructor; auto. eapply Forall2_len; eauto.
  - intros i j eq v ei ej. destruct (Forall2_nth_r _ _ _ hm i _ ei) as (row & er & hr). destruct (Forall2_nth_r _ _ _ hr j _ ej) as (n & en & _).
    exists n. unfold entry. rewrite er. split; [exact en|]. intro r.
    pose proof (Forall2_nth_lr _ _ _ (c r) b _ _ em eb) as hm'. cbn [fst snd] in hm'.
    pose proof (Forall2_nth_lr _ _ _ hm' i _ _ er ei) as hr'. exact (Forall2_nth_lr _ _ _ hr' j _ _ en ej).
Qed.
Print Assumptions C124_jacobian_entries.
Theorem C124_jacobian_entries_case :
  let specs := [([App true [Sy alpha; Sy K_t]; Sy K_t], [K_t; alpha]); ([], [K_t]); ([Sy eps], []); ([App true [Sy beta; Sy K_t]], [beta])] in
  clean_call zderiv (Jac specs) /\ Forall (clean_call zderiv) history /\
  exists a b c, fst (perform zcse zderiv znum 0%Z (Jac specs) (snd (run zcse zderiv znum 0%Z history empty))) = AJac [a; []; [[]]; [[c]]] /\ entry a 0 1 = Some b /\
    b = Ap false [Ap true [Const 1%Z; Inp 2 (str "K_ss")]; Ap true [Inp 0 (str "alpha"); Const 0%Z]] /\
    c = Ap false [Ap true [Const 1%Z; Inp 2 (str "K_ss")]; Ap true [Inp 1 (str "beta"); Const 0%Z]].
Proof.
  cbn zeta. split; [|split; [apply history_clean|]].
  - intros s eq v hs he hv x o. cbn [In] in hs. destruct hs as [<-|[<-|[<-|[<-|[]]]]]; cbn [fst snd] in he, hv; try contradiction.
    + destruct hv as [<-|[<-|[]]]; destruct he as [<-|[<-|[]]]; vm_compute in o; occ; not_temp.
    + destruct hv as [<-|[]]; destruct he as [<-|[]]; vm_compute in o; occ; not_temp.
  - eexists _, _, _. split; [vm_compute; reflexivity|]. split; [reflexivity|]. split; vm_compute; reflexivity.
Qed.

(* C125: statespace_from_gcn: A, B, C, D are the derivatives times the log-linear factors, with every parameter computed from the
   free ones and every steady state from the parameters; without a steady state for each variable it refuses. *)
Theorem C125_wiring : forall (V Op : Type) (sem : Op -> list V -> V) cse deriv is_number zero op_mul op_switch one free det sol (l : linear V Op),
  cse_ok sem cse -> wf_model deriv free det sol l ->
  (forall v o, In v (ss_vars l) -> sol v = Some o -> formula_over (map key_of (free ++ map fst det)) o) ->
  match wire cse deriv is_number zero op_mul op_switch one free det sol l with
  | Err e => e = NotImplementedError /\ (ss_vars l = [] \/ exists v, In v (ss_vars l) /\ sol v = None)
  | Ok ms => (forall v, In v (ss_vars l) -> sol v <> None) /\ exists A B C D (input : key -> nat), ms = [A; B; C; D] /\
      (forall k k', ~ is_temp k -> ~ is_temp k' -> input k = input k' -> k = k') /\
      is_matrix (length (eqs l)) (length (ss_vars l)) A /\ is_matrix (length (eqs l)) (length (ss_vars l)) B /\
      is_matrix (length (eqs l)) (length (ss_vars l)) C /\ is_matrix (length (eqs l)) (length (shocks l)) D /\
      forall (r : nat -> V) i eq, nth_error (eqs l) i = Some eq ->
        let E := ss_value sem sol (ss_vars l) (param_value sem det (fun k => r (input k))) in
        (forall j v s kd, nth_error (ss_vars l) j = Some s -> nth_error (kinds l) j = Some kd ->
          (nth_error (lags l) j = Some v -> exists n, entry A i j = Some n /\ evaln sem r n = sem op_mul [evale sem E (deriv eq v); factor sem op_switch one kd (E (key_of s))]) /\
          (nth_error (now l) j = Some v -> exists n, entry B i j = Some n /\ evaln sem r n = sem op_mul [evale sem E (deriv eq v); factor sem op_switch one kd (E (key_of s))]) /\
          (nth_error (leads l) j = Some v -> exists n, entry C i j = Some n /\ evaln sem r n = sem op_mul [evale sem E (deriv eq v); factor sem op_switch one kd (E (key_of s))])) /\
        (forall j v, nth_error (shocks l) j = Some v -> exists n, entry D i j = Some n /\ evaln sem r n = evale sem E (deriv eq v))
  end.
Proof. intros. now apply wire_ok. Qed.
Print Assumptions C125_wiring.
Definition law : zexpr := App false [App true [Sy alpha; App true [Sy K_t; Sy K_lag]]; App false [App true [Sy beta; Sy K_lead]; Sy eps]].
Definition one_var : linear Z bool := Linear [law] [K_lag] [K_t] [K_lead] [eps] [K_ss] [Positive].
Definition dets : list (sym * output Z bool) := [(beta, inr (App true [Sy alpha; Num 2%Z]))].
Definition sols (v : sym) : option (output Z bool) := if key_dec (key_of v) (key_of K_ss) then Some (inr (App false [Sy beta; Num 1%Z])) else None.
Lemma one_var_wf : wf_model zderiv [alpha] dets sols one_var.
Proof.
  split.
  - intros s [<-|[<-|[]]]; split; try reflexivity; not_temp.
  - intros s [<-|[]]. reflexivity.
  - split; vm_compute; repeat constructor; cbn; intuition discriminate.
  - intros x o [[= <- <-]|[]] y oy. occ. now left.
  - repeat split.
  - intros eq v [<-|[]] x o. unfold zderiv, law in o. cbn [d steady map] in o.
    repeat match type of o with context [key_dec ?a (key_of v)] => destruct (key_dec a (key_of v)) end; vm_compute in o; occ; not_temp.
Qed.
Theorem C125_wiring_case : wf_model zderiv [alpha] dets sols one_var /\ cse_ok zsem zcse /\
  (forall v o, In v (ss_vars one_var) -> sols v = Some o -> formula_over (map key_of ([alpha] ++ map fst dets)) o) /\
  exists ms, wire zcse zderiv znum 0%Z true false 1%Z [alpha] dets sols one_var = Ok ms /\
    (* alpha = 3: beta = 6, K = 7; A = B = 3 * 7 * 7, C = 6 * 7, D = 1 *)
    map (map (map (evaln zsem (fun _ => 3%Z)))) ms = [[[147%Z]]; [[147%Z]]; [[42%Z]]; [[1%Z]]].
Proof.
  split; [apply one_var_wf|split; [apply zcse_ok|split]].
  - intros v o [<-|[]] [= <-]. intros x ox. occ. right; now left.
  - eexists. split; vm_compute; reflexivity.
Qed.
(* a steady state given in terms of another steady state: the other one is not filled in, and stays an unknown of the model *)
Definition L_ss : sym := Sym (str "L_ss") CTime 0.
Theorem C125_chained_steady_state_refuted : exists (l : linear Z bool) sol ms, cse_ok zsem zcse /\ wf_model (fun e _ => e) [alpha] [] sol l /\
  sol K_ss = Some (inr (App true [Num 2%Z; Sy L_ss])) /\ sol L_ss = Some (inr (Sy alpha)) /\
  wire zcse (fun e _ => e) znum 0%Z true false 1%Z [alpha] [] sol l = Ok ms /\
  ~ (exists i : nat, forall r r' : nat -> Z, r i = r' i -> map (map (map (evaln zsem r))) ms = map (map (map (evaln zsem r'))) ms) /\
  exists i j : nat, i <> j /\ forall r r' : nat -> Z, r i = r' i -> r j = r' j -> map (map (map (evaln zsem r))) ms = map (map (map (evaln zsem r'))) ms.
Proof.
  exists (Linear [App false [Sy K_ss; Sy alpha]] [K_lag; alpha] [K_t; alpha] [K_lead; alpha] [] [K_ss; L_ss] [Level; Level]),
    (fun v => if key_dec (key_of v) (key_of K_ss) then Some (inr (App true [Num 2%Z; Sy L_ss])) else Some (inr (Sy alpha))).
  eexists. split; [apply zcse_ok|]. split.
  { split.
    - intros s [<-|[]]. split; [reflexivity|not_temp].
    - intros s [<-|[<-|[]]]; reflexivity.
    - split; vm_compute; repeat constructor; cbn; intuition discriminate.
    - intros ? ? [].
    - repeat split.
    - intros eq v [<-|[]] x o. occ; not_temp. }
  split; [reflexivity|]. split; [reflexivity|]. split; [vm_compute; reflexivity|]. split.
  - intros (i & h). destruct (Nat.eq_dec i 0) as [->|n0].
    + specialize (h (fun k => match k with 0 => 0%Z | _ => 1%Z end) (fun _ => 0%Z) eq_refl). vm_compute in h. discriminate.
    + specialize (h (fun k => match k with 0 => 1%Z | _ => 0%Z end) (fun _ => 0%Z)). destruct i; [contradiction|]. specialize (h eq_refl). vm_compute in h. discriminate.
  - exists 0, 1. split; [discriminate|]. intros r r' e0 e1. cbn. rewrite ?e0, ?e1. reflexivity.
Qed.
