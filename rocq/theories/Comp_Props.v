(* Compiled functions: names and positions reach the right inputs. *)
From Verif Require Import Common Conv_Model Conv_Spec Conv_Proofs Conv_Runs Conv_Wire Conv_Props Comp_Model Comp_Proofs Comp_Pack.
From Coq Require Import ZArith.

(* C126: compile_for_scipy and pack_and_compile. [(i, nm)] in the leaves of a graph: it has the input i, called nm. *)
Theorem C126_by_keyword : forall (V Op : Type) (sem : Op -> list V -> V) (default : V) (outs : list (node V Op)) kw,
  named (flat_map leaves outs) -> unambiguous (flat_map leaves outs) ->
  match for_scipy sem default outs kw with
  | Ok vals => exists r, (forall i nm, In (i, nm) (flat_map leaves outs) -> get nm kw = Some (r i)) /\ vals = map (evaln sem r) outs
  | Err e => e = TypeError /\ exists i nm, In (i, nm) (flat_map leaves outs) /\ get nm kw = None
  end.
Proof. intros. now apply kw_function. Qed.
Print Assumptions C126_by_keyword.
Theorem C126_by_position : forall (V Op : Type) (sem : Op -> list V -> V) (default : V) (outs : list (node V Op)) ss_nodes params x,
  named (flat_map leaves outs) -> NoDup ss_nodes -> length x = length ss_nodes ->
  unambiguous (filter (fun p => if in_dec input_dec p ss_nodes then false else true) (flat_map leaves outs)) ->
  match pack_and_compile sem default outs ss_nodes params x with
  | Ok vals => exists r, vals = map (evaln sem r) outs /\
      (forall i nm j, In (i, nm) (flat_map leaves outs) -> nth_error ss_nodes j = Some (i, nm) -> nth_error x j = Some (r i)) /\
      (forall i nm, In (i, nm) (flat_map leaves outs) -> ~ In (i, nm) ss_nodes -> get nm params = Some (r i))
  | Err e => (e = KeyError \/ e = TypeError) /\ exists i nm, In (i, nm) (flat_map leaves outs) /\ ~ In (i, nm) ss_nodes /\ get nm params = None
  end.
Proof. intros. now apply pack_ok. Qed.
Print Assumptions C126_by_position.
(* x_flat has a value for each of K_ss, L_ss, C_ss; the graph uses C_ss and K_ss only *)
Definition graph : list (node Z bool) := [Ap true [Inp 4 (str "C_ss"); Ap false [Inp 0 (str "alpha"); Inp 2 (str "K_ss")]]; Inp 2 (str "K_ss")].
Definition nodes : list input := [(2, str "K_ss"); (3, str "L_ss"); (4, str "C_ss")].
Theorem C126_case : named (flat_map leaves graph) /\ unambiguous (flat_map leaves graph) /\ NoDup nodes /\
  pack_and_compile zsem 0%Z graph nodes [(str "beta", 7%Z); (str "alpha", 3%Z)] [10%Z; 20%Z; 30%Z] = Ok [390%Z; 10%Z] /\
  pack_and_compile zsem 0%Z graph nodes [(str "beta", 7%Z)] [10%Z; 20%Z; 30%Z] = Err KeyError /\
  for_scipy zsem 0%Z graph [(str "L_ss", 20%Z); (str "K_ss", 10%Z); (str "C_ss", 30%Z); (str "alpha", 3%Z)] = Ok [390%Z; 10%Z] /\
  for_scipy zsem 0%Z graph [(str "K_ss", 10%Z); (str "alpha", 3%Z)] = Err TypeError.
Proof.
  assert (forall P : input -> input -> bool, (forall a b, P a b = true -> snd a = snd b <-> fst a = fst b) ->
    forallb (fun a => forallb (P a) (flat_map leaves graph)) (flat_map leaves graph) = true ->
    named (flat_map leaves graph) /\ unambiguous (flat_map leaves graph)) as H.
  { intros P hP h. rewrite forallb_forall in h. split.
    - intros i a b ha hb. pose proof (h _ ha) as h'. rewrite forallb_forall in h'. apply (hP (i, a) (i, b)); auto.
    - intros i j a hi hj. pose proof (h _ hi) as h'. rewrite forallb_forall in h'. apply (hP (i, a) (j, a)); auto. }
  destruct (H (fun a b => Bool.eqb (chars_eqb (snd a) (snd b)) (fst a =? fst b))) as [h1 h2].
  - intros [i a] [j b] e. cbn [fst snd] in *. apply Bool.eqb_prop in e. rewrite <- chars_eqb_eq, <- Nat.eqb_eq, e. tauto.
  - vm_compute. reflexivity.
  - split; [exact h1|]. split; [exact h2|]. split; [repeat constructor; cbn; intuition discriminate|]. repeat split; vm_compute; reflexivity.
Qed.
(* two inputs with one name (a parameter K_ss and the steady state of K): a keyword of that name is refused *)
Theorem C126_ambiguous_name : forall (V Op : Type) (sem : Op -> list V -> V) (default : V) (outs : list (node V Op)) kw i j nm,
  In (i, nm) (flat_map leaves outs) -> In (j, nm) (flat_map leaves outs) -> i <> j -> for_scipy sem default outs kw = Err TypeError.
Proof.
  intros V Op sem default outs kw i j nm hi hj ne. unfold for_scipy. pose proof (function_ok (inputs_of outs) outs) as F.
  destruct (function (inputs_of outs) outs) as [f|e]; cbn [bind].
  2:{ destruct F as [_ (p & h & nh)]. exfalso. apply nh. now apply inputs_In. }
  destruct F as [-> _]. unfold call_kw. cbn [f_ins]. set (f := Func (inputs_of outs) outs). destruct (forallb _ (accepted f kw)) eqn:G; auto.
  assert (count_name nm (inputs_of outs) <> 1) as C.
  { unfold count_name. apply inputs_In in hi, hj.
    assert (In (i, nm) (filter (fun p => chars_eqb nm (snd p)) (inputs_of outs))) as a by (apply filter_In; split; auto; apply chars_eqb_refl).
    assert (In (j, nm) (filter (fun p => chars_eqb nm (snd p)) (inputs_of outs))) as b by (apply filter_In; split; auto; apply chars_eqb_refl).
    destruct (filter (fun p => chars_eqb nm (snd p)) (inputs_of outs)) as [|p [|q l]]; cbn [length]; try lia. cbn in a, b. destruct a as [->|[]], b as [b|[]]. congruence. }
  pose proof (all_some_spec (map (fun p => get (snd p) (accepted f kw)) (inputs_of outs))) as A.
  destruct (all_some (map (fun p => get (snd p) (accepted f kw)) (inputs_of outs))) as [vals|]; auto. exfalso.
  assert (get nm (accepted f kw) <> None) as g.
  { apply inputs_In in hi. apply (in_map (fun p => get (snd p) (accepted f kw))) in hi. rewrite A in hi. apply in_map_iff in hi as (v & e & _). cbn in e. congruence. }
  apply get_In, in_map_iff in g as (q & e & iq). rewrite forallb_forall in G. specialize (G q iq). apply Nat.eqb_eq in G. congruence.
Qed.

(* C127: Model.f_params and Model.f_ss *)
Theorem C127_parameters : forall (V Op : Type) (sem : Op -> list V -> V) (default : V) cse free det kw,
  cse_ok sem cse -> plain_params free -> NoDup (map sname (free ++ map fst det)) -> Forall clean (exprs_of (map snd det)) ->
  match f_params (Op := Op) sem default cse free det kw with
  | Ok d => Forall (formula_over (map key_of free)) (map snd det) /\
      (forall s, In s free -> get (sname s) kw <> None) /\ (forall k, In k (map fst kw) -> In k (map sname free)) /\
      map fst d = map sname (free ++ map fst det) /\
      (forall s, In s free -> get (sname s) d = get (sname s) kw) /\
      (forall s o, In (s, o) det -> get (sname s) d = Some (evalo sem (by_name default kw) o))
  | Err e => (e = ValueError /\ free = [] /\ det = []) \/
             (e = MissingInput /\ exists s o, In (s, o) det /\ ~ formula_over (map key_of free) o) \/
             (e = TypeError /\ ((exists s, In s free /\ get (sname s) kw = None) \/ exists k, In k (map fst kw) /\ ~ In k (map sname free)))
  end.
Proof.
  intros V Op sem default cse free det kw C P ND CD. unfold f_params.
  assert (Forall clean (exprs_of (param_outs (V := V) (Op := Op) free det))) as CO.
  { apply Forall_forall. intros e h. apply in_exprs_of in h. unfold param_outs in h. apply in_app_or in h as [h|h].
    - apply in_map_iff in h as (s & [= <-] & h). intros y o. inversion o; subst. now apply P.
    - rewrite Forall_forall in CD. apply CD. now apply in_exprs_of. }
  assert (length (free ++ map fst det) = length (param_outs (V := V) (Op := Op) free det)) as L. { unfold param_outs. rewrite !app_length, !map_length. reflexivity. }
  pose proof (dict_function_ok sem default cse C free (free ++ map fst det) (param_outs free det) empty kw inv_empty P CO L ND) as D.
  destruct (dict_compile cse free (param_outs free det) empty) as [f|e].
  - destruct D as (NE & FO & D). assert (Forall (formula_over (map key_of free)) (map snd det)) as FD.
    { unfold param_outs in FO. apply Forall_app in FO. tauto. }
    destruct (dict_function sem default cse free (free ++ map fst det) (param_outs free det) empty kw) as [d|e].
    + destruct D as (D1 & D2 & D3 & D4). split; [exact FD|]. split; [exact D1|]. split; [exact D2|]. split; [exact D3|]. split.
      * intros s hs. pose proof (D1 s hs) as g. apply In_nth_error in hs as [j ej].
        assert (nth_error (free ++ map fst det) j = Some s) as e1. { rewrite nth_error_app1; auto. apply nth_error_Some. congruence. }
        rewrite (D4 j s (inr (Sy s)) e1).
        -- cbn. unfold by_name. cbn [key_of fst]. destruct (get (sname s) kw); [reflexivity|congruence].
        -- unfold param_outs. rewrite nth_error_app1; [now rewrite nth_error_map, ej|]. rewrite map_length. apply nth_error_Some. congruence.
      * intros s o h. apply In_nth_error in h as [j ej].
        apply (D4 (length free + j)).
        -- rewrite nth_error_app2 by lia. replace (_ - _) with j by lia. now rewrite nth_error_map, ej.
        -- unfold param_outs. rewrite nth_error_app2; rewrite map_length; [|lia]. replace (_ - _) with j by lia. now rewrite nth_error_map, ej.
    + right. right. exact D.
  - destruct D as [-> D]. destruct D as [[-> e0]|[-> (o & ho & nf)]].
    + left. split; auto. unfold param_outs in e0. apply app_eq_nil in e0 as [a b]. apply map_eq_nil in a, b. auto.
    + right. left. split; auto. unfold param_outs in ho. apply in_app_or in ho as [ho|ho].
      * exfalso. apply nf. apply in_map_iff in ho as (s & <- & hs). intros y oy. inversion oy; subst. now apply in_map.
      * apply in_map_iff in ho as ([s o'] & e & ho). cbn in e; subst o'. eauto.
Qed.
Print Assumptions C127_parameters.
Theorem C127_steady_state : forall (V Op : Type) (sem : Op -> list V -> V) (default : V) cse free det sol vars kw,
  cse_ok sem cse -> plain_params (free ++ map fst det) -> Forall clean (exprs_of (map snd det)) ->
  (forall v e, In v vars -> sol v = Some (inr e) -> clean e) -> NoDup (map sname vars) ->
  match f_ss (Op := Op) sem default cse free det sol vars kw with
  | Ok d => (forall v o, In v vars -> sol v = Some o -> formula_over (map key_of (free ++ map fst det)) o) /\
      (forall s, In s (free ++ map fst det) -> get (sname s) kw <> None) /\ (forall k, In k (map fst kw) -> In k (map sname (free ++ map fst det))) /\
      map fst d = map sname (filter (fun v => match sol v with Some _ => true | None => false end) vars) /\
      (forall v o, In v vars -> sol v = Some o -> get (sname v) d = Some (evalo sem (by_name default kw) o))
  | Err e => (e = ValueError /\ (free = [] /\ det = [] \/ forall v, In v vars -> sol v = None)) \/
      (e = MissingInput /\ ((exists s o, In (s, o) det /\ ~ formula_over (map key_of free) o) \/
                            exists v o, In v vars /\ sol v = Some o /\ ~ formula_over (map key_of (free ++ map fst det)) o)) \/
      (e = TypeError /\ ((exists s, In s (free ++ map fst det) /\ get (sname s) kw = None) \/ exists k, In k (map fst kw) /\ ~ In k (map sname (free ++ map fst det))))
  end.
Proof.
  intros V Op sem default cse free det sol vars kw C P CD CS NV. unfold f_ss.
  assert (plain_params free) as PF.
  { destruct P as [P1 P2]. split; [intros s h; apply P1, in_or_app; now left|]. rewrite map_app in P2. clear - P2. induction (map sname free); cbn in P2; constructor; inversion P2; subst; auto.
    intro h. apply H1, in_or_app. now left. }
  assert (Forall clean (exprs_of (param_outs (V := V) (Op := Op) free det))) as CO.
  { apply Forall_forall. intros e h. apply in_exprs_of in h. unfold param_outs in h. apply in_app_or in h as [h|h].
    - apply in_map_iff in h as (s & [= <-] & h). intros y o. inversion o; subst. now apply PF.
    - rewrite Forall_forall in CD. apply CD. now apply in_exprs_of. }
  assert (length (free ++ map fst det) = length (param_outs (V := V) (Op := Op) free det)) as L. { unfold param_outs. rewrite !app_length, !map_length. reflexivity. }
  pose proof (dict_function_ok sem default cse C free (free ++ map fst det) (param_outs free det) empty [] inv_empty PF CO L (proj2 P)) as D0.
  destruct (dict_compile cse free (param_outs free det) empty) as [f0|e]; cbn [bind].
  2:{ destruct D0 as [_ [[-> e0]|[-> (o & ho & nf)]]].
      - left. split; auto. left. unfold param_outs in e0. apply app_eq_nil in e0 as [a b]. apply map_eq_nil in a, b. auto.
      - right. left. split; auto. left. unfold param_outs in ho. apply in_app_or in ho as [ho|ho].
        + exfalso. apply nf. apply in_map_iff in ho as (s & <- & hs). intros y oy. inversion oy; subst. now apply in_map.
        + apply in_map_iff in ho as ([s o'] & e & ho). cbn in e; subst o'. eauto. }
  clear D0 f0. set (known := filter (fun v => match sol v with Some _ => true | None => false end) vars).
  assert (Forall clean_sym free) as CF by (apply Forall_forall; intros s h; now apply PF).
  destruct (convert_ok sem cse C free (param_outs free det) false empty CF CO inv_empty) as (I & _ & _).
  assert (known_in : forall o, In o (known_exprs sol vars) <-> exists v, In v vars /\ sol v = Some o).
  { intro o. unfold known_exprs. rewrite in_flat_map. split.
    - intros (v & hv & h). destruct (sol v) as [o'|] eqn:E; [|destruct h]. destruct h as [->|[]]. eauto.
    - intros (v & hv & e). exists v. split; auto. rewrite e. now left. }
  assert (Forall clean (exprs_of (known_exprs sol vars))) as CK.
  { apply Forall_forall. intros e h. apply in_exprs_of, known_in in h as (v & hv & ev). eauto. }
  assert (length known = length (known_exprs sol vars)) as LK.
  { unfold known, known_exprs. clear. induction vars as [|v vars IH]; cbn; auto. destruct (sol v); cbn; auto. }
  assert (NoDup (map sname known)) as NK.
  { unfold known. clear - NV. induction vars as [|v vars IH]; cbn; [constructor|]. inversion NV; subst. destruct (sol v); cbn [map]; auto. constructor; auto.
    intro h. apply H1. apply in_map_iff in h as (w & e & h). apply filter_In in h as [h _]. apply in_map_iff. eauto. }
  assert (forall v o, In v vars -> sol v = Some o -> exists j, nth_error known j = Some v /\ nth_error (known_exprs sol vars) j = Some o) as KN.
  { unfold known, known_exprs. clear. induction vars as [|w vars IH]; intros v o h e; [destruct h|]. cbn [filter flat_map]. destruct h as [->|h].
    - rewrite e. exists 0. auto.
    - destruct (IH v o h e) as (j & a & b). destruct (sol w); [exists (S j)|exists j]; auto. }
  pose proof (dict_function_ok sem default cse C (free ++ map fst det) known (known_exprs sol vars) _ kw I P CK LK NK) as D.
  unfold dict_function in *. destruct (dict_compile cse (free ++ map fst det) (known_exprs sol vars) _) as [f|e]; cbn [bind] in *.
  - destruct D as (NE & FO & D). rewrite Forall_forall in FO. destruct (call_kw sem default f kw) as [vals|e]; cbn [bind] in *.
    + destruct D as (D1 & D2 & D3 & D4). split; [intros v o hv e; apply FO, known_in; eauto|]. split; [exact D1|]. split; [exact D2|]. split; [exact D3|].
      intros v o hv e. destruct (KN v o hv e) as (j & a & b). eauto.
    + right. right. exact D.
  - destruct D as [_ [[-> e0]|[-> (o & ho & nf)]]].
    + left. split; auto. right. intros v hv. destruct (sol v) as [o|] eqn:E; auto. assert (In o (known_exprs sol vars)) as h by (apply known_in; eauto). rewrite e0 in h. destruct h.
    + right. left. split; auto. right. apply known_in in ho as (v & hv & e). eauto.
Qed.
Print Assumptions C127_steady_state.
Definition C_ss : sym := Sym (str "C_ss") CTime 0.
Definition sols2 (v : sym) : option (output Z bool) :=
  if key_dec (key_of v) (key_of K_ss) then Some (inr (App false [Sy beta; Num 1%Z])) else
  if key_dec (key_of v) (key_of C_ss) then Some (inl 5%Z) else None.
Theorem C127_case : plain_params ([alpha] ++ map fst dets) /\ Forall clean (exprs_of (map snd dets)) /\ cse_ok zsem zcse /\
  f_params zsem 0%Z zcse [alpha] dets [(str "alpha", 3%Z)] = Ok [(str "alpha", 3%Z); (str "beta", 6%Z)] /\
  f_ss zsem 0%Z zcse [alpha] dets sols2 [C_ss; L_ss; K_ss] [(str "alpha", 3%Z); (str "beta", 6%Z)] = Ok [(str "C_ss", 5%Z); (str "K_ss", 7%Z)] /\
  f_params zsem 0%Z zcse [alpha] dets [(str "alpha", 3%Z); (str "gamma", 3%Z)] = Err TypeError /\
  f_params zsem 0%Z zcse [] [] [] = Err ValueError /\
  (* a solution in terms of another variable: refused, although that variable has a solution, too *)
  f_ss zsem 0%Z zcse [alpha] [] (fun v => if key_dec (key_of v) (key_of K_ss) then Some (inr (App true [Num 2%Z; Sy L_ss])) else Some (inr (Sy alpha)))
    [K_ss; L_ss] [(str "alpha", 3%Z)] = Err MissingInput.
Proof.
  split; [|split; [|split; [apply zcse_ok|]]].
  - split; [intros s [<-|[<-|[]]]; split; try reflexivity; not_temp|]. vm_compute. repeat constructor; cbn; intuition discriminate.
  - repeat constructor. intros x o. occ; not_temp.
  - repeat split; vm_compute; reflexivity.
Qed.
