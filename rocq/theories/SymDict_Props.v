(* Properties C13, C14, C45, C46: SymbolDictionary.
   [A] is the type of SymPy assumptions, [V] the type of the stored values; a history is a list of calls, starting from an
   empty heap; a dictionary is an address on that heap. *)
From Verif Require Import Common TimeIndex_Model SymDict_Model SymDict_Spec SymDict_Proofs SymDict_More.
From Coq Require Import Permutation Sorted.
Local Open Scope list_scope.

(* C13: entries (keys, values, order) and the mode of a dictionary only change by calls that target that dictionary. *)
Theorem C13_entries_independent :
  forall (A : Type) (A_dec : forall a b : A, {a = b} + {a <> b}) (noasm : A) (V : Type)
         (p : list (instr A V)) (h : heap A V) (r : nat),
    valid_history A_dec noasm p h -> r < nxt A V h -> (forall i, In i p -> target i <> Some r) ->
    let h' := exec_all A A_dec noasm V p h in
    items A V (obj A V h' r) = items A V (obj A V h r) /\ is_sympy A V (obj A V h' r) = is_sympy A V (obj A V h r).
Proof.
  exact (fun A A_dec noasm V p h r Hv Hr Ht =>
    match eq_sym (entries_kept A_dec noasm p h r Hv Hr Ht) in _ = o return items A V o = _ /\ is_sympy A V o = _ with eq_refl => conj eq_refl eq_refl end).
Qed.
Print Assumptions C13_entries_independent.

(* Metadata too, in histories that never call copy, |, the value conversions, or a step on a string-keyed dictionary. *)
Theorem C13_unshared_dictionaries_independent :
  forall (A : Type) (A_dec : forall a b : A, {a = b} + {a <> b}) (noasm : A) (V : Type) (p1 p2 : list (instr A V)) (r : nat),
    unshared A_dec noasm (p1 ++ p2) [] (empty_heap A V) ->
    In r (live_after A_dec noasm p1 [] (empty_heap A V)) ->
    (forall i, In i p2 -> target i <> Some r) ->
    view (exec_all A A_dec noasm V (p1 ++ p2) (empty_heap A V)) r = view (exec_all A A_dec noasm V p1 (empty_heap A V)) r.
Proof.
  intros A A_dec noasm V p1 p2 r Hu Hl Ht. destruct (unshared_app A_dec noasm p1 p2 _ _ Hu) as (U1 & U2).
  rewrite exec_all_app. exact (unshared_kept A_dec noasm p2 _ _ r (sep_run A_dec noasm p1 _ _ sep_empty U1) U2 Hl Ht).
Qed.
Print Assumptions C13_unshared_dictionaries_independent.

(* What the user sees: the symbols obtained by d.to_string().to_sympy(). *)
Definition reconverted {V} (h : heap bool V) (r : nat) : option (entries bool V) :=
  match to_string bool Bool.bool_dec V false r h with
  | (h1, Ok s) => match to_sympy bool Bool.bool_dec false V false s h1 with
                  | (h2, Ok q) => Some (items _ _ (obj _ _ h2 q)) | _ => None end
  | _ => None
  end.
Definition history (p : list (instr bool nat)) := exec_all bool Bool.bool_dec false nat p (empty_heap bool nat).
Notation x_pos := (KVar (str "x") (TInt 0) true).
Notation x_any := (KVar (str "x") (TInt 0) false).
Definition two_x : list (instr bool nat) :=
  [INew _ _ [(x_pos, 1)]; IToString _ _ false 1; INew _ _ [(x_any, 2)]; IToString _ _ false 4].

(* a | b changes what a converts to. *)
Theorem C13_union_leaves_operands_refuted :
  ~ (forall (p : list (instr bool nat)) (r s : nat),
       valid_history Bool.bool_dec false (p ++ [IOr _ _ r s]) (empty_heap bool nat) ->
       reconverted (history (p ++ [IOr _ _ r s])) r = reconverted (history p) r).
Proof.
  intro H. specialize (H two_x 3 6 ltac:(cbn; repeat split; intros; lia)). vm_compute in H. discriminate H.
Qed.
Print Assumptions C13_union_leaves_operands_refuted.

(* Adding a key to a copy changes what the original converts to. *)
Theorem C13_copies_independent_refuted :
  ~ (forall (p : list (instr bool nat)) (r c : nat) k v,
       valid_history Bool.bool_dec false (p ++ [ICopy _ _ r; ISet _ _ c k v]) (empty_heap bool nat) -> r <> c ->
       reconverted (history (p ++ [ICopy _ _ r; ISet _ _ c k v])) r = reconverted (history p) r).
Proof.
  intro H. specialize (H [INew _ _ [(x_pos, 1)]] 1 2 (KVar (str "x") (TInt 1) false) 5 ltac:(cbn; repeat split; intros; lia) ltac:(lia)).
  vm_compute in H. discriminate H.
Qed.
Print Assumptions C13_copies_independent_refuted.

(* step_forward() (not in place) on a dictionary with string keys rewrites its metadata. *)
Theorem C13_step_leaves_original_refuted :
  ~ (forall (p : list (instr bool nat)) (r : nat) f,
       valid_history Bool.bool_dec false (p ++ [IStep _ _ f false r]) (empty_heap bool nat) ->
       view (history (p ++ [IStep _ _ f false r])) r = view (history p) r).
Proof.
  intro H. specialize (H [INew _ _ [(KStr (str "x_t"), 1)]] 1 Fwd ltac:(cbn; repeat split; intros; lia)). vm_compute in H. discriminate H.
Qed.
Print Assumptions C13_step_leaves_original_refuted.

Example C13_unshared_met :
  unshared Bool.bool_dec false (two_x ++ [ISet _ _ 6 (KStr (str "y_t")) 7; IStep _ _ Fwd false 1; IToSympy _ _ true 6]) [] (empty_heap bool nat)
  /\ In 3 (live_after Bool.bool_dec false two_x [] (empty_heap bool nat)).
Proof. cbn. intuition (try discriminate). Qed.

(* C14 *)
Theorem C14_string_round_trip :
  forall (A : Type) (A_dec : forall a b : A, {a = b} + {a <> b}) (noasm : A) (V : Type) (d : entries A V),
    NoDup (map fst d) -> (forall k, In k (map fst d) -> near_key k) -> consistent noasm (map fst d) ->
    let h := empty_heap A V in
    exists h1 r h2 s h3 q,
      new A V d h = (h1, Ok r) /\ to_string A A_dec V false r h1 = (h2, Ok s) /\ to_sympy A A_dec noasm V false s h2 = (h3, Ok q) /\
      items A V (obj A V h1 r) = d /\ view h3 q = view h1 r.
Proof. exact (fun A A_dec noasm V d => round_trip A_dec noasm d (empty_heap A V) wf_empty). Qed.
Print Assumptions C14_string_round_trip.

(* A lead of two periods does not survive: it comes back as a parameter called x_tp2. *)
Theorem C14_far_dates_refuted :
  ~ (forall (d : entries bool nat), NoDup (map fst d) -> consistent false (map fst d) ->
       (forall k, In k (map fst d) -> exists b z a, k = KVar b (TInt z) a /\ ~ In "+"%char b /\ ~ In "-"%char b) ->
       reconverted (history [INew _ _ d]) 1 = Some d).
Proof.
  intro H. specialize (H [(KVar (str "x") (TInt 2) true, 1)]). vm_compute in H.
  assert (X : Some [(KPar (str "x_tp2") false, 1)] = Some [(KVar (str "x") (TInt 2) true, 1)]); [|discriminate X].
  apply H.
  - constructor; [intros []|constructor].
  - split; [|split].
    + intros k k' [<-|[]] [<-|[]] _. reflexivity.
    + intros k k' [<-|[]] [<-|[]] _. reflexivity.
    + intros n a b t a' [E|[]]. discriminate E.
  - intros k [<-|[]]. exists (str "x"), 2%Z, true. cbn. intuition discriminate.
Qed.
Print Assumptions C14_far_dates_refuted.

(* Two symbols of one base name with different assumptions: the second one wins for both. *)
Theorem C14_mixed_assumptions_refuted :
  ~ (forall (d : entries bool nat), NoDup (map fst d) -> (forall k, In k (map fst d) -> near_key k) ->
       reconverted (history [INew _ _ d]) 1 = Some d).
Proof.
  intro H. specialize (H [(x_pos, 1); (KVar (str "x") (TInt 1) false, 2)]). vm_compute in H.
  assert (X : Some [(x_any, 1); (KVar (str "x") (TInt 1) false, 2)] = Some [(x_pos, 1); (KVar (str "x") (TInt 1) false, 2)]); [|discriminate X].
  apply H.
  - repeat constructor; cbn; intuition discriminate.
  - intros k [<-|[<-|[]]]; cbn; intuition discriminate.
Qed.
Print Assumptions C14_mixed_assumptions_refuted.

Definition ex_d : entries bool nat :=
  [(KVar (str "C_g") TSs true, 3); (KPar (str "rho_t") true, 4); (KVar (str "C_g") (TInt (-1)) true, 5); (KPar (str "alpha") false, 6)].
Example C14_hypotheses_met :
  NoDup (map fst ex_d) /\ (forall k, In k (map fst ex_d) -> near_key k) /\ consistent false (map fst ex_d) /\
  reconverted (history [INew _ _ ex_d]) 1 = Some ex_d.
Proof.
  split; [|split; [|split]].
  - repeat constructor; cbn; intuition discriminate.
  - intros k [<-|[<-|[<-|[<-|[]]]]]; cbn; intuition discriminate.
  - split; [|split].
    + intros k k' [<-|[<-|[<-|[<-|[]]]]] [<-|[<-|[<-|[<-|[]]]]]; vm_compute; congruence.
    + intros k k' [<-|[<-|[<-|[<-|[]]]]] [<-|[<-|[<-|[<-|[]]]]]; vm_compute; congruence.
    + intros n a b t a' [E|[E|[E|[E|[]]]]] [E2|[E2|[E2|[E2|[]]]]]; try discriminate; injection E as <- <-; injection E2 as <- <- <-; discriminate.
  - vm_compute. reflexivity.
Qed.

(* C45 *)
Theorem C45_keys_of_one_kind :
  forall (A : Type) (A_dec : forall a b : A, {a = b} + {a <> b}) (noasm : A) (V : Type) (p : list (instr A V)) (r : nat),
    valid_history A_dec noasm p (empty_heap A V) -> (forall i, In i p -> is_update i = false) ->
    one_mode (exec_all A A_dec noasm V p (empty_heap A V)) r /\
    NoDup (map fst (items A V (obj A V (exec_all A A_dec noasm V p (empty_heap A V)) r))).
Proof.
  intros A A_dec noasm V p r Hv Hu. destruct (run_wf A_dec noasm p _ wf_empty Hu Hv r) as (N & M). exact (conj M N).
Qed.
Print Assumptions C45_keys_of_one_kind.

(* update, with a SymbolDictionary or a plain dict, does not check. *)
Theorem C45_update_mixes_kinds_refuted :
  ~ (forall (p : list (instr bool nat)) (r : nat), valid_history Bool.bool_dec false p (empty_heap bool nat) -> one_mode (history p) r).
Proof.
  intro H. specialize (H [INew _ _ [(x_pos, 1)]; INew _ _ [(KStr (str "y_t"), 2)]; IUpdate _ _ 1 2] 1 ltac:(cbn; repeat split; intros; lia)).
  pose proof (H x_pos ltac:(vm_compute; auto)) as H1. pose proof (H (KStr (str "y_t")) ltac:(vm_compute; auto)) as H2.
  vm_compute in H1, H2. congruence.
Qed.
Print Assumptions C45_update_mixes_kinds_refuted.

(* An empty dictionary filled by update(plain dict of symbols) believes it has string keys. *)
Example C45_plain_update :
  let h := history [INew _ _ []; IUpdatePlain _ _ 1 [(x_pos, 1)]] in
  items _ _ (obj _ _ h 1) = [(x_pos, 1)] /\ is_sympy _ _ (obj _ _ h 1) = false.
Proof. vm_compute. auto. Qed.

(* C46 *)
Theorem C46_sort_keys :
  forall (A : Type) (A_dec : forall a b : A, {a = b} + {a <> b}) (noasm : A) (V : Type) (d : entries A V),
    NoDup (map fst d) -> (forall k, In k (map fst d) -> near_key k) -> consistent noasm (map fst d) ->
    exists h1 r h2 q, new A V d (empty_heap A V) = (h1, Ok r) /\ sort_keys A A_dec noasm V false r h1 = (h2, Ok q) /\
      Permutation (items A V (obj A V h2 q)) d /\
      StronglySorted (fun a b => chars_leb (symbol_to_string A (fst a)) (symbol_to_string A (fst b)) = true) (items A V (obj A V h2 q)).
Proof.
  intros A A_dec noasm V d Hn Hk Hc. destruct (sort_spec A_dec noasm d (empty_heap A V) wf_empty Hn Hk Hc) as (h1 & r & h2 & q & E1 & E2 & E3).
  exists h1, r, h2, q. rewrite E3. exact (conj E1 (conj E2 (conj (Permutation_sym (sort_perm d)) (sort_sorted d)))).
Qed.
Print Assumptions C46_sort_keys.

Theorem C46_sort_keys_far_dates_refuted :
  ~ (forall (d : entries bool nat) h2 q, NoDup (map fst d) ->
       sort_keys bool Bool.bool_dec false nat false 1 (history [INew _ _ d]) = (h2, Ok q) -> Permutation (items _ _ (obj _ _ h2 q)) d).
Proof.
  intro H. pose (d := [(KVar (str "x") (TInt 2) true, 1)] : entries bool nat).
  destruct (sort_keys bool Bool.bool_dec false nat false 1 (history [INew _ _ d])) as [h2 x] eqn:E.
  assert (X : x = Ok 6 /\ items _ _ (obj _ _ h2 6) = [(KPar (str "x_tp2") false, 1)]).
  { replace h2 with (fst (sort_keys bool Bool.bool_dec false nat false 1 (history [INew _ _ d]))) by (rewrite E; reflexivity).
    replace x with (snd (sort_keys bool Bool.bool_dec false nat false 1 (history [INew _ _ d]))) by (rewrite E; reflexivity).
    vm_compute. auto. }
  destruct X as [-> Hi]. specialize (H d h2 6 ltac:(constructor; [intros []|constructor]) E). rewrite Hi in H.
  apply Permutation_length_1_inv in H. discriminate H.
Qed.
Print Assumptions C46_sort_keys_far_dates_refuted.
