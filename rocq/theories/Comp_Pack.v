(* pack_and_compile and the dictionary functions: proofs. *)
From Verif Require Import Common Conv_Model Conv_Spec Conv_Proofs Conv_Runs Conv_Wire Comp_Model Comp_Proofs.

Lemma position_nth p l : match position p l with Some k => nth_error l k = Some p | None => ~ In p l end.
Proof.
  induction l as [|q l IH]; cbn [position nth_error In]; auto. destruct (input_dec p q) as [<-|ne]; [reflexivity|].
  destruct (position p l); cbn [option_map nth_error]; [exact IH|]. intros [e|i]; [congruence|auto].
Qed.
Lemma filter_full {X} (f : X -> bool) l : length (filter f l) = length l -> filter f l = l.
Proof.
  induction l as [|x l IH]; cbn; auto. assert (length (filter f l) <= length l) as le. { clear. induction l; cbn; auto. destruct (f a); cbn; lia. }
  destruct (f x); cbn; intro e; [f_equal; apply IH; lia|lia].
Qed.
Lemma indices_nth {X} (f : X -> bool) (l : list X) : forall o k p, nth_error (filter f l) k = Some p ->
  exists j, nth_error l j = Some p /\ nth_error (map fst (filter (fun q => f (snd q)) (combine (seq o (length l)) l))) k = Some (o + j).
Proof.
  induction l as [|x l IH]; intros o k p; cbn [filter length seq combine snd]; [destruct k; discriminate|].
  destruct (f x) eqn:E.
  - destruct k as [|k]; cbn [nth_error map fst].
    + intros [= ->]. exists 0. rewrite Nat.add_0_r. auto.
    + intro h. destruct (IH (S o) k p h) as (j & e1 & e2). exists (S j). split; auto. rewrite e2. f_equal. lia.
  - intro h. destruct (IH (S o) k p h) as (j & e1 & e2). exists (S j). split; auto. rewrite e2. f_equal. lia.
Qed.
Lemma indices_length {X} (f : X -> bool) (l : list X) : forall o, length (map fst (filter (fun q => f (snd q)) (combine (seq o (length l)) l))) = length (filter f l).
Proof.
  induction l as [|x l IH]; intro o; cbn [filter length seq combine snd]; auto. destruct (f x); cbn [map length]; rewrite ?IH; auto.
Qed.
Lemma indices_bound {X} (f : X -> bool) (l : list X) : forall o j, In j (map fst (filter (fun q => f (snd q)) (combine (seq o (length l)) l))) -> o <= j < o + length l.
Proof.
  intros o j h. apply in_map_iff in h as ([j' x] & e & h). cbn in e; subst j'. apply filter_In in h as [h _]. apply in_combine_l in h. now apply in_seq in h.
Qed.

Section Pack.
Context {V Op : Type}.
Variable sem : Op -> list V -> V.
Variable default : V.
Notation node := (node V Op).
Notation evaln := (evaln sem).
Lemma packed_value active x (rho : nat -> V) (r : nat -> V) (n : node) :
  (forall i nm, In (i, nm) (leaves n) -> r i = match position (i, nm) active with Some k => nth k x default | None => rho i end) ->
  Conv_Spec.evaln (pick_sem sem default x) rho (packed active n) = evaln r n.
Proof.
  induction n as [v|i nm|f l IH] using node_ind'; intro h.
  - reflexivity.
  - cbn [packed Conv_Spec.evaln]. rewrite (h i nm) by (now left). destruct (position (i, nm) active); reflexivity.
  - cbn [packed Conv_Spec.evaln pick_sem]. f_equal. rewrite map_map. cbn [leaves] in h. induction IH as [|a l ha IHl IH']; cbn [map]; auto. cbn [flat_map] in h. f_equal.
    + apply ha. intros i nm hi. apply h, in_or_app. now left.
    + apply IH'. intros i nm hi. apply h, in_or_app. now right.
Qed.
Theorem pack_ok (outs : list node) ss_nodes params x :
  named (flat_map leaves outs) -> NoDup ss_nodes -> length x = length ss_nodes ->
  unambiguous (filter (fun p => if in_dec input_dec p ss_nodes then false else true) (flat_map leaves outs)) ->
  match pack_and_compile sem default outs ss_nodes params x with
  | Ok vals => exists r, vals = map (evaln r) outs /\
      (forall i nm j, In (i, nm) (flat_map leaves outs) -> nth_error ss_nodes j = Some (i, nm) -> nth_error x j = Some (r i)) /\
      (forall i nm, In (i, nm) (flat_map leaves outs) -> ~ In (i, nm) ss_nodes -> get nm params = Some (r i))
  | Err e => (e = KeyError \/ e = TypeError) /\ exists i nm, In (i, nm) (flat_map leaves outs) /\ ~ In (i, nm) ss_nodes /\ get nm params = None
  end.
Proof.
  intros n nd lx u. unfold pack_and_compile. set (isin := fun p => if in_dec input_dec p (inputs_of outs) then true else false).
  set (active := filter isin ss_nodes).
  assert (forall p, In p active <-> In p (flat_map leaves outs) /\ In p ss_nodes) as act.
  { intro p. unfold active. rewrite filter_In. unfold isin. rewrite <- inputs_In. destruct (in_dec input_dec p (inputs_of outs)); intuition discriminate. }
  destruct active as [|a0 rest] eqn:EA.
  - assert (forall p, In p (flat_map leaves outs) -> ~ In p ss_nodes) as out. { intros p h1 h2. destruct (proj2 (act p) (conj h1 h2)). }
    pose proof (kw_function sem default outs params n) as K.
    assert (unambiguous (flat_map leaves outs)) as u'.
    { intros i j a hi hj. apply (u i j a); apply filter_In; split; auto;
        [destruct (in_dec input_dec (i, a) ss_nodes) as [h|]|destruct (in_dec input_dec (j, a) ss_nodes) as [h|]]; auto; exfalso; revert h; now apply out. }
    specialize (K u'). destruct (bind _ _) as [vals|e].
    + destruct K as (r & h & ->). exists r. split; [reflexivity|split].
      * intros i nm j hl hj. exfalso. apply (out _ hl). eapply nth_error_In; eauto.
      * intros i nm hl _. auto.
    + destruct K as [-> (i & nm & hl & en)]. split; auto. exists i, nm. auto.
  - rewrite <- EA in *. clear a0 rest EA.
    set (pin := filter (fun p => if in_dec input_dec p active then false else true) (inputs_of outs)).
    assert (forall p, In p pin <-> In p (flat_map leaves outs) /\ ~ In p ss_nodes) as pins.
    { intro p. unfold pin. rewrite filter_In, inputs_In. destruct (in_dec input_dec p active) as [h|h]; split; try (intros [? ?]; discriminate).
      - intros [h1 h2]. apply act in h as [_ h]. contradiction.
      - intros [h1 _]. split; auto. intro h2. apply h. apply act. auto.
      - intros [h1 _]. auto. }
    pose proof (all_some_spec (map (fun p => get (snd p) params) pin)) as A. destruct (all_some (map (fun p => get (snd p) params) pin)) as [frozen|].
    2:{ split; auto. apply in_map_iff in A as ([i nm] & e & h). apply pins in h as [h1 h2]. exists i, nm. auto. }
    assert (NoDup pin) as ndp by (apply NoDup_filter, NoDup_nodup).
    assert (NoDup (map fst pin)) as ndi. { apply named_nodup; auto. intros i a b ha hb. apply pins in ha as [ha _], hb as [hb _]. eauto. }
    (* the coordinates *)
    assert (exists x', (if negb (length active =? length ss_nodes) then all_some (map (nth_error x) (map fst (filter (fun p => isin (snd p)) (combine (seq 0 (length ss_nodes)) ss_nodes)))) else Some x) = Some x' /\
       length x' = length active /\ forall k p, nth_error active k = Some p -> exists j, nth_error ss_nodes j = Some p /\ nth_error x' k = nth_error x j) as (x' & ex & lx' & hx).
    { destruct (length active =? length ss_nodes) eqn:E; cbn [negb].
      - apply Nat.eqb_eq in E. exists x. split; auto. split; [lia|]. intros k p h. exists k. split; auto.
        rewrite <- h. f_equal. symmetry. now apply filter_full.
      - set (ix := map fst (filter (fun p => isin (snd p)) (combine (seq 0 (length ss_nodes)) ss_nodes))).
        pose proof (all_some_spec (map (nth_error x) ix)) as B. destruct (all_some (map (nth_error x) ix)) as [x'|].
        + exists x'. split; auto. assert (length x' = length active) as l1.
          { apply (f_equal (@length _)) in B. rewrite !map_length in B. rewrite <- B. unfold ix. apply indices_length. }
          split; auto. intros k p h. destruct (indices_nth isin ss_nodes 0 k p h) as (j & e1 & e2). exists j. split; auto.
          cbn [Nat.add] in e2. assert (nth_error (map (nth_error x) ix) k = Some (nth_error x j)) as e3 by (rewrite nth_error_map; unfold ix; rewrite e2; reflexivity).
          rewrite B, nth_error_map in e3. destruct (nth_error x' k); [|discriminate]. cbn in e3. congruence.
        + exfalso. apply in_map_iff in B as (j & e & h). unfold ix in h. apply indices_bound in h. apply nth_error_None in e. lia. }
    unfold isin in ex. rewrite ex. replace (length x' <? length active) with false by (symmetry; apply Nat.ltb_ge; lia).
    set (rho := env default pin frozen).
    set (val := fun p : input => match position p active with Some k => nth k x' default | None => rho (fst p) end).
    set (r := fun i => match find (fun p => fst p =? i) (inputs_of outs) with Some p => val p | None => default end).
    assert (forall i nm, In (i, nm) (flat_map leaves outs) -> r i = val (i, nm)) as hr.
    { intros i nm h. unfold r. destruct (find (fun p => fst p =? i) (inputs_of outs)) as [[j a]|] eqn:F.
      - apply find_some in F as [F1 F2]. cbn in F2. apply Nat.eqb_eq in F2 as ->. apply inputs_In in F1. now rewrite (n i a nm).
      - exfalso. apply inputs_In in h. apply (find_none _ _ F) in h. cbn in h. now rewrite Nat.eqb_refl in h. }
    exists r. split; [|split].
    + apply map_ext_in. intros o ho. apply packed_value. intros i nm hi. rewrite (hr i nm) by (apply in_flat_map; eauto). reflexivity.
    + intros i nm j hl hj. rewrite (hr i nm hl). unfold val. pose proof (position_nth (i, nm) active) as P.
      destruct (position (i, nm) active) as [k|].
      * destruct (hx k _ P) as (j' & e1 & e2). assert (j = j') as <-.
        { apply (proj1 (NoDup_nth_error ss_nodes) nd); [apply nth_error_Some; rewrite hj; discriminate|rewrite hj, e1; reflexivity]. }
        rewrite <- e2. apply nth_error_nth'. rewrite lx'. apply nth_error_Some. congruence.
      * exfalso. apply P, act. split; auto. eapply nth_error_In; eauto.
    + intros i nm hl hn. rewrite (hr i nm hl). unfold val. pose proof (position_nth (i, nm) active) as P.
      destruct (position (i, nm) active) as [k|].
      * exfalso. apply nth_error_In, act in P as [_ P]. contradiction.
      * cbn [fst]. assert (In (i, nm) pin) as hp by (apply pins; auto). apply In_nth_error in hp as [m em].
        assert (nth_error (map (fun p => get (snd p) params) pin) m = Some (get nm params)) as e1 by (rewrite nth_error_map, em; reflexivity).
        rewrite A, nth_error_map in e1. destruct (nth_error frozen m) as [v|] eqn:ev; [|discriminate]. cbn in e1. injection e1 as e1.
        rewrite <- e1. f_equal. symmetry. unfold rho. eapply env_nth; eauto.
Qed.

(* ---------- dictionary functions ---------- *)
Variable cse : list (expr V Op) -> list (sym * expr V Op) * list (expr V Op).
Hypothesis CSE : cse_ok sem cse.
Notation state := (state V Op).
Lemma as_tensor_leaves (e : expr V Op) : forall (st fin : state), inv st -> inv fin -> kept (snd (as_tensor e st)) fin -> clean e -> forall i nm,
  In (i, nm) (leaves (fst (as_tensor e st))) <-> exists y, occurs y e /\ i = number fin (key_of y) /\ nm = sname y.
Proof.
  induction e as [v|s|f l IH] using expr_ind'; intros st fin I F K C i nm.
  - cbn. split; [intros []|intros (y & o & _); inversion o].
  - cbn [as_tensor] in *. destruct (input_for (key_of s) st) as [n st'] eqn:E. cbn [fst snd] in *.
    destruct (input_for_ok _ _ _ _ I E) as (a & b & c). assert (~ is_temp (key_of s)) as t by (apply C; constructor).
    pose proof (K _ _ t b) as b'. destruct (i_inp fin F _ _ t b') as (j & -> & _).
    assert (number fin (key_of s) = j) as N by (unfold number; now rewrite b'). cbn [leaves In]. split.
    + intros [[= <- <-]|[]]. exists s. split; [constructor|]. auto.
    + intros (y & o & -> & ->). inversion o; subst. left. cbn. congruence.
  - rewrite as_tensor_app in *. cbn [fst snd leaves] in *.
    assert (forall x, In x l -> clean x) as C' by (intros x hx y o; apply C; econstructor; eauto). clear C.
    assert (In (i, nm) (flat_map leaves (fst (as_tensors l st))) <-> exists e y, In e l /\ occurs y e /\ i = number fin (key_of y) /\ nm = sname y) as H.
    { revert st I K C'. induction IH as [|x l hx IHl IH']; intros st I K C'; cbn [as_tensors fst snd flat_map] in *.
      - split; [intros []|intros (? & ? & [] & _)].
      - destruct (as_tensor_state x st I) as [a b]. destruct (as_tensors_state l _ a) as [c d]. rewrite in_app_iff.
        rewrite (hx st fin), (IH' (snd (as_tensor x st))); auto.
        + split.
          * intros [(y & o & h)|(e & y & h1 & h2)]; [exists x, y; cbn; auto|exists e, y; cbn; tauto].
          * intros (e & y & [<-|h1] & h2); [left; eauto|right; exists e, y; tauto].
        + intros; apply C'; now right.
        + eapply kept_trans; [|exact K]. intros k m _ q. now apply d.
        + apply C'. now left. }
    rewrite H. split.
    + intros (e & y & h1 & h2 & h3). exists y. split; auto. econstructor; eauto.
    + intros (y & o & h). inversion o; subst. exists e, y. auto.
Qed.
Lemma as_tensors_leaves (l : list (expr V Op)) : forall (st fin : state), inv st -> inv fin -> kept (snd (as_tensors l st)) fin -> Forall clean l -> forall i nm,
  In (i, nm) (flat_map leaves (fst (as_tensors l st))) <-> exists e y, In e l /\ occurs y e /\ i = number fin (key_of y) /\ nm = sname y.
Proof.
  induction l as [|x l IH]; intros st fin I F K C i nm; cbn [as_tensors fst snd flat_map] in *.
  - split; [intros []|intros (? & ? & [] & _)].
  - inversion C as [|? ? cx C']; subst. destruct (as_tensor_state x st I) as [a b]. destruct (as_tensors_state l _ a) as [c d]. rewrite in_app_iff.
    rewrite (as_tensor_leaves x st fin), (IH _ fin); auto.
    + split.
      * intros [(y & o & h)|(e & y & h1 & h2)]; [exists x, y; cbn; auto|exists e, y; cbn; tauto].
      * intros (e & y & [<-|h1] & h2); [left; eauto|right; exists e, y; tauto].
    + eapply kept_trans; [|exact K]. intros k m _ q. now apply d.
Qed.
(* the values given by name *)
Definition by_name (kw : list (chars * V)) (k : key) : V := match get (fst k) kw with Some v => v | None => default end.
Definition plain_params (ins : list sym) : Prop := (forall s, In s ins -> scls s = CSymbol /\ clean_sym s) /\ NoDup (map sname ins).
Theorem dict_function_ok ins names outs st kw : inv st -> plain_params ins -> Forall clean (exprs_of outs) -> length names = length outs -> NoDup (map sname names) ->
  match dict_compile cse ins outs st with
  | Ok _ => outs <> [] /\ Forall (formula_over (map key_of ins)) outs /\
      match dict_function sem default cse ins names outs st kw with
      | Ok d => (forall s, In s ins -> get (sname s) kw <> None) /\ (forall k, In k (map fst kw) -> In k (map sname ins)) /\
          map fst d = map sname names /\
          forall j s o, nth_error names j = Some s -> nth_error outs j = Some o -> get (sname s) d = Some (evalo sem (by_name kw) o)
      | Err e => e = TypeError /\ ((exists s, In s ins /\ get (sname s) kw = None) \/ exists k, In k (map fst kw) /\ ~ In k (map sname ins))
      end
  | Err e => dict_function sem default cse ins names outs st kw = Err e /\
      ((e = ValueError /\ outs = []) \/ (e = MissingInput /\ exists o, In o outs /\ ~ formula_over (map key_of ins) o))
  end.
Proof.
  intros I [P1 P2] C L ND. unfold dict_function. set (c := convert cse ins outs false st).
  assert (Forall clean_sym ins) as CI by (apply Forall_forall; intros s h; now apply P1).
  destruct (convert_ok sem cse CSE ins outs false st CI C I) as (IC & KC & VC). fold c in IC, KC, VC.
  set (fin := snd c) in *.
  assert (fst (fst c) = map (fun s => Inp (number fin (key_of s)) (sname s)) ins) as EI.
  { assert (kept (snd (as_tensors (map Sy ins) st)) fin) as K1.
    { unfold fin, c, convert. cbn [andb snd]. destruct (as_tensors_state (map Sy ins) st I) as [a _]. destruct (as_tensors_state (map to_expr outs) _ a) as [_ d]. intros k m _ q. now apply d. }
    destruct (inputs_ok ins st fin CI I IC K1) as [e _]. rewrite <- e. reflexivity. }
  assert (map inp_of (fst (fst c)) = map (fun s => (number fin (key_of s), sname s)) ins) as EI' by (rewrite EI, map_map; reflexivity).
  assert (forall s t, In s ins -> In t ins -> sname s = sname t -> key_of s = key_of t) as KN.
  { intros s t hs ht e. unfold key_of. rewrite e. destruct (P1 s hs) as [-> _]. destruct (P1 t ht) as [-> _]. reflexivity. }
  assert (forall i nm, In (i, nm) (flat_map leaves (snd (fst c))) <-> exists e y, In (inr e) outs /\ occurs y e /\ i = number fin (key_of y) /\ nm = sname y) as LV.
  { intros i nm. unfold c, convert. cbn [andb fst snd]. destruct (as_tensors_state (map Sy ins) st I) as [a _].
    rewrite (as_tensors_leaves (map to_expr outs) _ fin); auto.
    - split; intros (e & y & h1 & h2 & h3).
      + exists e, y. split; auto. apply in_map_iff in h1 as ([v|e'] & <- & h1); [inversion h2|exact h1].
      + exists e, y. split; auto. apply in_map_iff. exists (inr e). auto.
    - apply kept_refl.
    - apply Forall_forall. intros e h. now apply (clean_out outs). }
  assert (In_ins : forall i nm, In (i, nm) (map inp_of (fst (fst c))) <-> exists s, In s ins /\ i = number fin (key_of s) /\ nm = sname s).
  { intros i nm. rewrite EI', in_map_iff. split; intros (s & h & h').
    - injection h as <- <-. eauto.
    - destruct h' as [-> ->]. eauto. }
  assert (over : (forall p, In p (flat_map leaves (snd (fst c))) -> In p (map inp_of (fst (fst c)))) <-> Forall (formula_over (map key_of ins)) outs).
  { rewrite Forall_forall. split.
    - intros h [v|e] ho; cbn; auto. intros y oy. specialize (h (number fin (key_of y), sname y)). rewrite LV, In_ins in h.
      destruct h as (s & hs & e1 & _); [exists e, y; auto|]. apply number_inj in e1; auto.
      + rewrite e1. now apply in_map.
      + rewrite Forall_forall in C. apply (C e); auto. now apply in_exprs_of.
      + now apply P1.
    - intros h [i nm] hl. apply LV in hl as (e & y & ho & oy & -> & ->). apply In_ins. specialize (h _ ho y oy).
      apply in_map_iff in h as (s & e1 & hs). exists s. rewrite e1. split; auto. split; auto. apply (f_equal fst) in e1. symmetry. exact e1. }
  assert (outs = [] \/ outs <> []) as [->|NE] by (destruct outs; [now left|right; discriminate]).
  { unfold dict_compile. split; [reflexivity|]. left. auto. }
  assert (dict_compile cse ins outs st = function (map inp_of (fst (fst c))) (snd (fst c))) as ->.
  { unfold dict_compile. clear - NE. destruct outs; [congruence|reflexivity]. }
  pose proof (function_ok (map inp_of (fst (fst c))) (snd (fst c))) as F. destruct (function _ _) as [f|e]; cbn [bind].
  2:{ destruct F as [-> ([i nm] & h & nh)]. split; auto. right. split; auto.
      pose proof h as h'. apply LV in h' as (e & y & ho & oy & -> & ->). exists (inr e). split; auto. intro fo. apply nh. apply In_ins.
      specialize (fo y oy). apply in_map_iff in fo as (s & e1 & hs). exists s. rewrite e1. split; auto. split; auto. apply (f_equal fst) in e1. symmetry. exact e1. }
  destruct F as [-> F]. split; auto. split; [now apply over|].
  assert (map snd (map inp_of (fst (fst c))) = map sname ins) as SN by (rewrite EI', map_map; reflexivity).
  pose proof (call_kw_ok sem default (Func (map inp_of (fst (fst c))) (snd (fst c))) kw) as K. cbn [f_ins f_outs] in K.
  assert (NoDup (map fst (map inp_of (fst (fst c))))) as nd1.
  { rewrite EI', map_map. cbn [fst]. clear - P2 KN IC P1. clearbody fin. clear c. induction ins as [|s ins IH]; cbn [map] in *; constructor.
    - intro h. apply in_map_iff in h as (t & e & ht). inversion P2 as [|? ? nin nd']; subst. apply nin.
      apply number_inj in e; auto; [|apply P1; now right|apply P1; now left]. apply in_map_iff. exists t. split; auto. apply (f_equal fst) in e. exact e.
    - inversion P2; subst. apply IH; auto. + intros; apply P1; now right. + intros; apply KN; auto; now right. }
  specialize (K nd1). rewrite SN in K. specialize (K P2).
  destruct (call_kw sem default (Func (map inp_of (fst (fst c))) (snd (fst c))) kw) as [vals|e]; cbn [bind].
  - destruct K as (K1 & r & K2 & ->). split; [|split; [exact K1|]].
    + intros s hs. rewrite (K2 (number fin (key_of s)) (sname s)); [congruence|]. apply In_ins. eauto.
    + assert (forall s, In s ins -> r (number fin (key_of s)) = by_name kw (key_of s)) as RV.
      { intros s hs. unfold by_name. cbn [key_of fst]. rewrite (K2 (number fin (key_of s)) (sname s)); auto. apply In_ins. eauto. }
      assert (length (snd (fst c)) = length outs) as LO. { eapply Forall2_len. apply (VC fin (fun _ => default) (fun k => default)); [apply kept_refl|]. intros k nn t q. destruct (i_inp fin IC k nn t q) as (j & -> & _). reflexivity. }
      assert (length (map sname names) = length (map (evaln r) (snd (fst c)))) as LL by (rewrite !map_length; lia).
      assert (map fst (combine (map sname names) (map (evaln r) (snd (fst c)))) = map sname names) as MF.
      { revert LL. generalize (map sname names), (map (evaln r) (snd (fst c))). clear. induction l as [|a l IH]; intros [|b l']; cbn; auto; try discriminate. intros [= e]. f_equal. auto. }
      rewrite dict_of_nodup by (rewrite MF; auto). split; [exact MF|]. intros j s o ej eo.
      destruct (Forall2_nth_r _ _ _ (VC fin r (fun k => r (number fin k)) (kept_refl _) (agrees_inputs sem fin r IC)) j o eo) as (nn & en & vn).
      rewrite (get_nth _ _ j _ (evaln r nn) ND); [|now rewrite nth_error_map, ej|now rewrite nth_error_map, en].
      f_equal. rewrite vn. destruct o as [v|e]; [reflexivity|]. cbn [evalo]. apply evale_ext. intros y oy.
      pose proof (proj1 over F) as fo. rewrite Forall_forall in fo. specialize (fo _ (nth_error_In _ _ eo) y oy).
      apply in_map_iff in fo as (s' & e1 & hs). rewrite <- e1. now apply RV.
  - destruct K as [-> K]. split; auto. destruct K as [K|(i & nm & h & e)]; [now right|left].
    apply In_ins in h as (s & hs & -> & ->). eauto.
Qed.
End Pack.
