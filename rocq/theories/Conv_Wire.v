(* The wiring of an estimation model: proofs. *)
From Verif Require Import Common Conv_Model Conv_Spec Conv_Proofs Conv_Runs.

Section Wire.
Context {V Op : Type}.
Variable sem : Op -> list V -> V.
Notation expr := (expr V Op).
Notation node := (node V Op).
Notation state := (state V Op).
Notation evale := (evale sem).
Notation evaln := (evaln sem).
Notation evalo := (evalo sem).
Variable cse : list expr -> list (sym * expr) * list expr.
Variable deriv : expr -> sym -> expr.
Variable is_number : expr -> bool.
Variable zero : V.
Variables (op_mul op_switch : Op) (one : V).
Hypothesis CSE : cse_ok sem cse.

Definition via (m : mapping V Op) (r : nat -> V) (i : nat) : V := match lookup i m with Some n => evaln r n | None => r i end.
Lemma replace_value m r n : evaln r (replace m n) = evaln (via m r) n.
Proof.
  induction n as [v|i nm|f l IH] using node_ind'.
  - reflexivity.
  - cbn [replace Conv_Spec.evaln]. unfold via. destruct (lookup i m); reflexivity.
  - cbn [replace Conv_Spec.evaln]. f_equal. rewrite map_map. induction IH; cbn; f_equal; auto.
Qed.
Lemma evale_ext E E' e : (forall x, occurs x e -> E (key_of x) = E' (key_of x)) -> evale E e = evale E' e.
Proof.
  induction e as [v|s|f l IH] using expr_ind'; intro h.
  - reflexivity.
  - apply h. constructor.
  - cbn [Conv_Spec.evale]. f_equal. assert (forall e x, In e l -> occurs x e -> E (key_of x) = E' (key_of x)) as h' by (intros; apply h; econstructor; eauto).
    clear h. induction IH as [|e l he IHl IH']; cbn [map]; auto. f_equal.
    + apply he. intros x o. apply (h' e); auto. now left.
    + apply IH'. intros e' x i. apply h'. now right.
Qed.
Lemma lookup_mset i j nm v (m : mapping V Op) : lookup i (mset (Inp j nm) v m) = if i =? j then Some v else lookup i m.
Proof.
  cbn [mset lookup]. destruct (i =? j) eqn:E; auto. induction m as [|[k n] m IH]; cbn [filter lookup fst negb]; auto.
  destruct (k =? j) eqn:F; cbn [negb lookup].
  - rewrite IH. apply Nat.eqb_eq in F as ->. now rewrite E.
  - destruct (i =? k); auto.
Qed.
Lemma length_mset j nm v (m : mapping V Op) : length (mset (Inp j nm) v m) <= S (length m).
Proof. cbn [mset length]. apply le_n_S. induction m as [|p m IH]; cbn; [lia|]. destruct (negb _); cbn; lia. Qed.
Lemma length_mset_new j nm v (m : mapping V Op) : lookup j m = None -> length (mset (Inp j nm) v m) = S (length m).
Proof.
  cbn [mset length]. intro h. f_equal. induction m as [|[k n] m IH]; cbn [filter lookup fst length] in *; auto.
  destruct (j =? k) eqn:F; [discriminate|]. rewrite Nat.eqb_sym, F. cbn [negb length]. f_equal. auto.
Qed.
Lemma lookup_app i (m m' : mapping V Op) : lookup i (m ++ m') = match lookup i m with Some v => Some v | None => lookup i m' end.
Proof. induction m as [|[j n] m IH]; cbn; auto. destruct (i =? j); auto. Qed.
Lemma lookup_map i (f : node -> node) (m : mapping V Op) : lookup i (map (fun q => (fst q, f (snd q))) m) = option_map f (lookup i m).
Proof. induction m as [|[j n] m IH]; cbn; auto. destruct (i =? j); auto. Qed.

(* make_return_dict_and_update_cache *)
Lemma return_dict_ok c syms : forall vals m (st : state), inv st -> (forall s, In s syms -> ~ is_temp (sname s, c)) ->
  inv (snd (return_dict syms vals c m st)) /\
  (forall k n, cache st k = Some n -> cache (snd (return_dict syms vals c m st)) k = Some n) /\
  length (fst (return_dict syms vals c m st)) <= length m + Nat.min (length syms) (length vals) /\
  forall fin, inv fin -> kept (snd (return_dict syms vals c m st)) fin ->
    (forall i, (forall s, In s syms -> i <> number fin (sname s, c)) -> lookup i (fst (return_dict syms vals c m st)) = lookup i m) /\
    (NoDup (map sname syms) -> forall j s v, nth_error syms j = Some s -> nth_error vals j = Some v ->
       lookup (number fin (sname s, c)) (fst (return_dict syms vals c m st)) = Some v) /\
    (NoDup (map sname syms) -> (forall s, In s syms -> lookup (number fin (sname s, c)) m = None) ->
       length (fst (return_dict syms vals c m st)) = length m + Nat.min (length syms) (length vals)).
Proof.
  induction syms as [|s syms IH]; intros [|v vals] m st I hc; cbn [return_dict fst snd length Nat.min];
    try (split; [exact I|split; [auto|split; [lia|]]]; intros fin F K; split; [auto|split; [intros _ [|j]; cbn; try discriminate|intros; lia]]; fail).
  destruct (input_for (sname s, c) st) as [n st1] eqn:X. cbn [fst snd].
  destruct (input_for_ok _ _ _ _ I X) as (a & b & d).
  destruct (i_inp st1 a _ _ (hc s (or_introl eq_refl)) b) as (i & -> & lt).
  destruct (IH vals (mset (Inp i (fst (sname s, c))) v m) st1 a) as (e & f & g & h). { intros; apply hc; now right. }
  split; [exact e|split; [auto|split]].
  { pose proof (length_mset i (fst (sname s, c)) v m). lia. }
  intros fin F K. destruct (h fin F K) as (h1 & h2 & h3).
  assert (number fin (sname s, c) = i) as N.
  { assert (cache fin (sname s, c) = Some (Inp i (fst (sname s, c)))) as q. { apply K; [apply hc; now left|]. apply f, b. }
    unfold number. now rewrite q. }
  assert (forall s', In s' syms -> sname s <> sname s' -> number fin (sname s', c) <> i) as D.
  { intros s' i' ne e'. rewrite <- N in e'. apply number_inj in e'; auto; [congruence|apply hc; now right|apply hc; now left]. }
  split; [|split].
  - intros i' hi. rewrite h1 by (intros; apply hi; now right). rewrite lookup_mset.
    destruct (i' =? i) eqn:E; auto. apply Nat.eqb_eq in E as ->. exfalso. apply (hi s (or_introl eq_refl)). now rewrite N.
  - intros nd j s' v' e1 e2. inversion nd as [|? ? nin nd']; subst. destruct j as [|j]; cbn [nth_error] in e1, e2.
    + injection e1 as <-. injection e2 as <-. rewrite h1.
      * rewrite lookup_mset, Nat.eqb_refl. reflexivity.
      * intros s' hs' q. apply (D s'); auto. intro z. apply nin. rewrite z. now apply in_map.
    + apply (h2 nd' j); auto.
  - intros nd hn. inversion nd as [|? ? nin nd']; subst. rewrite h3; auto.
    + rewrite length_mset_new; [lia|]. apply hn. now left.
    + intros s' hs'. rewrite lookup_mset. destruct (number fin (sname s', c) =? number fin (sname s, c)) eqn:E; [|apply hn; now right].
      apply Nat.eqb_eq in E. exfalso. apply (D s'); auto. intro z. apply nin. rewrite z. now apply in_map.
Qed.

Lemma Forall2_nth_r {A B} (R : A -> B -> Prop) l l' : Forall2 R l l' -> forall i b, nth_error l' i = Some b -> exists a, nth_error l i = Some a /\ R a b.
Proof. induction 1; intros [|i] b'; cbn; try discriminate; [intros [= <-]; eauto|apply IHForall2]. Qed.
Lemma exprs_of_map (l : list sym) : exprs_of (map (fun s => inr (Sy s)) l : list (output V Op)) = map Sy l.
Proof. unfold exprs_of. induction l; cbn; f_equal; auto. Qed.
Lemma exprs_of_app (a b : list (output V Op)) : exprs_of (a ++ b) = exprs_of a ++ exprs_of b.
Proof. unfold exprs_of. apply flat_map_app. Qed.
Lemma in_exprs_of (a : list (output V Op)) e : In e (exprs_of a) <-> In (inr e) a.
Proof.
  unfold exprs_of. rewrite in_flat_map. split.
  - intros ([v|e'] & i & h); [destruct h|destruct h as [<-|[]]; auto].
  - intro i. exists (inr e). split; auto. now left.
Qed.

Variables (free : list sym) (det : list (sym * output V Op)) (sol : sym -> option (output V Op)) (l : linear V Op).
Hypothesis W : wf_model deriv free det sol l.
Hypothesis Wsol : forall v o, In v (ss_vars l) -> sol v = Some o -> formula_over (map key_of (free ++ map fst det)) o.
Notation params := (free ++ map fst det).

Lemma free_clean s : In s free -> clean_sym s.
Proof. intro i. apply (w_params _ _ _ _ _ W). apply in_or_app. now left. Qed.
Lemma keys_clean k : In k (map key_of params) -> ~ is_temp k.
Proof. intro i. apply in_map_iff in i as (s & <- & i). now apply (w_params _ _ _ _ _ W). Qed.
Lemma formula_clean ks o : (forall k, In k ks -> ~ is_temp k) -> formula_over ks o -> match o with inl _ => True | inr e => @clean V Op e end.
Proof. intros h. destruct o as [v|e]; cbn; auto. intros f x o. apply h. auto. Qed.
Lemma free_keys k : In k (map key_of free) -> In k (map key_of params).
Proof. rewrite map_app. intro. apply in_or_app. now left. Qed.
Lemma key_params s : In s params -> key_of s = (sname s, CSymbol).
Proof. intro i. apply (w_params _ _ _ _ _ W) in i as [e _]. unfold key_of. now rewrite e. Qed.
Lemma key_ss s : In s (ss_vars l) -> key_of s = (sname s, CTime).
Proof. intro i. apply (w_ss _ _ _ _ _ W) in i as e. unfold key_of. now rewrite e. Qed.
Lemma param_value_none th k : ~ In k (map key_of (map fst det)) -> param_value sem det th k = th k.
Proof.
  clear W Wsol. induction det as [|[s o] d IH]; cbn [map param_value fst In]; auto.
  intro h. destruct (key_dec (key_of s) k) as [e|e]; [exfalso; auto|]. apply IH; auto.
Qed.
Lemma param_value_at th j s o : NoDup (map sname (map fst det)) -> (forall s, In s (map fst det) -> key_of s = (sname s, CSymbol)) ->
  nth_error det j = Some (s, o) -> param_value sem det th (key_of s) = evalo th o.
Proof.
  clear W Wsol. revert j. induction det as [|[s' o'] d IH]; intros [|j]; cbn [nth_error map fst param_value]; try discriminate; intros nd hk.
  - intros [= -> ->]. destruct (key_dec (key_of s) (key_of s)); congruence.
  - intro e. inversion nd as [|? ? nin nd']; subst. destruct (key_dec (key_of s') (key_of s)) as [q|q].
    + exfalso. apply nin. assert (In s (map fst d)) as i by (apply nth_error_In in e; apply in_map_iff; exists (s, o); auto).
      rewrite (hk s'), (hk s) in q by (cbn; auto). injection q as ->. now apply in_map.
    + eapply IH; eauto. intros; apply hk; now right.
Qed.

(* the parameters *)
Notation P := (param_mapping cse free det empty).
Lemma P_ok : inv (snd P) /\ forall fin r, inv fin -> kept (snd P) fin ->
  (forall k, ~ is_temp k -> via (fst P) r (number fin k) = param_value sem det (fun k => r (number fin k)) k) /\
  (forall k, ~ is_temp k -> snd k = CTime -> lookup (number fin k) (fst P) = None).
Proof.
  unfold param_mapping.
  set (outs := map (fun s => inr (Sy s)) free ++ map snd det : list (output V Op)).
  assert (Forall clean (exprs_of outs)) as co.
  { apply Forall_forall. intros e i. unfold outs in i. rewrite exprs_of_app, exprs_of_map in i. apply in_app_or in i as [i|i].
    - apply in_map_iff in i as (s & <- & i). intros x o. inversion o; subst. now apply free_clean.
    - apply in_exprs_of, in_map_iff in i as ([d o] & e' & i). cbn in e'. subst o. pose proof (w_det _ _ _ _ _ W _ _ i) as f.
      apply (formula_clean _ (inr e)) in f; auto. intros k h. apply keys_clean, free_keys, h. }
  destruct (convert_ok sem cse CSE free outs false empty) as (a & b & c); auto using inv_empty.
  { apply Forall_forall. apply free_clean. }
  destruct (return_dict_ok CSymbol params (snd (fst (convert cse free outs false empty))) [] _ a) as (e & f & _ & h).
  { intros s i. rewrite <- key_params by auto. apply keys_clean. now apply in_map. }
  split; [exact e|]. intros fin r F K. destruct (h fin F K) as (h1 & h2 & _).
  assert (kept (snd (convert cse free outs false empty)) fin) as K'.
  { eapply kept_trans; [|exact K]. intros k n _ q. now apply f. }
  specialize (c fin r (fun k => r (number fin k)) K' (agrees_inputs sem fin r F)).
  destruct (w_distinct _ _ _ _ _ W) as [nd _]. specialize (h2 nd).
  assert (forall i, (forall s, In s params -> i <> number fin (key_of s)) ->
    lookup i (fst (return_dict params (snd (fst (convert cse free outs false empty))) CSymbol [] (snd (convert cse free outs false empty)))) = None) as none.
  { intros i q. rewrite h1; auto. intros s hs. rewrite <- key_params; auto. }
  split.
  - intros k hk. unfold via.
    destruct (in_dec key_dec k (map key_of params)) as [i|ni].
    + apply in_map_iff in i as (s & <- & i). apply In_nth_error in i as [j ej].
      assert (exists o, nth_error outs j = Some o /\ evalo (fun k => r (number fin k)) o = param_value sem det (fun k => r (number fin k)) (key_of s)) as (o & eo & vo).
      { destruct (Nat.lt_ge_cases j (length free)) as [lt|ge].
        - rewrite nth_error_app1 in ej by auto. exists (inr (Sy s)). split.
          + unfold outs. rewrite nth_error_app1 by (rewrite map_length; auto). rewrite nth_error_map, ej. reflexivity.
          + cbn. symmetry. apply param_value_none. intro q. apply in_map_iff in q as (s' & e' & i').
            rewrite map_app in nd. assert (sname s' = sname s) as e''.
            { rewrite (key_params s), (key_params s') in e'; [congruence|apply in_or_app; now right|apply in_or_app; left; eapply nth_error_In; eauto]. }
            apply nth_error_In in ej.
            apply in_split in ej as (l1 & l2 & ->). rewrite map_app in nd. cbn in nd. rewrite <- app_assoc in nd. apply NoDup_remove_2 in nd.
            apply nd. apply in_or_app. right. apply in_or_app. right. rewrite <- e''. now apply in_map.
        - rewrite nth_error_app2 in ej by auto. rewrite nth_error_map in ej.
          destruct (nth_error det (j - length free)) as [[d o]|] eqn:E; [|discriminate]. cbn in ej. injection ej as ->. exists o. split.
          + unfold outs. rewrite nth_error_app2; rewrite map_length; auto. rewrite nth_error_map, E. reflexivity.
          + symmetry. eapply param_value_at; eauto.
            * rewrite map_app in nd. clear - nd. induction free; cbn in nd; auto. inversion nd; auto.
            * intros s' i'. apply key_params. apply in_or_app. now right. }
      destruct (Forall2_nth_r _ _ _ c j o eo) as (n & en & vn).
      assert (key_of s = (sname s, CSymbol)) as ks by (apply key_params; eapply nth_error_In; eauto).
      rewrite ks at 1. rewrite (h2 j s n ej en). congruence.
    + rewrite none.
      * rewrite param_value_none; auto. intro q. apply ni. rewrite map_app. apply in_or_app. now right.
      * intros s hs q. apply number_inj in q; auto; [|apply keys_clean; now apply in_map]. apply ni. rewrite q. now apply in_map.
  - intros k hk ct. apply none. intros s hs q. apply number_inj in q; auto; [|apply keys_clean; now apply in_map].
    rewrite (key_params s hs) in q. subst k. discriminate.
Qed.
(* the steady state *)
Lemma known_length : length (known_exprs sol (ss_vars l)) <= length (ss_vars l).
Proof. clear. unfold known_exprs. induction (ss_vars l) as [|v vs IH]; cbn; auto. destruct (sol v); cbn; lia. Qed.
Lemma known_full : length (known_exprs sol (ss_vars l)) = length (ss_vars l) <-> forall v, In v (ss_vars l) -> sol v <> None.
Proof.
  clear. unfold known_exprs. induction (ss_vars l) as [|v vs IH]; cbn [flat_map length In]; [split; auto; intros _ ? []|].
  assert (length (flat_map (fun v => match sol v with Some o => [o] | None => [] end) vs) <= length vs) as le.
  { clear. induction vs as [|v vs IH]; cbn; auto. destruct (sol v); cbn; lia. }
  destruct (sol v) as [o|] eqn:E; cbn [app length]; split; intro h.
  - intros v' [<-|i]; [congruence|]. apply IH; [lia|auto].
  - f_equal. apply IH. auto.
  - lia.
  - exfalso. apply (h v); auto.
Qed.
Lemma known_nth j v : (forall v, In v (ss_vars l) -> sol v <> None) -> nth_error (ss_vars l) j = Some v ->
  exists o, sol v = Some o /\ nth_error (known_exprs sol (ss_vars l)) j = Some o.
Proof.
  clear. unfold known_exprs. revert j. induction (ss_vars l) as [|v' vs IH]; intros [|j] h; cbn [flat_map nth_error]; try discriminate.
  - intros [= ->]. destruct (sol v) as [o|] eqn:E; [exists o; auto|]. exfalso. apply (h v); cbn; auto.
  - intro e. destruct (sol v') as [o|] eqn:E; [|exfalso; apply (h v'); cbn; auto]. cbn. apply IH; auto. intros; apply h; now right.
Qed.
Lemma ss_value_none Q k : ~ In k (map key_of (ss_vars l)) -> ss_value sem sol (ss_vars l) Q k = Q k.
Proof.
  clear. induction (ss_vars l) as [|s d IH]; cbn [map ss_value In]; auto.
  intro h. destruct (key_dec (key_of s) k) as [e|e]; [exfalso; auto|]. apply IH; auto.
Qed.
Lemma ss_value_at Q j s o : nth_error (ss_vars l) j = Some s -> sol s = Some o -> ss_value sem sol (ss_vars l) Q (key_of s) = evalo Q o.
Proof.
  destruct (w_distinct _ _ _ _ _ W) as [_ nd]. pose proof key_ss as hk. clear W Wsol. revert j hk nd.
  induction (ss_vars l) as [|s' d IH]; intros [|j] hk nd; cbn [nth_error ss_value]; try discriminate.
  - intros [= ->] ->. destruct (key_dec (key_of s) (key_of s)); congruence.
  - intros e eo. inversion nd as [|? ? nin nd']; subst. destruct (key_dec (key_of s') (key_of s)) as [q|q].
    + exfalso. apply nin. apply nth_error_In in e. rewrite (hk s'), (hk s) in q by (cbn; auto). injection q as ->. now apply in_map.
    + eapply IH; eauto. intros; apply hk; now right.
Qed.
Notation S := (ss_mapping cse sol (ss_vars l) params (snd P)).
Lemma time_clean nm : ~ is_temp (nm, CTime).
Proof. intros [n e]. discriminate. Qed.
Lemma S_ok : inv (snd S) /\ kept (snd P) (snd S) /\
  (length (fst S) = length (ss_vars l) <-> forall v, In v (ss_vars l) -> sol v <> None) /\
  ((forall v, In v (ss_vars l) -> sol v <> None) -> forall fin r, inv fin -> kept (snd S) fin ->
    (forall k, ~ is_temp k -> ~ In k (map key_of (ss_vars l)) -> lookup (number fin k) (fst S) = None) /\
    (forall s, In s (ss_vars l) -> exists n o, lookup (number fin (key_of s)) (fst S) = Some n /\ sol s = Some o /\
       evaln r n = evalo (fun k => r (number fin k)) o)).
Proof.
  destruct P_ok as [IP _]. unfold ss_mapping. set (outs := known_exprs sol (ss_vars l)).
  assert (Forall clean (exprs_of outs)) as co.
  { apply Forall_forall. intros e i. apply in_exprs_of in i. unfold outs, known_exprs in i. apply in_flat_map in i as (v & iv & i).
    destruct (sol v) as [o|] eqn:E; [|destruct i]. destruct i as [->|[]]. apply (formula_clean _ (inr e) keys_clean). eapply Wsol; eauto. }
  destruct (convert_ok sem cse CSE params outs false (snd P)) as (a & b & c); auto.
  { apply Forall_forall. intros s i. now apply (w_params _ _ _ _ _ W). }
  destruct (return_dict_ok CTime (ss_vars l) (snd (fst (convert cse params outs false (snd P)))) [] _ a) as (e & f & g & h).
  { intros s _. apply time_clean. }
  assert (length (snd (fst (convert cse params outs false (snd P)))) = length outs) as L.
  { set (st := snd (convert cse params outs false (snd P))) in *.
    assert (forall r, agrees sem st r (fun k => r (number st k))) as A by (intro; now apply agrees_inputs).
    unfold convert. cbn [andb]. cbn [fst snd]. generalize (snd (as_tensors (map Sy params) (snd P))). clear. induction outs; intro s; cbn; f_equal; auto. }
  split; [exact e|split; [|split]].
  - intros k n t q. apply f, b; auto.
  - rewrite <- known_full. fold outs. pose proof known_length. fold outs in H.
    destruct (h _ e (kept_refl _)) as (_ & _ & h3). destruct (w_distinct _ _ _ _ _ W) as [_ nd].
    rewrite h3 by auto. cbn [length]. rewrite L. lia.
  - intros full fin r F K. destruct (h fin F K) as (h1 & h2 & _). destruct (w_distinct _ _ _ _ _ W) as [_ nd]. specialize (h2 nd).
    assert (kept (snd (convert cse params outs false (snd P))) fin) as K'.
    { eapply kept_trans; [|exact K]. intros k n _ q. now apply f. }
    specialize (c fin r (fun k => r (number fin k)) K' (agrees_inputs sem fin r F)). split.
    + intros k hk ni. rewrite h1; auto. intros s hs q. rewrite <- key_ss in q by auto. apply number_inj in q; auto.
      * apply ni. rewrite q. now apply in_map.
      * rewrite key_ss by auto. apply time_clean.
    + intros s hs. apply In_nth_error in hs as [j ej]. destruct (known_nth j s full ej) as (o & eo & no).
      destruct (Forall2_nth_r _ _ _ c j o no) as (n & en & vn). exists n, o. rewrite key_ss by (eapply nth_error_In; eauto). split; [eapply h2; eauto|auto].
Qed.
Notation SM := (map (fun q => (fst q, replace (fst P) (snd q))) (fst S)).
(* every symbol of the model gets its value *)
Lemma env_ok fin r : (forall v, In v (ss_vars l) -> sol v <> None) -> inv fin -> kept (snd S) fin ->
  forall k, ~ is_temp k -> via (SM ++ fst P) r (number fin k)
    = ss_value sem sol (ss_vars l) (param_value sem det (fun k => r (number fin k))) k.
Proof.
  intros full F K k hk. destruct P_ok as [_ hp]. destruct S_ok as (_ & kp & _ & hs).
  assert (kept (snd P) fin) as KP by (eapply kept_trans; eauto).
  destruct (hp fin r F KP) as [hp1 hp2].
  destruct (hs full fin (via (fst P) r) F K) as [hs1 hs2].
  unfold via at 1. rewrite lookup_app, lookup_map.
  destruct (in_dec key_dec k (map key_of (ss_vars l))) as [i|ni].
  - apply in_map_iff in i as (s & <- & i). destruct (hs2 s i) as (n & o & e1 & e2 & e3). rewrite e1. cbn [option_map].
    rewrite replace_value, e3. apply In_nth_error in i as [j ej]. rewrite (ss_value_at _ j s o ej e2).
    pose proof (Wsol s o (nth_error_In _ _ ej) e2) as fo. destruct o as [v|e]; [reflexivity|].
    cbn [Conv_Spec.evalo]. apply evale_ext. intros x ox. apply hp1. apply keys_clean, fo, ox.
  - rewrite hs1 by auto. cbn [option_map]. rewrite ss_value_none by auto. now apply hp1.
Qed.
Lemma Forall2_nth_lr {A B} (R : A -> B -> Prop) l1 l2 : Forall2 R l1 l2 -> forall i a b, nth_error l1 i = Some a -> nth_error l2 i = Some b -> R a b.
Proof. induction 1; intros [|i] a b; cbn; try discriminate; [intros [= <-] [= <-]; auto|apply IHForall2]. Qed.
Lemma zip_nth {X Y Z} (f : X -> Y -> Z) a : forall b i x y, nth_error a i = Some x -> nth_error b i = Some y -> nth_error (zip_with f a b) i = Some (f x y).
Proof. induction a; intros [|] [|]; cbn; intros; try discriminate; eauto; congruence. Qed.
Lemma zip_length {X Y Z} (f : X -> Y -> Z) a : forall b, length a = length b -> length (zip_with f a b) = length a.
Proof. induction a; intros [|]; cbn; intros; auto; discriminate. Qed.
Lemma entry_map {X Y} (f : X -> Y) m i j : entry (map (map f) m) i j = option_map f (entry m i j).
Proof. unfold entry. rewrite nth_error_map. destruct (nth_error m i); cbn; auto. apply nth_error_map. Qed.
Lemma is_matrix_map {X Y} (f : X -> Y) m a b : is_matrix a b m -> is_matrix a b (map (map f) m).
Proof. intros [h1 h2]. split; [now rewrite map_length|]. rewrite Forall_map. revert h2. apply Forall_impl. intros. now rewrite map_length. Qed.
Lemma scale_entry scales (m : list (list node)) i j n s : entry m i j = Some n -> nth_error scales j = Some s ->
  entry (scale_columns op_mul scales m) i j = Some (Ap op_mul [n; s]).
Proof.
  unfold entry, scale_columns. rewrite nth_error_map. destruct (nth_error m i); cbn; [|discriminate]. intros e1 e2.
  now apply (zip_nth (fun n s => Ap op_mul [n; s])).
Qed.
Lemma scale_matrix scales (m : list (list node)) a : is_matrix a (length scales) m -> is_matrix a (length scales) (scale_columns op_mul scales m).
Proof.
  intros [h1 h2]. unfold scale_columns. split; [now rewrite map_length|]. rewrite Forall_map. revert h2. apply Forall_impl.
  intros row e. rewrite zip_length; auto.
Qed.

Theorem wire_ok : match wire cse deriv is_number zero op_mul op_switch one free det sol l with
  | Err e => e = NotImplementedError /\ (ss_vars l = [] \/ exists v, In v (ss_vars l) /\ sol v = None)
  | Ok ms => (forall v, In v (ss_vars l) -> sol v <> None) /\ exists A B C D (input : key -> nat), ms = [A; B; C; D] /\
      (forall k k', ~ is_temp k -> ~ is_temp k' -> input k = input k' -> k = k') /\
      is_matrix (length (eqs l)) (length (ss_vars l)) A /\ is_matrix (length (eqs l)) (length (ss_vars l)) B /\
      is_matrix (length (eqs l)) (length (ss_vars l)) C /\ is_matrix (length (eqs l)) (length (shocks l)) D /\
      forall (r : nat -> V) i eq, nth_error (eqs l) i = Some eq ->
        let E := ss_value sem sol (ss_vars l) (param_value sem det (fun k => r (input k))) in
        (forall j v s kd, nth_error (ss_vars l) j = Some s -> nth_error (kinds l) j = Some kd ->
          (nth_error (lags l) j = Some v -> exists n, entry A i j = Some n /\ evaln r n = sem op_mul [evale E (deriv eq v); factor sem op_switch one kd (E (key_of s))]) /\
          (nth_error (now l) j = Some v -> exists n, entry B i j = Some n /\ evaln r n = sem op_mul [evale E (deriv eq v); factor sem op_switch one kd (E (key_of s))]) /\
          (nth_error (leads l) j = Some v -> exists n, entry C i j = Some n /\ evaln r n = sem op_mul [evale E (deriv eq v); factor sem op_switch one kd (E (key_of s))])) /\
        (forall j v, nth_error (shocks l) j = Some v -> exists n, entry D i j = Some n /\ evaln r n = evale E (deriv eq v))
  end.
Proof.
  unfold wire. destruct S_ok as (IS & kp & full_iff & _).
  destruct ((length (known_exprs sol (ss_vars l)) =? 0) || negb (length (fst S) =? length (ss_vars l))) eqn:G.
  - split; auto. destruct (ss_vars l) as [|v0 vs0] eqn:SV; [now left|]. right. rewrite <- SV in *.
    assert (~ (forall v, In v (ss_vars l) -> sol v <> None)) as nf.
    { intro full. apply orb_true_iff in G as [G|G].
      - apply Nat.eqb_eq in G. apply known_full in full. rewrite G, SV in full. discriminate.
      - apply negb_true_iff, Nat.eqb_neq in G. apply G, full_iff, full. }
    clear - nf. induction (ss_vars l) as [|v vs IH]; [exfalso; apply nf; intros ? []|].
    destruct (sol v) as [o|] eqn:E; [|exists v; cbn; auto]. destruct IH as (v' & i & e).
    + intro h. apply nf. intros v' [<-|i]; [congruence|auto].
    + exists v'. cbn; auto.
  - apply orb_false_iff in G as [_ G]. apply negb_false_iff, Nat.eqb_eq in G. pose proof (proj1 full_iff G) as full.
    split; [exact full|]. unfold linearize.
    set (specs := [(eqs l, lags l); (eqs l, now l); (eqs l, leads l); (eqs l, shocks l)]).
    destruct (jacobians_ok sem cse deriv is_number zero CSE specs (snd S)) as (IJ & KJ & VJ); auto.
    { intros s eq v hs he hv. apply (w_clean _ _ _ _ _ W). unfold specs in hs. cbn in hs. decompose [or] hs; subst; auto; contradiction. }
    set (J := jacobians cse deriv is_number zero specs (snd S)) in *.
    destruct (as_tensors_state (map Sy (ss_vars l)) (snd J) IJ) as [IT KT].
    set (fin := snd (as_tensors (map Sy (ss_vars l)) (snd J))) in *.
    assert (kept (snd J) fin) as KJ' by (intros k n _ q; now apply KT).
    assert (kept (snd S) fin) as KS by (eapply kept_trans; eauto).
    destruct (inputs_ok (ss_vars l) (snd J) fin) as [ES _]; auto using kept_refl.
    { apply Forall_forall. intros s i. unfold clean_sym. rewrite key_ss by auto. apply time_clean. }
    rewrite ES. fold fin.
    assert (forall r, Forall2 (fun m s => Forall2 (fun row eq => Forall2 (fun n v => evaln r n = evale (fun k => r (number fin k)) (deriv eq v)) row (snd s)) m (fst s)) (fst J) specs) as VV.
    { intro r. apply (VJ fin); auto. now apply agrees_inputs. }
    clear VJ.
    assert (exists A B C D, fst J = [A; B; C; D]) as (A & B & C & D & EJ).
    { pose proof (Forall2_len _ _ _ (VV (fun _ => zero))) as q. clear - q. unfold specs in q. clearbody J. destruct J as [ms st]. cbn [fst length] in *.
      destruct ms as [|A [|B [|C [|D [|? ?]]]]]; try discriminate. repeat eexists. }
    rewrite EJ in *.
    set (scales := zip_with (scale_node op_switch one) (kinds l) (map (fun s => Inp (number fin (key_of s)) (sname s)) (ss_vars l))).
    cbn [fst snd map].
    assert (length scales = length (ss_vars l)) as LS.
    { unfold scales. rewrite zip_length; [|rewrite map_length]; destruct (w_columns _ _ _ _ _ W) as (_ & _ & _ & q); auto. }
    set (R := replace (SM ++ fst P)).
    exists (map (map R) (scale_columns op_mul scales A)), (map (map R) (scale_columns op_mul scales B)), (map (map R) (scale_columns op_mul scales C)), (map (map R) D), (number fin).
    assert (forall r, let E := fun k => r (number fin k) in
       let mat := fun m cols => Forall2 (fun row eq => Forall2 (fun n v => evaln r n = evale E (deriv eq v)) row cols) m (eqs l) in
       mat A (lags l) /\ mat B (now l) /\ mat C (leads l) /\ mat D (shocks l)) as VM.
    { intro r. specialize (VV r). unfold specs in VV. cbn zeta. inversion VV as [|? ? ? ? HA VV1]; subst. inversion VV1 as [|? ? ? ? HB VV2]; subst.
      inversion VV2 as [|? ? ? ? HC VV3]; subst. inversion VV3 as [|? ? ? ? HD VV4]; subst. auto. }
    assert (forall (r : nat -> V) (E : key -> V) m cols, Forall2 (fun row eq => Forall2 (fun n v => evaln r n = evale E (deriv eq v)) row cols) m (eqs l) ->
      is_matrix (length (eqs l)) (length cols) m) as SH.
    { intros r E m cols h. split; [eapply Forall2_len; eauto|]. clear - h. induction h; constructor; auto. eapply Forall2_len; eauto. }
    destruct (w_columns _ _ _ _ _ W) as (wc1 & wc2 & wc3 & wc4).
    destruct (VM (fun _ => zero)) as (sA & sB & sC & sD). cbn zeta in *.
    split; [reflexivity|]. split; [intros k k' h h' q; exact (number_inj fin k k' IT h h' q)|].
    split; [|split; [|split; [|split]]].
    1-3: apply is_matrix_map; rewrite <- LS; apply scale_matrix; rewrite LS; rewrite <- ?wc1; try (eapply SH; eauto; fail).
    1: rewrite wc1, <- wc2; eapply SH; eauto.
    1: rewrite wc1, <- wc3; eapply SH; eauto.
    1: apply is_matrix_map; eapply SH; eauto.
    intros r i eq ei. set (r' := via (SM ++ fst P) r).
    pose proof (env_ok fin r full IT KS) as EN. fold r' in EN.
    destruct (VM r') as (vA & vB & vC & vD).
    set (E := ss_value sem sol (ss_vars l) (param_value sem det (fun k => r (number fin k)))).
    assert (forall v, evale (fun k => r' (number fin k)) (deriv eq v) = evale E (deriv eq v)) as DE.
    { intro v. apply evale_ext. intros x o. apply EN. apply nth_error_In in ei. exact (w_clean _ _ _ _ _ W eq v ei x o). }
    assert (forall m cols j v, Forall2 (fun row eq => Forall2 (fun n v => evaln r' n = evale (fun k => r' (number fin k)) (deriv eq v)) row cols) m (eqs l) ->
      nth_error cols j = Some v -> exists n, entry m i j = Some n /\ evaln r' n = evale E (deriv eq v)) as EM.
    { intros m cols j v h ej. destruct (Forall2_nth_r _ _ _ h i eq ei) as (row & er & hr). destruct (Forall2_nth_r _ _ _ hr j v ej) as (n & en & vn).
      exists n. unfold entry. rewrite er. split; auto. now rewrite vn. }
    assert (forall m cols j v s kd, Forall2 (fun row eq => Forall2 (fun n v => evaln r' n = evale (fun k => r' (number fin k)) (deriv eq v)) row cols) m (eqs l) ->
      nth_error (ss_vars l) j = Some s -> nth_error (kinds l) j = Some kd -> nth_error cols j = Some v ->
      exists n, entry (map (map R) (scale_columns op_mul scales m)) i j = Some n /\
        evaln r n = sem op_mul [evale E (deriv eq v); factor sem op_switch one kd (E (key_of s))]) as SE.
    { intros m cols j v s kd h es ek ev. destruct (EM m cols j v h ev) as (n & en & vn).
      assert (nth_error scales j = Some (scale_node op_switch one kd (Inp (number fin (key_of s)) (sname s)))) as esc.
      { unfold scales. apply (zip_nth (scale_node op_switch one)); auto. now rewrite nth_error_map, es. }
      rewrite entry_map, (scale_entry _ _ _ _ _ _ en esc). eexists. split; [reflexivity|]. unfold R. rewrite replace_value. fold r'.
      assert (r' (number fin (key_of s)) = E (key_of s)) as es'.
      { apply EN. rewrite key_ss by (eapply nth_error_In; eauto). apply time_clean. }
      cbn [Conv_Spec.evaln map]. rewrite vn. destruct kd; cbn [scale_node Conv_Spec.evaln factor map]; rewrite ?es'; reflexivity. }
    cbn zeta. split.
    + intros j v s kd es ek. split; [|split]; intro ev; eapply SE; eauto.
    + intros j v ev. destruct (EM D (shocks l) j v vD ev) as (n & en & vn). exists (R n). rewrite entry_map, en. split; auto.
      unfold R. rewrite replace_value. exact vn.
Qed.
End Wire.
