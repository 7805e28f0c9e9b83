From Verif Require Import Common TimeIndex_Model TimeIndex_Proofs SymDict_Model SymDict_Spec SymDict_Proofs.
From Coq Require Import Permutation Sorted.
Local Open Scope list_scope.

Section D.
Context {K V : Type} (eqb : K -> K -> bool) (eqb_eq : forall a b, eqb a b = true <-> a = b).
Implicit Types (d : list (K * V)).
Lemma dset_keys k v d x : In x (map fst (dset eqb k v d)) <-> x = k \/ In x (map fst d).
Proof.
  induction d as [|[k' v'] d IH]; cbn; [intuition congruence|].
  destruct (eqb k k') eqn:E; cbn.
  - apply eqb_eq in E as ->. intuition congruence.
  - rewrite IH. intuition congruence.
Qed.
Lemma dset_nodup k v d : NoDup (map fst d) -> NoDup (map fst (dset eqb k v d)).
Proof.
  induction d as [|[k' v'] d IH]; cbn; intro H; [constructor; [intros []|constructor]|].
  inversion H as [|? ? Hni Hnd]; subst. destruct (eqb k k') eqn:E; cbn; constructor; auto.
  rewrite dset_keys. intros [->|Hin]; [|auto]. assert (eqb k k = true) by (apply eqb_eq; auto). congruence.
Qed.
Lemma dset_fresh k v d : ~ In k (map fst d) -> dset eqb k v d = d ++ [(k, v)].
Proof.
  induction d as [|[k' v'] d IH]; cbn; intro H; [reflexivity|].
  destruct (eqb k k') eqn:E; [apply eqb_eq in E; subst; tauto|]. rewrite IH; tauto.
Qed.
Lemma dupd_nodup d2 : forall d, NoDup (map fst d) -> NoDup (map fst (dupd eqb d d2)).
Proof. induction d2 as [|[k v] d2 IH]; cbn; intros d H; [exact H|]. apply IH, dset_nodup, H. Qed.
Lemma dupd_keys d2 : forall d x, In x (map fst (dupd eqb d d2)) <-> In x (map fst d) \/ In x (map fst d2).
Proof.
  unfold dupd. induction d2 as [|[k v] d2 IH]; cbn; intros d x; [intuition|]. rewrite IH, dset_keys. intuition congruence.
Qed.
Lemma dupd_fresh d2 : forall d, NoDup (map fst d2) -> (forall x, In x (map fst d) -> ~ In x (map fst d2)) ->
  dupd eqb d d2 = d ++ d2.
Proof.
  induction d2 as [|[k v] d2 IH]; cbn; intros d Hn Hd; [now rewrite app_nil_r|].
  inversion Hn; subst. unfold dupd in *. cbn. rewrite dset_fresh by (intro H'; apply (Hd k H'); now left).
  rewrite IH; auto.
  - now rewrite <- app_assoc.
  - intros x. rewrite map_app, in_app_iff. cbn. intros [H'|[<-|[]]]; [|auto]. intro C. apply (Hd x H'). now right.
Qed.
Lemma dupd_nil d2 : NoDup (map fst d2) -> dupd eqb [] d2 = d2.
Proof. intro H. rewrite dupd_fresh; auto. Qed.
Lemma dget_dset k v d k' : dget eqb k' (dset eqb k v d) = if eqb k' k then Some v else dget eqb k' d.
Proof.
  induction d as [|[k2 v2] d IH]; cbn; [reflexivity|].
  destruct (eqb k k2) eqn:E; cbn.
  - apply eqb_eq in E as ->. destruct (eqb k' k2); reflexivity.
  - rewrite IH. destruct (eqb k' k2) eqn:E2, (eqb k' k) eqn:E3; try reflexivity.
    apply eqb_eq in E2, E3. subst. assert (eqb k2 k2 = true) by (apply eqb_eq; auto). congruence.
Qed.
End D.

Section M.
Context {A : Type} (A_dec : forall a b : A, {a = b} + {a <> b}) (noasm : A) {V : Type}.
Notation heap := (heap A V).
Notation obj := (obj A V).
Notation items := (items A V).
Notation is_sympy := (is_sympy A V).
Notation keqb := (key_eqb A A_dec).
Implicit Types h : heap.
Lemma keqb_eq a b : keqb a b = true <-> a = b.
Proof. unfold key_eqb. destruct (key_dec A A_dec a b); split; congruence. Qed.

Definition wf_obj (o : dobj A V) : Prop :=
  NoDup (map fst (items o)) /\ forall k, In k (map fst (items o)) -> is_str _ k = negb (is_sympy o).
Definition wf h : Prop := forall r, wf_obj (obj h r).

Lemma wf_set_obj h r o : wf h -> wf_obj o -> wf (set_obj A V h r o).
Proof. intros H Ho j. cbn. unfold upd. destruct (Nat.eqb j r); auto. Qed.

Lemma new_wf d h : wf h -> NoDup (map fst d) -> wf (fst (new A V d h)).
Proof.
  intros H Hn. unfold new. set (sy := match map fst d with k :: _ => negb (is_str A k) | [] => false end).
  destruct (existsb _ _) eqn:E; [exact H|]. cbn. intro j. cbn. unfold upd. destruct (Nat.eqb j _); [|apply H].
  split; [exact Hn|]. cbn. intros k Hk.
  assert (X : (if sy then is_str A k else negb (is_str A k)) = false).
  { destruct (if sy then is_str A k else negb (is_str A k)) eqn:Ek; [|reflexivity].
    rewrite <- E. symmetry. apply existsb_exists. eauto. }
  destruct sy, (is_str A k); cbn in *; congruence.
Qed.

Lemma copy_wf r h : wf h -> wf (fst (copy A V r h)).
Proof.
  intro H. destruct (copy A V r h) as [h' x] eqn:E. pose proof E as E2. apply copy_spec in E2 as (_ & C). cbn.
  unfold copy in E. pose proof (new_wf (items (obj h r)) h H (proj1 (H r))) as W.
  destruct (new A V (items (obj h r)) h) as [h1 [c|e]] eqn:En; cbn in E.
  - injection E as <- <-. apply wf_set_obj; [exact W|]. apply new_ok in En as (_ & ->). exact (H r).
  - injection E as <- <-. exact W.
Qed.

Lemma meta_wf r m iv h : wf h -> wf (meta_update A V r m iv h).
Proof. intros H j. apply H. Qed.
Lemma rmeta_wf r m iv h : wf h -> wf (replace_meta A V r m iv h).
Proof. intros H j. apply H. Qed.

Lemma update_wf r s h : wf h -> (items (obj h r) = [] \/ is_sympy (obj h s) = is_sympy (obj h r)) ->
  wf (update A A_dec V r s h).
Proof.
  intros H Hc. unfold update. set (h1 := set_obj A V h r _). set (h2 := meta_update A V r _ _ h1).
  assert (O : forall j, obj h2 j = obj h1 j) by reflexivity.
  assert (K1 : forall k, In k (map fst (dupd keqb (items (obj h r)) (items (obj h s)))) ->
          In k (map fst (items (obj h r))) \/ In k (map fst (items (obj h s)))) by (intro k; apply dupd_keys, keqb_eq).
  assert (N1 : NoDup (map fst (dupd keqb (items (obj h r)) (items (obj h s))))) by (apply dupd_nodup; [apply keqb_eq|apply H]).
  assert (Hr1 : obj h1 r = DObj A V (dupd keqb (items (obj h r)) (items (obj h s))) (is_sympy (obj h r)) (ra A V (obj h r)) (rv A V (obj h r)))
    by (subst h1; cbn; apply upd_same).
  destruct Hc as [He|Hm].
  - assert (L : length (items (obj h2 r)) = length (items (obj h2 s))).
    { rewrite !O, Hr1. cbn [SymDict_Model.items]. rewrite He, dupd_nil; [|apply keqb_eq|apply H].
      destruct (Nat.eq_dec s r) as [->|Hsr]; [rewrite Hr1; cbn [SymDict_Model.items]; rewrite He; reflexivity|].
      subst h1. cbn. rewrite upd_other by auto. reflexivity. }
    rewrite L, Nat.eqb_refl. cbn [orb]. rewrite !O, Hr1. cbn [SymDict_Model.items SymDict_Model.ra SymDict_Model.rv].
    intro j. destruct (Nat.eq_dec j r) as [->|Hj].
    + cbn. rewrite upd_same. split; [exact N1|]. cbn. intros k Hk. apply K1 in Hk. rewrite He in Hk. destruct Hk as [[]|Hk].
      rewrite (proj2 (H s) k Hk). f_equal. unfold upd. destruct (Nat.eqb_spec s r); [subst s|reflexivity].
      rewrite He in Hk. destruct Hk.
    + cbn. rewrite !upd_other by auto. apply H.
  - assert (W1 : wf_obj (DObj A V (dupd keqb (items (obj h r)) (items (obj h s))) (is_sympy (obj h r)) (ra A V (obj h r)) (rv A V (obj h r)))).
    { split; [exact N1|]. cbn. intros k Hk. apply K1 in Hk as [Hk|Hk]; [apply (proj2 (H r) k Hk)|].
      rewrite <- Hm. apply (proj2 (H s) k Hk). }
    assert (W2 : wf h2) by (apply meta_wf, wf_set_obj; auto).
    destruct (_ || _)%bool; [|exact W2].
    apply wf_set_obj; [exact W2|]. rewrite O, Hr1. cbn [SymDict_Model.items SymDict_Model.ra SymDict_Model.rv].
    assert (E : is_sympy (obj h2 s) = is_sympy (obj h r)).
    { rewrite O. subst h1. cbn. unfold upd. destruct (Nat.eqb s r); [reflexivity|exact Hm]. }
    rewrite E. exact W1.
Qed.

Lemma clean_wf r s h : wf h -> wf (clean_update A A_dec V r s h).
Proof.
  intro H. unfold clean_update. set (h1 := set_obj A V h r _). set (h2 := set_ca A V h1 _ _). set (h3 := set_cv A V h2 _ _).
  apply update_wf.
  - assert (W : wf h1) by (apply wf_set_obj; [exact H|]; split; [constructor|intros k []]). exact W.
  - left. change (obj h3 r) with (obj h1 r). subst h1. cbn. now rewrite upd_same.
Qed.
Lemma finish_wf b r x : wf (fst x) -> wf (fst (finish A A_dec V b r x)).
Proof. destruct x as [h [d|e]]; cbn; [|auto]. destruct b; cbn; [apply clean_wf|auto]. Qed.
Lemma andthen_wf x f : wf (fst x) -> (forall r, snd x = Ok r -> wf (fst x) -> wf (fst (f r (fst x)))) -> wf (fst (andthen A V x f)).
Proof. destruct x as [h [r|e]]; cbn; auto. Qed.

Lemma rekey_nodup f (d : entries A V) : NoDup (map fst (rekey A A_dec V f d)).
Proof.
  unfold rekey. assert (G : forall acc, NoDup (map fst acc) -> NoDup (map fst (fold_left (fun r kv => dset keqb (f (fst kv)) (snd kv) r) d acc))).
  { induction d as [|[k v] d IH]; cbn; intros acc Ha; [exact Ha|]. apply IH, dset_nodup; auto. apply keqb_eq. }
  apply G. constructor.
Qed.
Lemma step_keys_nodup f (d : entries A V) : forall acc d', NoDup (map fst acc) -> step_keys A A_dec V f d acc = Ok d' -> NoDup (map fst d').
Proof.
  induction d as [|[k v] d IH]; cbn; intros acc d' Ha H; [injection H as <-; exact Ha|].
  destruct (step_key A f k) as [k'|e]; cbn in H; [|discriminate]. eapply IH; [|exact H]. apply dset_nodup; auto. apply keqb_eq.
Qed.
Lemma kinsert_perm kv (d : entries A V) : Permutation (kv :: d) (kinsert A V kv d).
Proof.
  induction d as [|kv' d IH]; cbn; [auto|]. destruct (key_leb _ _ _); [auto|].
  etransitivity; [apply perm_swap|]. apply perm_skip, IH.
Qed.
Lemma sort_perm (d : entries A V) : Permutation d (sort_dictionary A V d).
Proof. induction d as [|kv d IH]; cbn; [auto|]. etransitivity; [apply perm_skip, IH|apply kinsert_perm]. Qed.

Lemma to_sympy_wf b r h : wf h -> wf (fst (to_sympy A A_dec noasm V b r h)).
Proof. intro H. apply finish_wf, new_wf; [exact H|apply rekey_nodup]. Qed.
Lemma to_string_wf b r h : wf h -> wf (fst (to_string A A_dec V b r h)).
Proof.
  intro H. apply finish_wf. apply andthen_wf; [apply copy_wf, H|]. intros c _ Hc.
  apply andthen_wf; [apply new_wf; [exact Hc|apply rekey_nodup]|]. intros d _ Hd. exact Hd.
Qed.
Lemma step_wf f b r h : wf h -> wf (fst (step_dict A A_dec noasm V f b r h)).
Proof.
  intro H. apply finish_wf. apply andthen_wf; [apply copy_wf, H|]. intros c _ Hc.
  apply andthen_wf.
  - destruct (is_sympy _); [exact Hc|apply to_sympy_wf, Hc].
  - intros c2 _ Hc2. destruct (step_keys _ _ _ _ _ _) as [d|e] eqn:E; [|exact Hc2].
    apply andthen_wf; [apply new_wf; [exact Hc2|]|].
    + eapply step_keys_nodup; [|exact E]. constructor.
    + intros n _ Hn. destruct (is_sympy _); [exact Hn|apply to_string_wf, Hn].
Qed.
Lemma sort_wf b r h : wf h -> wf (fst (sort_keys A A_dec noasm V b r h)).
Proof.
  intro H. apply finish_wf. apply andthen_wf; [apply copy_wf, H|]. intros c _ Hc.
  apply andthen_wf; [apply to_string_wf, Hc|]. intros s _ Hs.
  apply andthen_wf; [apply new_wf; [exact Hs|]|].
  - eapply Permutation_NoDup; [apply Permutation_map, sort_perm|apply Hs].
  - intros d _ Hd. cbv zeta. destruct (is_sympy _); [apply to_sympy_wf|]; exact Hd.
Qed.
Lemma setitem_wf r k v h : wf h -> wf (fst (setitem A A_dec V r k v h)).
Proof.
  intro H. unfold setitem.
  set (sy := match items (obj h r) with [] => negb (is_str A k) | _ => is_sympy (obj h r) end).
  destruct (sy && is_str A k)%bool eqn:E1; [exact H|]. destruct (negb sy && negb (is_str A k))%bool eqn:E2; [exact H|]. cbn.
  intro j. cbn. unfold upd. destruct (Nat.eqb_spec j r); [subst j|apply H]. split; cbn.
  - apply dset_nodup; [apply keqb_eq|apply H].
  - intros k' Hk. apply dset_keys in Hk; [|apply keqb_eq]. destruct Hk as [->|Hk].
    + destruct sy, (is_str A k); cbn in *; congruence.
    + subst sy. destruct (H r) as [_ Hm]. specialize (Hm k' Hk). destruct (items (obj h r)); [destruct Hk|exact Hm].
Qed.
Lemma map_values_wf conv c d : forall h, wf h -> wf (fst (map_values A A_dec V conv c d h)).
Proof.
  induction d as [|[k v] d IH]; cbn; intros h H; [exact H|]. destruct (conv v); [|auto].
  apply andthen_wf; [apply setitem_wf, H|]. intros; apply IH; auto.
Qed.
Lemma convert_wf conv b r h : wf h -> wf (fst (convert_values A A_dec V conv b r h)).
Proof.
  intro H. apply finish_wf. apply andthen_wf; [apply copy_wf, H|]. intros c _ Hc.
  apply andthen_wf; [apply map_values_wf, Hc|]. intros c2 _ Hc2. cbn. intro j. cbn. unfold upd.
  destruct (Nat.eqb j c2); [exact (Hc2 c2)|apply Hc2].
Qed.
Lemma or_wf r s h : wf h -> r < nxt A V h -> s < nxt A V h -> wf (fst (or_ A A_dec V r s h)).
Proof.
  intros H Hr Hs. unfold or_. destruct (copy A V r h) as [h1 [c|e]] eqn:E; cbn [andthen].
  2:{ pose proof (copy_wf r h H) as W. rewrite E in W. exact W. }
  pose proof (copy_wf r h H) as W. rewrite E in W. cbn [fst] in W.
  apply copy_spec in E as (F & C). destruct (C c eq_refl) as (Hc & Hn & Ho).
  destruct (Nat.eqb _ 0).
  - apply andthen_wf; [apply copy_wf, W|]. intros c2 _ H2. exact H2.
  - destruct (Nat.eqb _ 0); [exact W|]. destruct (negb _) eqn:Em; [exact W|]. cbv zeta. cbn [fst].
    apply meta_wf. apply update_wf; [exact W|]. right. apply negb_false_iff, Bool.eqb_prop in Em. rewrite Em.
    destruct F as (_ & O & _). rewrite (O r Hr); [|auto]. now rewrite Ho.
Qed.

Lemma exec_wf i h : wf h -> is_update i = false -> (forall r, In r (operands i) -> r < nxt A V h) ->
  wf (fst (exec A A_dec noasm V i h)).
Proof.
  intros H Hu Hop. destruct i; cbn [is_update] in Hu; try discriminate; cbn [SymDict_Model.exec].
  - apply new_wf; [exact H|]. apply dupd_nodup; [apply keqb_eq|constructor].
  - apply copy_wf, H.
  - apply or_wf; [exact H|apply Hop..]; cbn; auto.
  - apply setitem_wf, H.
  - apply to_sympy_wf, H.
  - apply to_string_wf, H.
  - apply step_wf, H.
  - apply sort_wf, H.
  - apply convert_wf, H.
Qed.
Lemma run_wf p : forall h, wf h -> (forall i, In i p -> is_update i = false) -> valid_history A_dec noasm p h ->
  wf (exec_all A A_dec noasm V p h).
Proof.
  induction p as [|i p IH]; cbn; intros h H Hu Hv; [exact H|]. destruct Hv as [Hop Hv].
  apply IH; auto. apply exec_wf; auto.
Qed.
Lemma wf_empty : wf (empty_heap A V).
Proof. intro r. split; [constructor|intros k []]. Qed.

(* ---- round trip ---- *)
Lemma rekey_map f (d : entries A V) :
  (forall k k', In k (map fst d) -> In k' (map fst d) -> f k = f k' -> k = k') -> NoDup (map fst d) ->
  rekey A A_dec V f d = map (fun kv => (f (fst kv), snd kv)) d.
Proof.
  intros Hinj Hn. unfold rekey.
  assert (G : forall pre suf, d = pre ++ suf ->
     fold_left (fun r kv => dset keqb (f (fst kv)) (snd kv) r) suf (map (fun kv => (f (fst kv), snd kv)) pre)
     = map (fun kv => (f (fst kv), snd kv)) d).
  { intros pre suf. revert pre. induction suf as [|[k v] suf IH]; intros pre E; cbn.
    - rewrite app_nil_r in E. now subst.
    - rewrite dset_fresh; [|apply keqb_eq|].
      + specialize (IH (pre ++ [(k, v)])). rewrite map_app in IH. cbn in IH. apply IH. now rewrite <- app_assoc.
      + rewrite map_map. cbn. intro Hin. apply in_map_iff in Hin as ([k' v'] & Ef & Hin). cbn in Ef.
        assert (k' = k).
        { apply Hinj; [| |exact Ef]; subst d; rewrite map_app; apply in_app_iff.
          - left. apply in_map_iff. exists (k', v'). auto.
          - right. now left. }
        subst k'. subst d. rewrite map_app in Hn. cbn in Hn. apply NoDup_remove_2 in Hn.
        apply Hn, in_app_iff. left. apply in_map_iff. exists (k, v'). auto. }
  apply (G [] d eq_refl).
Qed.

Lemma split_us_nil s : split_us s <> [].
Proof. destruct s as [|c s]; cbn; [discriminate|]. destruct (Ascii.eqb c "_"); [discriminate|]. destruct (split_us s); discriminate. Qed.
Lemma join_split s : join_us (split_us s) = s.
Proof.
  induction s as [|c s IH]; [reflexivity|]. cbn [split_us]. destruct (Ascii.eqb_spec c "_") as [->|Hc].
  - pose proof (split_us_nil s). cbn [join_us]. destruct (split_us s) eqn:E; [congruence|]. rewrite IH. reflexivity.
  - pose proof (split_us_nil s). destruct (split_us s) as [|w l] eqn:E; [congruence|].
    cbn [join_us] in *. destruct l; rewrite <- IH; reflexivity.
Qed.
Lemma split_us_app b w : split_us (b ++ "_"%char :: w) = split_us b ++ split_us w.
Proof.
  induction b as [|c b IH]; cbn [app split_us]; [reflexivity|]. destruct (Ascii.eqb c "_"); [now rewrite IH|].
  rewrite IH. pose proof (split_us_nil b). destruct (split_us b) as [|w0 l]; [congruence|reflexivity].
Qed.
Lemma split_us_none w : ~ In "_"%char w -> split_us w = [w].
Proof.
  induction w as [|c w IH]; cbn; intro H; [reflexivity|]. destruct (Ascii.eqb_spec c "_") as [->|]; [tauto|].
  rewrite IH; tauto.
Qed.

Definition suffix_of (t : tidx) : chars :=
  match t with TSs => str "ss" | TInt z => if Z.eqb z 1 then str "tp1" else if Z.eqb z (-1) then str "tm1" else str "t" end.
Definition near_t t := t = TSs \/ t = TInt (-1) \/ t = TInt 0 \/ t = TInt 1.

Lemma safe_name_near b t (a : A) : ~ In "+"%char b -> ~ In "-"%char b -> near_t t ->
  safe_name (TSym b t a) = b ++ "_"%char :: suffix_of t.
Proof.
  intros H1 H2 H. unfold safe_name, name. cbn [base tix].
  pose proof (safe_map_id b H1 H2) as Hb.
  assert (G : forall w, map safe_char (b ++ w) = b ++ map safe_char w) by (intro w; now rewrite map_app, Hb).
  destruct H as [->|[->|[-> | ->]]]; [exact (G (str "_ss"))|exact (G (str "_t-1"))|exact (G (str "_t"))|exact (G (str "_t+1"))].
Qed.
Lemma string_back b t m : near_t t -> safe_string_to_sympy A noasm (b ++ "_"%char :: suffix_of t) m = KVar b t (asm_get A noasm b m).
Proof.
  intro H. unfold safe_string_to_sympy. cbv zeta. rewrite split_us_app, (split_us_none (suffix_of t)).
  - rewrite last_last, removelast_last, join_split.
    destruct H as [->|[->|[-> | ->]]]; cbn; reflexivity.
  - destruct H as [->|[->|[-> | ->]]]; cbn; intuition discriminate.
Qed.
Lemma has_suffix b t : near_t t -> has_time_suffix (b ++ "_"%char :: suffix_of t) = true.
Proof.
  intro H. unfold has_time_suffix. apply existsb_exists.
  exists ("_"%char :: suffix_of t). split.
  - destruct H as [->|[->|[-> | ->]]]; cbn; auto.
  - unfold endswith. rewrite app_length, Nat.add_comm, Nat.add_sub_swap, Nat.sub_diag by auto. cbn [Nat.add].
    rewrite skipn_app, skipn_all, Nat.sub_diag. cbn [app skipn]. apply chars_eqb_refl.
Qed.

Definition ceqb_eq := chars_eqb_eq.
Lemma asm_saved ks n : forall m,
  dget chars_eqb n (fold_left (save_asm A true) ks m) =
  match find (fun k => negb (is_str A k) && chars_eqb n (meta_name k))%bool (rev ks) with
  | Some k => Some (key_asm noasm k) | None => dget chars_eqb n m end.
Proof.
  induction ks as [|k ks IH] using rev_ind; intro m; [reflexivity|].
  rewrite fold_left_app, rev_app_distr. cbn [fold_left rev app find].
  destruct k as [s|p a|b t a]; cbn [save_asm negb is_str andb meta_name key_asm].
  - apply IH.
  - rewrite (dget_dset _ ceqb_eq), IH. destruct (chars_eqb n p); reflexivity.
  - rewrite (dget_dset _ ceqb_eq), IH. destruct (chars_eqb n b); reflexivity.
Qed.
Lemma isv_saved ks n : forall m,
  dget chars_eqb n (fold_left (save_isv A true) ks m) =
  match find (fun k => negb (is_str A k) && chars_eqb n (meta_name k))%bool (rev ks) with
  | Some k => Some (match k with KVar _ _ _ => true | _ => false end) | None => dget chars_eqb n m end.
Proof.
  induction ks as [|k ks IH] using rev_ind; intro m; [reflexivity|].
  rewrite fold_left_app, rev_app_distr. cbn [fold_left rev app find].
  destruct k as [s|p a|b t a]; cbn [save_isv negb is_str andb meta_name].
  - apply IH.
  - rewrite (dget_dset _ ceqb_eq), IH. destruct (chars_eqb n p); reflexivity.
  - rewrite (dget_dset _ ceqb_eq), IH. destruct (chars_eqb n b); reflexivity.
Qed.
Lemma find_meta (ks : list (key A)) n k0 : In k0 ks -> is_str A k0 = false -> meta_name k0 = n ->
  exists k, find (fun k => negb (is_str A k) && chars_eqb n (meta_name k))%bool (rev ks) = Some k /\ In k ks /\ is_str A k = false /\ meta_name k = n.
Proof.
  intros Hin Hs Hm. destruct (find _ (rev ks)) as [k|] eqn:E.
  - exists k. apply find_some in E as (Hk & Hb). apply andb_true_iff in Hb as (B1 & B2). apply chars_eqb_eq in B2.
    apply negb_true_iff in B1. rewrite <- in_rev in Hk. auto.
  - exfalso. assert (X := find_none _ _ E k0 ltac:(now rewrite <- in_rev)). cbn in X. rewrite Hs, Hm, chars_eqb_refl in X. discriminate.
Qed.

Definition saved_asm ks := fold_left (save_asm A true) ks [].
Definition saved_isv ks := fold_left (save_isv A true) ks [].
Lemma key_back (ks : list (key A)) k : (forall k, In k ks -> near_key k) -> consistent noasm ks -> In k ks ->
  key_to_sympy A noasm (saved_asm ks) (saved_isv ks) (KStr (symbol_to_string A k)) = k.
Proof.
  intros Hn (C1 & C2 & C3) Hk. pose proof (Hn k Hk) as Nk.
  assert (AG : is_str A k = false -> asm_get A noasm (meta_name k) (saved_asm ks) = key_asm noasm k).
  { intro Hs. unfold asm_get, saved_asm. rewrite asm_saved.
    destruct (find_meta ks (meta_name k) k Hk Hs eq_refl) as (k2 & -> & I2 & S2 & M2). apply C2; auto. }
  destruct k as [s|p a|b t a]; cbn [near_key] in Nk; [contradiction| |].
  - cbn [symbol_to_string key_to_sympy]. unfold saved_isv. rewrite isv_saved.
    destruct (find_meta ks p _ Hk eq_refl eq_refl) as (k2 & -> & I2 & S2 & M2).
    destruct k2 as [s2|p2 a2|b2 t2 a2]; cbn in S2; try discriminate.
    + cbn [negb orb]. specialize (AG eq_refl). cbn [meta_name key_asm] in AG. now rewrite AG.
    + exfalso. cbn in M2. subst b2. exact (C3 _ _ _ _ _ Hk I2 eq_refl).
  - destruct Nk as (P1 & P2 & Nt). cbn [symbol_to_string key_to_sympy]. rewrite safe_name_near by auto.
    rewrite has_suffix by auto. cbn [negb]. rewrite orb_false_r.
    assert (Iv : match dget chars_eqb (b ++ "_"%char :: suffix_of t) (saved_isv ks) with Some x => x | None => true end = true).
    { unfold saved_isv. rewrite isv_saved. destruct (find _ (rev ks)) as [k2|] eqn:E; [|reflexivity].
      apply find_some in E as (I2 & B). rewrite <- in_rev in I2. apply andb_true_iff in B as (B1 & B2). apply chars_eqb_eq in B2.
      destruct k2 as [s2|p2 a2|b2 t2 a2]; [discriminate| |reflexivity]. cbn in B2.
      assert (X : KVar b t a = KPar p2 a2); [|discriminate].
      apply C1; auto. cbn [symbol_to_string]. rewrite safe_name_near by auto. exact B2. }
    rewrite Iv. cbn [negb]. rewrite string_back by auto. specialize (AG eq_refl). cbn [meta_name key_asm] in AG. now rewrite AG.
Qed.

Lemma keys_near_sympy (d : entries A V) : (forall k, In k (map fst d) -> near_key k) ->
  forall k, In k (map fst d) -> is_str A k = false.
Proof. intros H k Hk. specialize (H k Hk). destruct k; cbn in *; tauto. Qed.

Lemma new_sympy (d : entries A V) h : (forall k, In k (map fst d) -> is_str A k = false) ->
  new A V d h = (alloc A V h d (match d with [] => false | _ => true end) (saved_asm (map fst d)) (saved_isv (map fst d)), Ok (nxt A V h)).
Proof.
  intro H. unfold new. destruct d as [|[k v] d]; [reflexivity|].
  cbn [map fst] in *. rewrite (H k (or_introl eq_refl)). cbn [negb].
  destruct (existsb _ _) eqn:E.
  - apply existsb_exists in E as (k2 & I2 & E2). rewrite (H k2 I2) in E2. discriminate.
  - reflexivity.
Qed.
Lemma new_strings (d : entries A V) h : (forall k, In k (map fst d) -> is_str A k = true) ->
  new A V d h = (alloc A V h d false [] [], Ok (nxt A V h)).
Proof.
  intro H. unfold new. destruct d as [|[k v] d]; [reflexivity|].
  cbn [map fst] in *. rewrite (H k (or_introl eq_refl)). cbn [negb].
  destruct (existsb _ _) eqn:E.
  - apply existsb_exists in E as (k2 & I2 & E2). rewrite (H k2 I2) in E2. discriminate.
  - f_equal. assert (S : forall ks m, fold_left (save_asm A false) ks m = m) by (induction ks; cbn; auto).
    assert (S2 : forall ks m, fold_left (save_isv A false) ks m = m) by (induction ks; cbn; auto).
    now rewrite S, S2.
Qed.

(* copying a dictionary of one kind cannot fail *)
Lemma copy_total r h : wf h -> exists h', copy A V r h = (h', Ok (nxt A V h)).
Proof.
  intro W. destruct (W r) as (_ & Hm). unfold copy. destruct (is_sympy (obj h r)) eqn:E.
  - rewrite new_sympy by (intros k Hk; rewrite (Hm k Hk); reflexivity). cbn. eauto.
  - rewrite new_strings by (intros k Hk; rewrite (Hm k Hk); reflexivity). cbn. eauto.
Qed.

Definition strings_of (d : entries A V) : entries A V := map (fun kv => (KStr (symbol_to_string A (fst kv)), snd kv)) d.

Lemma replace_meta_view d m iv h : view (replace_meta A V d m iv h) d = (items (obj h d), is_sympy (obj h d), m, iv).
Proof. unfold view, asm_of, isv_of, replace_meta. cbn. rewrite ?upd_same. reflexivity. Qed.

(* to_string on a one-mode dictionary whose keys print differently *)
Lemma to_string_spec r h : wf h -> r < nxt A V h -> ra A V (obj h r) < nxt A V h -> rv A V (obj h r) < nxt A V h ->
  (forall k k', In k (map fst (items (obj h r))) -> In k' (map fst (items (obj h r))) ->
     symbol_to_string A k = symbol_to_string A k' -> k = k') ->
  exists h' s, to_string A A_dec V false r h = (h', Ok s) /\ view h' s = (strings_of (items (obj h r)), false, asm_of A V h r, isv_of A V h r)
    /\ wf h' /\ frame none none none h h' /\ nxt A V h <= s < nxt A V h' /\ nxt A V h <= ra A V (obj h' s) < nxt A V h' /\ nxt A V h <= rv A V (obj h' s) < nxt A V h'.
Proof.
  intros W Lr La Lv Hinj.
  pose proof (to_string_core_builds A_dec r h) as BB. pose proof (to_string_wf false r h W) as WW.
  rewrite to_string_unfold, finish_false in *. unfold to_string_core in *.
  destruct (copy_total r h W) as (h1 & E1). rewrite E1 in *. cbn [andthen] in *. apply copy_spec in E1 as (F1 & C1). destruct (C1 _ eq_refl) as (_ & N1 & O1).
  rewrite O1 in *. set (d := sympy_keys_to_strings A A_dec V (items (obj h r))) in *.
  assert (Hd : d = strings_of (items (obj h r))).
  { subst d. unfold sympy_keys_to_strings. rewrite rekey_map; [reflexivity| |apply W].
    intros k k' H1 H2 E. apply Hinj; auto. congruence. }
  rewrite new_strings in * by (rewrite Hd; unfold strings_of; intros k Hk; rewrite map_map in Hk; apply in_map_iff in Hk as (x & <- & _); reflexivity).
  cbn [andthen] in *. eexists _, _. split; [reflexivity|]. split; [|split; [exact WW|split; [apply BB|apply BB; reflexivity]]].
  rewrite replace_meta_view. cbn [view]. set (h2 := alloc A V h1 d false [] []).
  destruct F1 as (L1 & _ & FA & FV).
  assert (Oc : obj h2 (nxt A V h) = obj h r).
  { subst h2. unfold alloc. cbn [SymDict_Model.obj]. rewrite upd_other by lia. exact O1. }
  assert (X : items (obj h2 (nxt A V h1)) = d /\ is_sympy (obj h2 (nxt A V h1)) = false).
  { subst h2. unfold alloc. cbn [SymDict_Model.obj]. rewrite upd_same. auto. }
  destruct X as [-> ->]. rewrite Hd. unfold asm_of, isv_of. rewrite Oc. subst h2. unfold alloc. cbn [SymDict_Model.ca SymDict_Model.cv].
  rewrite !upd_other by lia. rewrite FA, FV by auto. reflexivity.
Qed.

Lemma alloc_view h d sy m iv : view (alloc A V h d sy m iv) (nxt A V h) = (d, sy, m, iv).
Proof. unfold view, asm_of, isv_of, alloc. cbn. rewrite !upd_same. cbn. rewrite ?upd_same. reflexivity. Qed.

Lemma map_back (ks : list (key A)) (d : entries A V) :
  (forall k, In k ks -> near_key k) -> consistent noasm ks -> incl (map fst d) ks ->
  map (fun kv => (key_to_sympy A noasm (saved_asm ks) (saved_isv ks) (fst kv), snd kv)) (strings_of d) = d.
Proof.
  intros H1 H2 Hi. unfold strings_of. rewrite map_map. cbn [fst snd]. rewrite <- (map_id d) at 2. apply map_ext_in. intros [k v] Hk. cbn [fst snd].
  rewrite key_back; auto. apply Hi. apply in_map_iff. exists (k, v). auto.
Qed.

(* to_sympy of a string dictionary that carries the metadata of the original keys *)
Lemma to_sympy_spec s h ks (d : entries A V) : 
  (forall k, In k ks -> near_key k) -> consistent noasm ks -> incl (map fst d) ks -> NoDup (map fst d) ->
  items (obj h s) = strings_of d -> asm_of A V h s = saved_asm ks -> isv_of A V h s = saved_isv ks ->
  to_sympy A A_dec noasm V false s h =
  (alloc A V h d (match d with [] => false | _ => true end) (saved_asm (map fst d)) (saved_isv (map fst d)), Ok (nxt A V h)).
Proof.
  intros H1 H2 Hi Hn Ei Ea Ev. rewrite to_sympy_core, finish_false, Ei, Ea, Ev.
  unfold string_keys_to_sympy. rewrite rekey_map.
  - rewrite map_back by auto. rewrite new_sympy; [reflexivity|]. apply keys_near_sympy. auto.
  - intros k k' Hk Hk' E. unfold strings_of in Hk, Hk'. rewrite map_map in Hk, Hk'. cbn [fst snd] in Hk, Hk'.
    apply in_map_iff in Hk as ([k1 v1] & <- & I1), Hk' as ([k2 v2] & <- & I2). cbn [fst snd] in *.
    apply (in_map fst) in I1, I2. cbn in I1, I2. rewrite !key_back in E; auto. now subst.
  - unfold strings_of. rewrite map_map. cbn.
    assert (G : NoDup (map (fun k => KStr (A:=A) (symbol_to_string A k)) (map fst d))).
    { apply NoDup_map_inv with (f := key_to_sympy A noasm (saved_asm ks) (saved_isv ks)).
      rewrite map_map. rewrite (map_ext_in _ (fun k => k)); [now rewrite map_id|]. intros k Hk. apply key_back; auto. }
    rewrite map_map in G. exact G.
Qed.

Lemma view_inv h r a b c e : view h r = (a, b, c, e) ->
  items (obj h r) = a /\ is_sympy (obj h r) = b /\ asm_of A V h r = c /\ isv_of A V h r = e.
Proof. unfold view. intro E. injection E as <- <- <- <-. auto. Qed.

Lemma round_trip (d : entries A V) h : wf h -> NoDup (map fst d) ->
  (forall k, In k (map fst d) -> near_key k) -> consistent noasm (map fst d) ->
  exists h1 r h2 s h3 q,
    new A V d h = (h1, Ok r) /\ to_string A A_dec V false r h1 = (h2, Ok s) /\ to_sympy A A_dec noasm V false s h2 = (h3, Ok q) /\
    items (obj h1 r) = d /\ view h3 q = view h1 r.
Proof.
  intros W Hn Hk Hc. pose proof (new_wf d h W Hn) as W1.
  rewrite new_sympy in * by (apply keys_near_sympy, Hk).
  set (h1 := alloc A V h d _ _ _) in *. cbn [fst] in W1.
  assert (V1 : view h1 (nxt A V h) = (d, match d with [] => false | _ => true end, saved_asm (map fst d), saved_isv (map fst d))) by apply alloc_view.
  apply view_inv in V1 as (I1 & S1 & A1 & B1).
  destruct (to_string_spec (nxt A V h) h1 W1) as (h2 & s & E2 & V2 & _).
  1,2,3: subst h1; cbn; rewrite ?upd_same; cbn; lia.
  { rewrite I1. apply Hc. }
  apply view_inv in V2 as (I2 & S2 & A2 & B2). rewrite I1 in I2. rewrite A1 in A2. rewrite B1 in B2.
  exists h1, (nxt A V h), h2, s. eexists _, _. split; [reflexivity|]. split; [exact E2|].
  split; [apply (to_sympy_spec s h2 (map fst d) d); auto; apply incl_refl|]. split; [exact I1|].
  rewrite alloc_view. unfold view. now rewrite I1, S1, A1, B1.
Qed.

(* ---- sorting ---- *)
Lemma chars_leb_total a : forall b, chars_leb a b = true \/ chars_leb b a = true.
Proof.
  induction a as [|x a IH]; intros [|y b]; cbn; auto. destruct (Ascii.eqb_spec x y) as [->|Hn].
  - rewrite Ascii.eqb_refl. apply IH.
  - assert (Hyx : Ascii.eqb y x = false) by (apply Ascii.eqb_neq; auto). rewrite Hyx.
    rewrite !N.ltb_lt. assert (N_of_ascii x <> N_of_ascii y); [|lia].
    intro E. apply Hn. rewrite <- (ascii_N_embedding x), <- (ascii_N_embedding y). congruence.
Qed.
Lemma chars_leb_trans a : forall b c, chars_leb a b = true -> chars_leb b c = true -> chars_leb a c = true.
Proof.
  induction a as [|x a IH]; intros [|y b] [|z c]; cbn; auto; try discriminate.
  destruct (Ascii.eqb_spec x y) as [->|Hxy], (Ascii.eqb_spec y z) as [->|Hyz].
  - apply IH.
  - auto.
  - destruct (Ascii.eqb_spec x z); [congruence|auto].
  - intros H1 H2. apply N.ltb_lt in H1, H2. destruct (Ascii.eqb_spec x z) as [->|]; [lia|]. apply N.ltb_lt. lia.
Qed.
Definition kle (a b : key A * V) : Prop := key_leb A (fst a) (fst b) = true.
Lemma kinsert_sorted kv (d : entries A V) : Sorted kle d -> Sorted kle (kinsert A V kv d).
Proof.
  induction d as [|kv' d IH]; cbn; intro H; [repeat constructor|].
  destruct (key_leb A (fst kv) (fst kv')) eqn:E.
  - constructor; auto.
  - inversion H as [|? ? Hs Hh]; subst. constructor; [auto|].
    assert (X : kle kv' kv) by (unfold kle, key_leb in *; destruct (chars_leb_total (symbol_to_string A (fst kv')) (symbol_to_string A (fst kv))) as [|C]; [auto|congruence]).
    destruct d as [|kv2 d]; cbn; [constructor; exact X|]. destruct (key_leb A (fst kv) (fst kv2)); constructor; [exact X|].
    inversion Hh; auto.
Qed.
Lemma sort_sorted (d : entries A V) : StronglySorted kle (sort_dictionary A V d).
Proof.
  apply Sorted_StronglySorted; [intros a b c; apply chars_leb_trans|]. induction d; cbn; [constructor|]. now apply kinsert_sorted.
Qed.
Lemma sort_strings (d : entries A V) : sort_dictionary A V (strings_of d) = strings_of (sort_dictionary A V d).
Proof.
  assert (I : forall kv l, kinsert A V (KStr (symbol_to_string A (fst kv)), snd kv) (strings_of l) = strings_of (kinsert A V kv l)).
  { intros kv l. induction l as [|kv' l IHl]; [reflexivity|].
    cbn [strings_of map kinsert fst snd]. change (map _ l) with (strings_of l).
    change (key_leb A (KStr (symbol_to_string A (fst kv))) (KStr (symbol_to_string A (fst kv')))) with (key_leb A (fst kv) (fst kv')).
    destruct (key_leb A (fst kv) (fst kv')); [reflexivity|]. rewrite IHl. reflexivity. }
  induction d as [|kv d IH]; [reflexivity|].
  change (sort_dictionary A V (strings_of (kv :: d))) with (kinsert A V (KStr (symbol_to_string A (fst kv)), snd kv) (sort_dictionary A V (strings_of d))).
  rewrite IH, I. reflexivity.
Qed.

Lemma sort_spec (d : entries A V) h : wf h -> NoDup (map fst d) ->
  (forall k, In k (map fst d) -> near_key k) -> consistent noasm (map fst d) ->
  exists h1 r h2 q, new A V d h = (h1, Ok r) /\ sort_keys A A_dec noasm V false r h1 = (h2, Ok q) /\
    items (obj h2 q) = sort_dictionary A V d.
Proof.
  intros W Hn Hk Hc. pose proof (new_wf d h W Hn) as W1.
  rewrite new_sympy in * by (apply keys_near_sympy, Hk).
  set (h1 := alloc A V h d _ _ _) in *. cbn [fst] in W1.
  assert (V1 : view h1 (nxt A V h) = (d, match d with [] => false | _ => true end, saved_asm (map fst d), saved_isv (map fst d))) by apply alloc_view.
  apply view_inv in V1 as (I1 & S1 & A1 & B1).
  assert (R1 : ra A V (obj h1 (nxt A V h)) = nxt A V h /\ rv A V (obj h1 (nxt A V h)) = nxt A V h /\ nxt A V h1 = S (nxt A V h)) by (subst h1; cbn; rewrite upd_same; auto).
  destruct R1 as (Ra & Rv & Nx).
  exists h1, (nxt A V h). rewrite sort_unfold, finish_false. unfold sort_core.
  destruct (copy_total (nxt A V h) h1 W1) as (h2 & E2).
  pose proof (copy_wf (nxt A V h) h1 W1) as W2. rewrite E2 in *. cbn [andthen fst] in *.
  apply copy_spec in E2 as (F2 & C2). destruct (C2 _ eq_refl) as (_ & N2 & O2).
  destruct (to_string_spec (nxt A V h1) h2 W2) as (h3 & s & E3 & V3 & W3 & F3 & L3 & _).
  1,2,3: rewrite ?O2, ?Ra, ?Rv; lia.
  { rewrite O2, I1. apply Hc. }
  rewrite E3. cbn [andthen]. apply view_inv in V3 as (I3 & S3 & A3 & B3). rewrite O2, I1 in I3.
  rewrite I3, sort_strings.
  rewrite new_strings by (unfold strings_of; intros k Hk'; rewrite map_map in Hk'; apply in_map_iff in Hk' as (x & <- & _); reflexivity).
  cbn [andthen]. cbv zeta. set (h4 := alloc A V h3 _ _ _ _). set (h5 := replace_meta A V (nxt A V h3) _ _ h4).
  assert (L : nxt A V h < nxt A V h3) by (destruct F2 as (? & _), F3 as (? & _); lia).
  assert (Or : obj h4 (nxt A V h) = obj h1 (nxt A V h)).
  { subst h4. cbn. rewrite upd_other by lia. destruct F3 as (_ & O & _). rewrite O by (auto; lia).
    destruct F2 as (_ & O' & _). apply O'; auto. }
  assert (V5 : asm_of A V h4 (nxt A V h) = saved_asm (map fst d) /\ isv_of A V h4 (nxt A V h) = saved_isv (map fst d)).
  { unfold asm_of, isv_of in *. rewrite Or, Ra, Rv in *. subst h4. cbn. rewrite !upd_other by lia.
    destruct F3 as (_ & _ & Ca & Cv). rewrite Ca, Cv by (auto; lia). destruct F2 as (_ & _ & Ca' & Cv').
    rewrite Ca', Cv' by (auto; lia). auto. }
  assert (V6 : view h5 (nxt A V h3) = (strings_of (sort_dictionary A V d), false, saved_asm (map fst d), saved_isv (map fst d))).
  { destruct V5 as [X Y]. subst h5. rewrite X, Y. unfold view, asm_of, isv_of, replace_meta. subst h4. cbn. rewrite !upd_same. cbn. rewrite ?upd_same. reflexivity. }
  apply view_inv in V6 as (I6 & S6 & A6 & B6). rewrite S1. destruct d as [|kv d'] eqn:Ed.
  - eexists _, _. split; [reflexivity|]. split; [reflexivity|]. exact I6.
  - rewrite <- Ed in *. eexists _, _. split; [reflexivity|]. split.
    + apply (to_sympy_spec (nxt A V h3) h5 (map fst d) (sort_dictionary A V d)); auto.
      * intros k Hkk. eapply Permutation_in; [apply Permutation_map; symmetry; apply sort_perm|exact Hkk].
      * eapply Permutation_NoDup; [apply Permutation_map, sort_perm|exact Hn].
    + cbn. now rewrite upd_same.
Qed.
End M.
