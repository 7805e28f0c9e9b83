From Verif Require Import Common Sym_Model Sym_Spec Sym_Proofs.
From Coq Require Import Permutation.
Local Open Scope list_scope.

Lemma slookup_In k v d : slookup k d = Some v -> In (k, v) d.
Proof.
  unfold slookup. destruct (find _ d) as [[a w]|] eqn:E; [|discriminate].
  apply find_some in E as [H1 H2]. cbn in H2. apply sym_eqb_eq in H2. intro H. injection H as <-. now subst.
Qed.
Lemma slookup_None k d : slookup k d = None <-> ~ In k (map fst d).
Proof.
  unfold slookup. induction d as [|[a w] d IH]; cbn; [tauto|].
  destruct (sym_eqb k a) eqn:E.
  - apply sym_eqb_eq in E. subst. split; [discriminate|]. intro H. exfalso. apply H. left. reflexivity.
  - apply sym_eqb_neq in E. rewrite IH. intuition congruence.
Qed.
Lemma slookup_Some_key k d : In k (map fst d) -> exists v, slookup k d = Some v.
Proof.
  intro H. destruct (slookup k d) as [v|] eqn:E; [eauto|]. apply slookup_None in E. contradiction.
Qed.
Lemma slookup_NoDup k v d : NoDup (map fst d) -> In (k, v) d -> slookup k d = Some v.
Proof.
  unfold slookup. induction d as [|[a w] d IH]; cbn; [easy|]. intros Hn [H|H].
  - injection H as -> ->. now rewrite sym_eqb_refl.
  - inversion Hn; subst. destruct (sym_eqb k a) eqn:E; [|auto].
    apply sym_eqb_eq in E. subst a. exfalso. apply H2. apply in_map_iff. exists (k, v). auto.
Qed.
Lemma slookup_app_l k d1 d2 v : slookup k d1 = Some v -> slookup k (d1 ++ d2) = Some v.
Proof.
  unfold slookup. induction d1 as [|[a w] d1 IH]; cbn; [discriminate|]. destruct (sym_eqb k a); auto.
Qed.
Lemma smem_In k l : smem k l = true <-> In k l.
Proof. unfold smem. destruct (in_dec sym_eq_dec k l); intuition congruence. Qed.

(* sequential substitution of values that mention no key is simultaneous *)
Lemma subs_seq_absent d e : (forall s, In s (atoms e) -> ~ In s (map fst d)) -> subs_seq d e = e.
Proof.
  unfold subs_seq. revert e. induction d as [|[k w] d IH]; intros e H; cbn [fold_left fst snd]; [reflexivity|].
  assert (E : subs1 k w e = e).
  { rewrite subs1_smap. rewrite <- (smap_id e) at 2. apply smap_ext. intros s Hs.
    destruct (sym_eqb s k) eqn:E; [|reflexivity]. apply sym_eqb_eq in E. exfalso. apply (H s Hs). left. cbn. auto. }
  rewrite E. apply IH. intros s Hs Hin. apply (H s Hs). right. exact Hin.
Qed.
Lemma subs_seq_simul d s : NoDup (map fst d) ->
  (forall k w, In (k, w) d -> forall s, In s (atoms w) -> ~ In s (map fst d)) ->
  subs_seq d (Sy s) = match slookup s d with Some w => w | None => Sy s end.
Proof.
  induction d as [|[k w] d IH]; intros Hn Hv; [reflexivity|].
  unfold subs_seq, slookup. cbn [fold_left fst snd subs1 find]. destruct (sym_eqb s k) eqn:E.
  - cbn. apply (subs_seq_absent d w). intros s' Hs' Hin. apply (Hv k w (or_introl eq_refl) s' Hs'). right. exact Hin.
  - inversion Hn; subst. apply IH; [assumption|]. intros k' w' Hin s' Hs' Hin'.
    apply (Hv k' w' (or_intror Hin) s' Hs'). right. exact Hin'.
Qed.

Section Fl.
Variables ord sord : set_order.
Hypothesis Hord : set_order_ok ord.
Hypothesis Hsord : set_order_ok sord.
Variable d : sdict.
Hypothesis Hkeys : NoDup (map fst d).

Notation deps := (deps ord d).
Notation resolve := (resolve ord sord).

Lemma deps_in k v s : In s (deps k v) <-> In s (atoms v) /\ In s (map fst d) /\ s <> k.
Proof.
  unfold Sym_Model.deps. rewrite (ord_in ord Hord), filter_In, andb_true_iff, negb_true_iff, smem_In, sym_eqb_neq. tauto.
Qed.

Inductive wf : sdict -> Prop :=
| wf_nil : wf []
| wf_snoc f k v : wf f -> In (k, v) d -> ~ In k (map fst f) -> incl (deps k v) (map fst f) ->
    wf (f ++ [(k, subs_seq (get_all f (sord (deps k v))) v)]).

Lemma wf_keys f : wf f -> NoDup (map fst f) /\ incl (map fst f) (map fst d).
Proof.
  induction 1 as [|f k v Hw [IH1 IH2] Hin Hn Hd].
  - split; [constructor|easy].
  - rewrite map_app. cbn. split.
    + apply (Permutation_NoDup (l := k :: map fst f)); [apply Permutation_cons_append|]. constructor; assumption.
    + intros s Hs. apply in_app_or in Hs as [Hs|[<-|[]]]; [auto|]. apply in_map_iff. exists (k, v). auto.
Qed.

(* what a successful run of [resolve] / [each resolve] achieves *)
Definition good_step (visiting : list sym) (f f' : sdict) : Prop :=
  wf f' /\ (exists ext, f' = f ++ ext) /\ (forall s, In s (map fst f') -> In s (map fst f) \/ ~ In s visiting).

Lemma good_refl visiting f : wf f -> good_step visiting f f.
Proof. intro H. split; [exact H|]. split; [exists []; now rewrite app_nil_r|]. auto. Qed.
Lemma good_trans visiting f1 f2 f3 : good_step visiting f1 f2 -> good_step visiting f2 f3 -> good_step visiting f1 f3.
Proof.
  intros (W2 & (e2 & ->) & K2) (W3 & (e3 & ->) & K3). split; [exact W3|]. split; [exists (e2 ++ e3); now rewrite app_assoc|].
  intros s Hs. destruct (K3 s Hs); auto.
Qed.
Lemma good_mono visiting visiting' f f' : incl visiting visiting' -> good_step visiting' f f' -> good_step visiting f f'.
Proof. intros Hi (W & E & K). split; [exact W|]. split; [exact E|]. intros s Hs. destruct (K s Hs); auto. Qed.
Lemma keys_mono f f' visiting s : good_step visiting f f' -> In s (map fst f) -> In s (map fst f').
Proof. intros (_ & (e & ->) & _) H. rewrite map_app. apply in_or_app. auto. Qed.

Lemma each_ok (step : sym -> sdict -> result sdict) visiting : forall l f f',
  (forall s f f', In s l -> wf f -> step s f = Ok f' -> good_step visiting f f' /\ In s (map fst f')) ->
  wf f -> each step l f = Ok f' -> good_step visiting f f' /\ incl l (map fst f').
Proof.
  induction l as [|s l IH]; intros f f' Hs Hw H; cbn [each] in H.
  - injection H as <-. split; [now apply good_refl|easy].
  - destruct (step s f) as [f1|e] eqn:E1; cbn [bind] in H; [|discriminate].
    destruct (Hs s f f1 (or_introl eq_refl) Hw E1) as [G1 I1].
    destruct (IH f1 f' (fun s' f0 f0' Hin => Hs s' f0 f0' (or_intror Hin)) (proj1 G1) H) as [G2 I2].
    split; [eapply good_trans; eassumption|]. intros x [<-|Hx]; [|auto]. eapply keys_mono; eassumption.
Qed.

Lemma resolve_ok fuel : forall visiting key f f', wf f -> In key (map fst d) ->
  resolve fuel d visiting key f = Ok f' -> good_step visiting f f' /\ In key (map fst f').
Proof.
  induction fuel as [|fuel IH]; intros visiting key f f' Hw Hk H; cbn [Sym_Model.resolve] in H; [discriminate|].
  destruct (slookup key f) as [w|] eqn:El.
  - injection H as <-. split; [now apply good_refl|]. apply slookup_In in El. apply in_map_iff. exists (key, w). auto.
  - destruct (smem key visiting) eqn:Em; [discriminate|].
    assert (Hnv : ~ In key visiting) by (rewrite <- smem_In; congruence).
    destruct (slookup key d) as [v|] eqn:Ed; [|discriminate].
    destruct (each (resolve fuel d (key :: visiting)) (deps key v) f) as [f1|e] eqn:Ee; cbn [bind] in H; [|discriminate].
    injection H as <-.
    destruct (each_ok (resolve fuel d (key :: visiting)) (key :: visiting) (deps key v) f f1) as [G I]; auto.
    { intros s g g' Hs Hg Hr. apply (IH (key :: visiting) s g g' Hg); [|exact Hr]. apply deps_in in Hs. tauto. }
    assert (Hnk : ~ In key (map fst f1)).
    { intro Hin. destruct G as (_ & _ & K). destruct (K key Hin) as [Hin'|Hno].
      - apply slookup_None in El. contradiction.
      - apply Hno. left. reflexivity. }
    split.
    + split; [|split].
      * constructor; [apply G|apply slookup_In, Ed|exact Hnk|exact I].
      * destruct G as (_ & (ex & ->) & _). eexists. rewrite <- app_assoc. reflexivity.
      * intros s Hs. rewrite map_app in Hs. apply in_app_or in Hs as [Hs|[<-|[]]].
        -- destruct G as (_ & _ & K). destruct (K s Hs) as [Hs'|Hs']; [auto|]. right. intro Hv. apply Hs'. right. exact Hv.
        -- right. exact Hnv.
    + rewrite map_app. apply in_or_app. right. left. reflexivity.
Qed.

(* errors: only ValueError, given enough fuel *)
Lemma each_err (step : sym -> sdict -> result sdict) visiting e : forall l f,
  (forall s f f', In s l -> wf f -> step s f = Ok f' -> good_step visiting f f' /\ In s (map fst f')) ->
  (forall s f, In s l -> wf f -> step s f = Err e -> e = ValueError) ->
  wf f -> each step l f = Err e -> e = ValueError.
Proof.
  induction l as [|s l IH]; intros f Hs He Hw H; cbn [each] in H; [discriminate|].
  destruct (step s f) as [f1|e1] eqn:E1; cbn [bind] in H.
  - destruct (Hs s f f1 (or_introl eq_refl) Hw E1) as [G1 _].
    eapply IH; [intros; eapply Hs; eauto; right; assumption|intros; eapply He; eauto; right; assumption|apply G1|exact H].
  - injection H as <-. eapply He; [left; reflexivity|exact Hw|exact E1].
Qed.
Lemma resolve_err fuel : forall visiting key f e, wf f -> In key (map fst d) ->
  NoDup visiting -> incl visiting (map fst d) -> (length d < fuel + length visiting)%nat ->
  resolve fuel d visiting key f = Err e -> e = ValueError.
Proof.
  induction fuel as [|fuel IH]; intros visiting key f e Hw Hk Hn Hi Hf H.
  - exfalso. pose proof (NoDup_incl_length Hn Hi) as Hl. rewrite map_length in Hl. cbn in Hf. lia.
  - cbn [Sym_Model.resolve] in H. destruct (slookup key f); [discriminate|].
    destruct (smem key visiting) eqn:Em; [congruence|].
    assert (Hnv : ~ In key visiting) by (rewrite <- smem_In; congruence).
    destruct (slookup key d) as [v|] eqn:Ed; [|apply slookup_None in Ed; contradiction].
    destruct (each (resolve fuel d (key :: visiting)) (deps key v) f) as [f1|e1] eqn:Ee; cbn [bind] in H; [discriminate|].
    injection H as <-.
    eapply (each_err (resolve fuel d (key :: visiting)) (key :: visiting) e1); [| |exact Hw|exact Ee].
    + intros s g g' Hs Hg Hr. apply (resolve_ok fuel (key :: visiting) s g g' Hg); [|exact Hr]. apply deps_in in Hs. tauto.
    + intros s g Hs Hg Hr. apply (IH (key :: visiting) s g e1); auto.
      * apply deps_in in Hs. tauto.
      * constructor; assumption.
      * intros x [<-|Hx]; auto.
      * cbn. lia.
Qed.

(* acyclic dictionaries succeed *)
Lemma each_succeeds (step : sym -> sdict -> result sdict) visiting : forall l f,
  (forall s f f', In s l -> wf f -> step s f = Ok f' -> good_step visiting f f' /\ In s (map fst f')) ->
  (forall s f, In s l -> wf f -> exists f', step s f = Ok f') ->
  wf f -> exists f', each step l f = Ok f'.
Proof.
  induction l as [|s l IH]; intros f Hs He Hw; cbn [each]; [eauto|].
  destruct (He s f (or_introl eq_refl) Hw) as (f1 & E1). rewrite E1. cbn [bind].
  destruct (Hs s f f1 (or_introl eq_refl) Hw E1) as [G1 _].
  apply IH; [intros; eapply Hs; eauto; right; assumption|intros; eapply He; eauto; right; assumption|apply G1].
Qed.
Lemma resolve_succeeds (rank : sym -> nat) :
  (forall k v s, In (k, v) d -> In s (atoms v) -> In s (map fst d) -> s <> k -> (rank s < rank k)%nat) ->
  forall fuel visiting key f, wf f -> In key (map fst d) ->
  NoDup visiting -> incl visiting (map fst d) -> (length d < fuel + length visiting)%nat ->
  (forall u, In u visiting -> (rank key < rank u)%nat) ->
  exists f', resolve fuel d visiting key f = Ok f'.
Proof.
  intros Hr. induction fuel as [|fuel IH]; intros visiting key f Hw Hk Hn Hi Hf Hv.
  - exfalso. pose proof (NoDup_incl_length Hn Hi) as Hl. rewrite map_length in Hl. cbn in Hf. lia.
  - cbn [Sym_Model.resolve]. destruct (slookup key f); [eauto|].
    destruct (smem key visiting) eqn:Em.
    { exfalso. apply smem_In in Em. specialize (Hv key Em). lia. }
    destruct (slookup key d) as [v|] eqn:Ed; [|apply slookup_None in Ed; contradiction].
    destruct (each_succeeds (resolve fuel d (key :: visiting)) (key :: visiting) (deps key v) f) as (f1 & ->).
    + intros s g g' Hs Hg Hr'. apply (resolve_ok fuel (key :: visiting) s g g' Hg); [|exact Hr']. apply deps_in in Hs. tauto.
    + intros s g Hs Hg. apply deps_in in Hs as (H1 & H2 & H3).
      pose proof (Hr key v s (slookup_In _ _ _ Ed) H1 H2 H3) as Hlt.
      apply IH; auto.
      * constructor; [|exact Hn]. intro Hin. apply smem_In in Hin. congruence.
      * intros x [<-|Hx]; auto.
      * cbn. lia.
      * intros u [<-|Hu]; [exact Hlt|]. specialize (Hv u Hu). lia.
    + exact Hw.
    + cbn [bind]. eauto.
Qed.

Lemma flatten_ok f : flatten ord sord d = Ok f -> wf f /\ Permutation (map fst f) (map fst d).
Proof.
  intro H. unfold flatten in H.
  destruct (each_ok (resolve (S (S (length d))) d []) [] (map fst d) [] f) as [G I]; auto.
  - intros s g g' Hs Hg Hr. now apply (resolve_ok (S (S (length d))) [] s g g').
  - constructor.
  - split; [apply G|]. destruct (wf_keys f (proj1 G)) as [N1 N2].
    apply NoDup_Permutation; auto. intro s. split; auto.
Qed.
Lemma flatten_err e : flatten ord sord d = Err e -> e = ValueError.
Proof.
  intro H. unfold flatten in H.
  apply (each_err (resolve (S (S (length d))) d []) [] e (map fst d) []); auto.
  - intros s g g' Hs Hg Hr. now apply (resolve_ok (S (S (length d))) [] s g g').
  - intros s g Hs Hg Hr. apply (resolve_err (S (S (length d))) [] s g e); auto.
    + constructor.
    + easy.
    + cbn. lia.
  - constructor.
Qed.

(* position of a key in the result, as a rank *)
Fixpoint pos (s : sym) (l : list sym) : nat :=
  match l with [] => O | x :: l' => if sym_eqb s x then O else S (pos s l') end.
Lemma pos_app_in s l1 l2 : In s l1 -> pos s (l1 ++ l2) = pos s l1.
Proof.
  induction l1 as [|x l1 IH]; cbn; [easy|]. intros [->|H]; [now rewrite sym_eqb_refl|].
  destruct (sym_eqb s x); [reflexivity|]. now rewrite IH.
Qed.
Lemma pos_lt s l : In s l -> (pos s l < length l)%nat.
Proof.
  induction l as [|x l IH]; cbn; [easy|]. intros [->|H]; [rewrite sym_eqb_refl; lia|].
  destruct (sym_eqb s x); [lia|]. specialize (IH H). lia.
Qed.
Lemma pos_app_notin s l1 l2 : ~ In s l1 -> pos s (l1 ++ l2) = (length l1 + pos s l2)%nat.
Proof.
  induction l1 as [|x l1 IH]; cbn; [reflexivity|]. intro H.
  destruct (sym_eqb s x) eqn:E; [apply sym_eqb_eq in E; exfalso; apply H; auto|]. rewrite IH; auto.
Qed.

Lemma wf_ranked f : wf f -> forall k v s, In (k, v) d -> In k (map fst f) -> In s (atoms v) -> In s (map fst d) -> s <> k ->
  In s (map fst f) /\ (pos s (map fst f) < pos k (map fst f))%nat.
Proof.
  induction 1 as [|f k0 v0 Hw IH Hin Hn Hd]; intros k v s Hkv Hk Hs Hsd Hne; [destruct Hk|].
  rewrite map_app in *. cbn [map fst] in *. apply in_app_or in Hk as [Hk|[<-|[]]].
  - destruct (IH k v s Hkv Hk Hs Hsd Hne) as [H1 H2]. split; [apply in_or_app; auto|]. now rewrite !pos_app_in.
  - assert (v = v0).
    { apply (slookup_NoDup _ _ _ Hkeys) in Hkv, Hin. congruence. }
    subst v0. assert (Hsf : In s (map fst f)) by (apply Hd, deps_in; auto).
    split; [apply in_or_app; auto|]. rewrite pos_app_in by assumption.
    rewrite (pos_app_notin k0) by assumption. pose proof (pos_lt _ _ Hsf). lia.
Qed.

Theorem flatten_succeeds_iff : (exists f, flatten ord sord d = Ok f) <-> acyclic d.
Proof.
  split.
  - intros (f & H). apply flatten_ok in H as [Hw Hp]. exists (fun s => pos s (map fst f)).
    intros k v s Hkv Hs Hsd Hne. eapply (wf_ranked f Hw k v s); auto.
    apply (Permutation_in _ (Permutation_sym Hp)). apply in_map_iff. exists (k, v). auto.
  - intros (rank & Hr). unfold flatten.
    apply (each_succeeds (resolve (S (S (length d))) d []) [] (map fst d) []).
    + intros s g g' Hs Hg Hr'. now apply (resolve_ok (S (S (length d))) [] s g g').
    + intros s g Hs Hg. apply (resolve_succeeds rank Hr); auto; [constructor|easy|cbn; lia|easy].
    + constructor.
Qed.

(* ---------- values ---------- *)
Hypothesis Hself : NoSelf d.

Definition look (f : sdict) (s : sym) : sx := match slookup s f with Some w => w | None => Sy s end.

Lemma get_all_keys f l : incl l (map fst f) -> map fst (get_all f l) = l.
Proof.
  induction l as [|s l IH]; intro Hi; [reflexivity|]. cbn.
  destruct (slookup_Some_key s f (Hi s (or_introl eq_refl))) as (w & ->). cbn. f_equal. apply IH.
  intros x Hx. apply Hi. right. exact Hx.
Qed.
Lemma get_all_in f l k w : In (k, w) (get_all f l) <-> In k l /\ slookup k f = Some w.
Proof.
  unfold get_all. rewrite in_flat_map. split.
  - intros (s & Hs & H). destruct (slookup s f) as [u|] eqn:E; [|destruct H]. destruct H as [H|[]].
    injection H as -> ->. auto.
  - intros [Hk E]. exists k. split; [exact Hk|]. rewrite E. left. reflexivity.
Qed.

Lemma wf_values f : wf f ->
  (forall k w, In (k, w) f -> forall s, In s (atoms w) -> ~ In s (map fst d)) /\
  (forall k w, In (k, w) f -> exists v, In (k, v) d /\ w = smap (look f) v).
Proof.
  induction 1 as [|f k0 v0 Hw [IH1 IH2] Hin Hn Hd]; [split; easy|].
  set (l := sord (deps k0 v0)). set (w0 := subs_seq (get_all f l) v0).
  assert (Hl : forall s, In s l <-> In s (atoms v0) /\ In s (map fst d)).
  { intro s. unfold l. rewrite (ord_in sord Hsord), deps_in. split; [tauto|]. intros [H1 H2]. repeat split; auto.
    intros ->. exact (Hself k0 v0 Hin H1). }
  assert (Hlf : incl l (map fst f)).
  { intros s Hs. apply Hd. unfold l in Hs. exact (proj1 (ord_in sord Hsord _ _) Hs). }
  assert (Hl_nd : NoDup l) by apply (ord_nodup sord Hsord).
  assert (Hval : w0 = smap (look f) v0).
  { unfold w0. rewrite subs_seq_smap. apply smap_ext. intros s Hs.
    rewrite subs_seq_simul.
    - unfold look. destruct (in_dec sym_eq_dec s (map fst d)) as [Hsd|Hsd].
      + assert (Hsl : In s l) by (apply Hl; auto).
        destruct (slookup_Some_key s f (Hlf s Hsl)) as (w & Ew). rewrite Ew.
        rewrite (slookup_NoDup s w); [reflexivity|now rewrite get_all_keys|]. apply get_all_in. auto.
      + destruct (slookup s f) as [w|] eqn:Ew.
        { exfalso. apply Hsd. apply (proj2 (wf_keys f Hw)). apply slookup_In in Ew. apply in_map_iff. exists (s, w). auto. }
        destruct (slookup s (get_all f l)) as [w|] eqn:Ew'; [|reflexivity].
        apply slookup_In, get_all_in in Ew' as [_ Ew']. congruence.
    - now rewrite get_all_keys.
    - intros k w Hkw s' Hs' Hin'. rewrite get_all_keys in Hin' by assumption.
      apply get_all_in in Hkw as [_ Hkw]. apply slookup_In in Hkw. apply (IH1 k w Hkw s' Hs'). now apply Hl in Hin'. }
  assert (Hno : forall s, In s (atoms w0) -> ~ In s (map fst d)).
  { intros s Hs. rewrite Hval in Hs. apply atoms_smap in Hs as (s0 & Hs0 & Hs). unfold look in Hs.
    destruct (slookup s0 f) as [w|] eqn:Ew.
    - apply slookup_In in Ew. eapply IH1; eassumption.
    - destruct Hs as [<-|[]]. intro Hsd. apply slookup_None in Ew. apply Ew. apply Hlf, Hl. auto. }
  (* values of earlier entries do not depend on the new key *)
  assert (Hlook : forall v, (forall s, In s (atoms v) -> In s (map fst d) -> In s (map fst f)) ->
            smap (look f) v = smap (look (f ++ [(k0, w0)])) v).
  { intros v Hv. apply smap_ext. intros s Hs. unfold look.
    destruct (slookup s f) as [w|] eqn:Ew.
    - now rewrite (slookup_app_l s f _ w Ew).
    - destruct (slookup s (f ++ [(k0, w0)])) as [w|] eqn:Ew'; [|reflexivity]. exfalso.
      apply slookup_In in Ew'. apply slookup_None in Ew. apply Ew. apply Hv; [exact Hs|].
      apply in_app_or in Ew' as [Ew'|[Ew'|[]]].
      + apply (proj2 (wf_keys f Hw)). apply in_map_iff. exists (s, w). auto.
      + injection Ew' as <- <-. apply in_map_iff. exists (k0, v0). auto. }
  split.
  - intros k w Hkw. apply in_app_or in Hkw as [Hkw|[Hkw|[]]]; [eapply IH1, Hkw|]. injection Hkw as <- <-. exact Hno.
  - intros k w Hkw. apply in_app_or in Hkw as [Hkw|[Hkw|[]]].
    + destruct (IH2 k w Hkw) as (v & Hv & ->). exists v. split; [exact Hv|]. apply Hlook.
      intros s Hs Hsd. destruct (sym_eq_dec s k) as [->|Hne]; [exfalso; exact (Hself k v Hv Hs)|].
      apply (wf_ranked f Hw k v s Hv); auto. apply in_map_iff. exists (k, smap (look f) v). auto.
    + injection Hkw as <- <-. exists v0. split; [exact Hin|]. rewrite Hval at 1. apply Hlook.
      intros s Hs Hsd. apply Hlf, Hl. auto.
Qed.

Theorem flatten_values f : flatten ord sord d = Ok f ->
  Permutation (map fst f) (map fst d) /\
  (forall k w s, In (k, w) f -> In s (atoms w) -> ~ In s (map fst d)) /\
  (forall k v, In (k, v) d -> slookup k f = Some (smap (look f) v)) /\
  (forall V (A : alg V) env, model_of A env d <-> model_of A env f).
Proof.
  intro H. apply flatten_ok in H as [Hw Hp]. destruct (wf_values f Hw) as [V1 V2].
  destruct (wf_keys f Hw) as [Nf _].
  assert (V3 : forall k v, In (k, v) d -> slookup k f = Some (smap (look f) v)).
  { intros k v Hkv. assert (Hk : In k (map fst f)).
    { apply (Permutation_in _ (Permutation_sym Hp)). apply in_map_iff. exists (k, v). auto. }
    destruct (slookup_Some_key k f Hk) as (w & Ew). rewrite Ew. apply slookup_In in Ew.
    destruct (V2 k w Ew) as (v' & Hv' & ->). apply (slookup_NoDup _ _ _ Hkeys) in Hkv, Hv'. congruence. }
  split; [exact Hp|]. split; [intros k w s Hkw Hs; eapply V1; eassumption|]. split; [exact V3|].
  intros V A env. split; intros Hm.
  - assert (Hind : forall n k v, In (k, v) d -> (pos k (map fst f) < n)%nat -> env k = ev A env (smap (look f) v)).
    { induction n as [|n IH]; intros k v Hkv Hn; [lia|].
      rewrite (Hm k v Hkv), ev_smap. apply ev_ext. intros s Hs. unfold look.
      destruct (slookup s f) as [w|] eqn:Ew; [|reflexivity].
      assert (Hsd : In s (map fst d)).
      { apply (Permutation_in _ Hp). apply slookup_In in Ew. apply in_map_iff. exists (s, w). auto. }
      apply in_map_iff in Hsd as ([s' v'] & E & Hsv'). cbn in E. subst s'.
      assert (Ew2 := V3 s v' Hsv'). rewrite Ew2 in Ew. injection Ew as <-. apply IH; [exact Hsv'|].
      assert (Hne : s <> k) by (intros ->; exact (Hself k v Hkv Hs)).
      assert (Hkf : In k (map fst f)).
      { apply (Permutation_in _ (Permutation_sym Hp)). apply in_map_iff. exists (k, v). auto. }
      assert (Hsd : In s (map fst d)) by (apply in_map_iff; exists (s, v'); auto).
      destruct (wf_ranked f Hw k v s Hkv Hkf Hs Hsd Hne). lia. }
    intros k w Hkw. destruct (V2 k w Hkw) as (v & Hv & ->). eapply Hind; [exact Hv|apply Nat.lt_succ_diag_r].
  - intros k v Hkv. pose proof (slookup_In _ _ _ (V3 k v Hkv)) as Hin. rewrite (Hm _ _ Hin), ev_smap.
    apply ev_ext. intros s Hs. unfold look. destruct (slookup s f) as [w|] eqn:Ew; [|reflexivity].
    symmetry. apply Hm. apply slookup_In, Ew.
Qed.
End Fl.
