(* block: proofs. *)
From Verif Require Import Common Ten_Model Ten_Spec Ten_Proofs.
Section Block.
Context {V : Type}.
Variable dflt : V.
Notation arr := (arr V).
Notation tree := (tree V).
Notation sizes k xs := (map (fun y : arr => size y k) xs).

Lemma check_node (l : list tree) D : check_depths (Node l) = Ok D <->
  exists d, D = S d /\ l <> [] /\ Forall (fun c => check_depths c = Ok d) l.
Proof.
  cbn [check_depths]. destruct l as [|c rest]; [split; [discriminate|intros (d & _ & h & _); congruence]|].
  destruct (check_depths c) as [d|er] eqn:E; cbn [bind].
  - set (go := fix go (l : list tree) : result nat := _).
    assert (forall l, (forall D, go l = Ok D <-> D = S d /\ Forall (fun c => check_depths c = Ok d) l)) as H.
    { induction l as [|c' l IH]; intro D'; cbn.
      - split; [intros [= <-]; auto|intros [-> _]; auto].
      - destruct (check_depths c') as [d'|] eqn:E'; cbn.
        + destruct (Nat.eqb_spec d' d) as [->|ne].
          * rewrite IH. split; intros [a b]; split; auto. now inversion b.
          * split; [discriminate|]. intros [_ b]. inversion b; congruence.
        + split; [discriminate|]. intros [_ b]. inversion b; congruence. }
    rewrite H. split.
    + intros [-> b]. exists d. repeat split; auto; discriminate.
    + intros (d' & -> & _ & b). inversion b as [|? ? h1 h2]; subst. replace d' with d in * by congruence. auto.
  - split; [discriminate|]. intros (d & _ & _ & b). inversion b; congruence.
Qed.
Lemma check_depths_iff d : forall t : tree, check_depths t = Ok d <-> uniform d t.
Proof.
  induction d as [|d IH]; intros [a|l|l].
  - split; [constructor|reflexivity].
  - rewrite check_node. split; [intros (? & ? & _); discriminate|inversion 1].
  - split; [discriminate|inversion 1].
  - split; [discriminate|inversion 1].
  - rewrite check_node. split.
    + intros (d' & [= <-] & h & f). constructor; auto. revert f; apply Forall_impl; intro; apply IH.
    + inversion 1 as [|? ? h f]; subst. exists d. repeat split; auto. revert f; apply Forall_impl; intro; apply IH.
  - split; [discriminate|inversion 1].
Qed.
Lemma map_result_iff {A B} (f : A -> result B) l ys : map_result f l = Ok ys <-> Forall2 (fun x y => f x = Ok y) l ys.
Proof.
  revert ys; induction l as [|x l IH]; intros ys; cbn [map_result].
  - split; [intros [= <-]; constructor|inversion 1; auto].
  - destruct (f x) as [y|] eqn:E; cbn [bind].
    + destruct (map_result f l) as [zs|] eqn:E2; cbn [bind].
      * split; [intros [= <-]; constructor; auto; now apply IH|].
        inversion 1 as [|? ? ? ? a b]; subst. apply IH in b. congruence.
      * split; [discriminate|]. inversion 1 as [|? ? ? ? a b]; subst. apply IH in b. congruence.
    + split; [discriminate|]. inversion 1; congruence.
Qed.
Lemma assemble_node n h l : assemble dflt n (S h) (Node l) = bind (map_result (assemble dflt n h) l) (concatenate dflt h).
Proof.
  cbn [assemble]. f_equal. induction l as [|c l IH]; cbn [map_result]; auto.
  destruct (assemble dflt n h c); cbn [bind]; auto. rewrite IH; auto.
Qed.
Lemma assemble_node_iff n h l r : assemble dflt n (S h) (Node l) = Ok r <->
  exists xs, Forall2 (fun c x => assemble dflt n h c = Ok x) l xs /\ concatenate dflt h xs = Ok r.
Proof.
  rewrite assemble_node. split.
  - destruct (map_result _ l) as [xs|] eqn:E; cbn [bind]; [|discriminate]. intro; exists xs; split; auto. now apply map_result_iff.
  - intros (xs & f & c). apply map_result_iff in f. rewrite f. exact c.
Qed.

Lemma padded_length n (a : arr) : ndim a <= n -> length (padded n a) = n.
Proof. unfold padded, ndim; intro. rewrite app_length, repeat_length. lia. Qed.
Lemma repeat_nth k m : k < m -> nth k (repeat 1 m) 0 = 1.
Proof. revert k; induction m; intros [|k] h; cbn; try lia; auto. apply IHm; lia. Qed.
Lemma padded_nth n (a : arr) k : k < n -> nth k (padded n a) 0 = nth k (shape a) 1.
Proof.
  intro h. unfold padded, ndim. destruct (Nat.ltb_spec k (length (shape a))).
  - rewrite app_nth1 by auto. now apply nth_indep.
  - rewrite app_nth2, (nth_overflow (shape a)) by auto. apply repeat_nth. lia.
Qed.
Lemma Forall2_nth_l {A B} (R : A -> B -> Prop) l l' i a : Forall2 R l l' -> nth_error l i = Some a ->
  exists b, nth_error l' i = Some b /\ R a b.
Proof. intro f; revert i; induction f; intros [|i]; cbn; intros h; try discriminate; eauto. injection h as ->; eauto. Qed.
Lemma Forall2_nth_r {A B} (R : A -> B -> Prop) l l' i b : Forall2 R l l' -> nth_error l' i = Some b ->
  exists a, nth_error l i = Some a /\ R a b.
Proof. intro f; revert i; induction f; intros [|i]; cbn; intros h; try discriminate; eauto. injection h as ->; eauto. Qed.
Lemma Forall2_firstn {A B} (R : A -> B -> Prop) l l' i : Forall2 R l l' -> Forall2 R (firstn i l) (firstn i l').
Proof. intro f; revert i; induction f; intros [|i]; cbn; constructor; auto. Qed.
Lemma first_leaf_unique : forall (t : tree) a b, first_leaf t a -> first_leaf t b -> a = b.
Proof. intros t a b H; revert b; induction H; intros b H'; inversion H'; subst; auto. Qed.
Lemma first_leaf_ex h : forall t : tree, uniform h t -> exists a, first_leaf t a.
Proof.
  induction h as [|h IH]; intros t u; inversion u as [a|? l ne f]; subst.
  - exists a; constructor.
  - destruct l as [|c l]; [congruence|]. inversion f; subst. destruct (IH c) as [a ha]; auto. exists a; now constructor.
Qed.
Definition small (n : nat) (t : tree) : Prop := forall p a, leaf_at t p a -> ndim a <= n.
Lemma small_child n (l : list tree) i c : small n (Node l) -> nth_error l i = Some c -> small n c.
Proof. intros s e p a h. apply (s (i :: p)). econstructor; eauto. Qed.
Lemma uniform_child h (l : list tree) i c : uniform (S h) (Node l) -> nth_error l i = Some c -> uniform h c.
Proof. inversion 1 as [|? ? ne f]; subst. intro e. rewrite Forall_forall in f. apply f. eapply nth_error_In; eauto. Qed.
Lemma leaf_depth h : forall (t : tree) p a, uniform h t -> leaf_at t p a -> length p = h.
Proof.
  induction h as [|h IH]; intros t p a u l; inversion l; subst; inversion u; subst; auto.
  cbn. f_equal. eapply IH; eauto. eapply uniform_child; eauto.
Qed.

(* what holds of an assembled subtree of height h *)
Record good (n h : nat) (t : tree) (r : arr) : Prop := {
  g_ndim : ndim r = n;
  g_size : forall a k, first_leaf t a -> h <= k < n -> size r k = nth k (shape a) 1;
  g_lands : forall p a ix, leaf_at t p a -> valid (padded n a) ix ->
    exists jx, lands t p ix jx /\ valid (shape r) jx /\ entry r jx = entry a (firstn (ndim a) ix);
  g_from : forall jx, valid (shape r) jx -> exists p a ix, leaf_at t p a /\ valid (padded n a) ix /\ lands t p ix jx;
  g_once : forall p a ix p' a' ix' jx, leaf_at t p a -> leaf_at t p' a' -> valid (padded n a) ix -> valid (padded n a') ix' ->
    lands t p ix jx -> lands t p' ix' jx -> p = p' /\ ix = ix' }.
Lemma total_sizes n h (l : list tree) xs : Forall2 (fun c x => uniform h c /\ good n h c x) l xs -> h < n ->
  forall firsts, Forall2 first_leaf l firsts -> total h firsts = sum (sizes h xs).
Proof.
  intros f hn firsts g; revert firsts g; induction f as [|c x l xs [u gd] f IH]; intros firsts g; inversion g; subst; auto.
  unfold total in *; cbn. erewrite g_size by (eauto; lia). f_equal. apply IH; auto.
Qed.
Lemma firsts_ex h (l : list tree) : Forall (uniform h) l -> exists firsts, Forall2 first_leaf l firsts.
Proof.
  induction 1 as [|c l u f [fs IH]]; [exists []; constructor|].
  destruct (first_leaf_ex h c u) as [a ha]. exists (a :: fs); now constructor.
Qed.
Lemma lands_at (t : tree) p ix jx : forall jx', lands t p ix jx -> lands t p ix jx' -> jx = jx'.
Proof.
  intros jx' H; revert jx'; induction H as [|l i c p firsts ix jx e f H IH]; intros jx' H'; inversion H' as [|? ? c' ? fs' ? kx e' f' H'' q1 q2 q3]; subst; auto.
  rewrite e in e'. injection e' as <-. f_equal; auto.
  f_equal. clear - f f'. revert fs' f'. induction f as [|c' a l' fs h f IH]; intros fs' g; inversion g; subst; auto.
  f_equal; auto. eapply first_leaf_unique; eauto.
Qed.
Lemma lands_inv n h (l : list tree) xs : uniform (S h) (Node l) -> Forall2 (fun c x => uniform h c /\ good n h c x) l xs -> h < n ->
  forall p ix jx, (exists a, leaf_at (Node l) p a) -> lands (Node l) p ix jx ->
  exists i q c x kx, p = i :: q /\ nth_error l i = Some c /\ nth_error xs i = Some x /\ lands c q ix kx /\
    jx = bump h (sum (sizes h (firstn i xs))) kx.
Proof.
  intros u f hn p ix jx [a la] H. inversion H as [|? i c q firsts ? kx e g H']; subst.
  inversion la as [|? ? c' ? ? e' la']; subst. rewrite e in e'; injection e' as <-.
  destruct (Forall2_nth_l _ _ _ _ _ f e) as (x & ex & uc & gc).
  exists i, q, c, x, kx. repeat split; auto.
  rewrite (leaf_depth h c q a uc la'). f_equal. eapply total_sizes; eauto. now apply Forall2_firstn.
Qed.
Lemma lands_intro n h (l : list tree) xs : Forall2 (fun c x => uniform h c /\ good n h c x) l xs -> h < n ->
  forall i q c a ix kx, nth_error l i = Some c -> leaf_at c q a -> lands c q ix kx ->
  lands (Node l) (i :: q) ix (bump h (sum (sizes h (firstn i xs))) kx).
Proof.
  intros f hn i q c a ix kx e la H.
  destruct (Forall2_nth_l _ _ _ _ _ f e) as (x & ex & uc & gc).
  destruct (firsts_ex h (firstn i l)) as [fs hf].
  { pose proof (Forall2_firstn _ _ _ i f) as g. clear -g. induction g as [|? ? ? ? [? ?]]; constructor; auto. }
  rewrite <- (total_sizes n h (firstn i l) (firstn i xs) (Forall2_firstn _ _ _ i f) hn fs hf).
  rewrite <- (leaf_depth h c q a uc la) at 1 2. econstructor; eauto.
Qed.
Lemma valid_ndim (r : arr) ix : valid (shape r) ix -> length ix = ndim r.
Proof. intro h; apply valid_nth in h; apply h. Qed.
Lemma assemble_good n h : forall t r, h <= n -> uniform h t -> small n t -> assemble dflt n h t = Ok r -> good n h t r.
Proof.
  induction h as [|h IH]; intros t r hn u sm H; inversion u as [a|? l ne f]; subst.
  - cbn in H. injection H as <-. assert (ndim a <= n) as le by (apply (sm []); constructor).
    split.
    + apply padded_length, le.
    + intros b k hb hk. inversion hb; subst. apply padded_nth; lia.
    + intros p b ix lb hv. inversion lb; subst. exists ix. repeat split; auto; constructor.
    + intros jx hv. exists [], a, jx. repeat split; auto; constructor.
    + intros p b ix p' b' ix' jx l1 l2 v1 v2 L1 L2. inversion l1; subst. inversion l2; subst.
      inversion L1; subst. inversion L2; subst. auto.
  - apply assemble_node_iff in H as (xs & fx & hc).
    assert (Forall2 (fun c x => uniform h c /\ good n h c x) l xs) as G.
    { clear hc ne u. revert sm f. induction fx as [|c x l xs e fx IHl]; intros sm f; constructor.
      - inversion f; subst. split; auto. apply IH; auto; try lia. apply (small_child n (c :: l) 0); auto.
      - inversion f; subst. apply IHl; auto.
        intros p a la. inversion la; subst. apply (sm (S i :: p0)). econstructor; eauto. }
    assert (forall i x, nth_error xs i = Some x -> exists c, nth_error l i = Some c /\ uniform h c /\ good n h c x) as GX
      by (intros; eapply Forall2_nth_r in G; eauto).
    apply concat_ok in hc as (s & nex & [hk hs] & (x0 & xs' & e0 & es) & ->).
    assert (joinable _ h xs s) as J by (split; auto).
    split.
    + unfold ndim; cbn. rewrite set_nth_length. destruct (GX 0 x0) as (c & _ & _ & g); [subst; auto|]. subst s. apply g.
    + intros a k fa hkk. unfold size; cbn. rewrite nth_set_other by lia. destruct (GX 0 x0) as (c & ec & _ & g); [subst; auto|].
      inversion fa; subst. cbn in ec. injection ec as <-. apply g; auto. lia.
    + intros p a ix la hv. inversion la as [|? i c q ? e la']; subst p.
      destruct (Forall2_nth_l _ _ _ _ _ G e) as (x & ex & uc & gc).
      destruct (g_lands _ _ _ _ gc q a ix la' hv) as (kx & L & v & en). subst.
      eexists. split; [|split].
      * eapply lands_intro; eauto.
      * cbn [shape]. eapply valid_place; eauto.
      * cbn [entry]. rewrite <- en. eapply pick_place; eauto.
    + cbn [shape]. intros jx v. destruct (cover _ h s xs jx J v) as (i & x & kx & ex & vx & ->).
      destruct (GX i x ex) as (c & ec & uc & gc).
      destruct (g_from _ _ _ _ gc kx vx) as (q & a & ix & la & va & L).
      exists (i :: q), a, ix. repeat split; auto. { econstructor; eauto. } eapply lands_intro; eauto.
    + intros p a ix p' a' ix' jx l1 l2 v1 v2 L1 L2.
      destruct (lands_inv n h l xs u G ltac:(lia) p ix jx) as (i & q & c & x & kx & -> & ec & ex & Lc & ej); eauto.
      destruct (lands_inv n h l xs u G ltac:(lia) p' ix' jx) as (i' & q' & c' & x' & kx' & -> & ec' & ex' & Lc' & ej'); eauto.
      inversion l1 as [|? ? c1 ? ? e1 la1]; subst. inversion l2 as [|? ? c2 ? ? e2 la2]; subst.
      rewrite ec in e1; injection e1 as <-. rewrite ec' in e2; injection e2 as <-.
      destruct (GX i x ex) as (d & ed & _ & g). rewrite ec in ed; injection ed as <-.
      destruct (GX i' x' ex') as (d & ed & _ & g'). rewrite ec' in ed; injection ed as <-.
      destruct (g_lands _ _ _ _ g q a ix la1 v1) as (z & Lz & vz & _). rewrite (lands_at _ _ _ _ _ Lc Lz) in *.
      destruct (g_lands _ _ _ _ g' q' a' ix' la2 v2) as (z' & Lz' & vz' & _). rewrite (lands_at _ _ _ _ _ Lc' Lz') in *.
      destruct (bump_inj _ h _ _ i i' x x' z z' J ex ex' vz vz' ej') as [-> ->].
      rewrite ec in ec'. injection ec' as <-.
      destruct (g_once _ _ _ _ g _ _ _ _ _ _ _ la1 la2 v1 v2 Lz Lz') as [-> ->]. auto.
Qed.
Lemma off_axis_iff h s t : length s = length t /\ (forall j, j <> h -> nth j s 0 = nth j t 0) <-> fits h t s = true.
Proof.
  rewrite fits_iff. split.
  - intros [e f]. apply nth_ext with (d := 0) (d' := 0); [now rewrite !set_nth_length|].
    rewrite set_nth_length. intros j hj. destruct (Nat.eq_dec h j) as [<-|ne].
    + rewrite !nth_set_same by lia. reflexivity.
    + rewrite !nth_set_other by auto. symmetry; auto.
  - intro e. apply fits_iff in e. split; [symmetry; eapply fits_len; eauto|]. intros j hj. symmetry; eapply fits_nth; eauto.
Qed.
Lemma shaped_of n h : forall t r, assemble dflt n h t = Ok r -> uniform h t -> shaped n h t (shape r).
Proof.
  induction h as [|h IH]; intros t r H u; inversion u as [a|? l ne f]; subst.
  - cbn in H. injection H as <-. constructor.
  - apply assemble_node_iff in H as (xs & fx & hc).
    apply concat_ok in hc as (s & nex & [hk hs] & (x0 & xs' & -> & ->) & ->). cbn [shape].
    replace (sum (sizes h (x0 :: xs'))) with (sum (map (fun s => nth h s 0) (shape x0 :: map shape xs')))
      by (cbn [map]; rewrite map_map; reflexivity).
    constructor.
    + change (shape x0 :: map shape xs') with (map shape (x0 :: xs')). clear hs hk nex ne u. revert f.
      induction fx; intro f; inversion f; subst; constructor; auto.
    + intros s hi. apply in_map_iff in hi as (x & <- & hx). apply off_axis_iff. apply hs. now right.
Qed.
Lemma shaped_ok n h : forall t s, h <= n -> small n t -> shaped n h t s -> exists r, assemble dflt n h t = Ok r /\ shape r = s.
Proof.
  induction h as [|h IH]; intros t s hn sm H; inversion H as [a|? l s0 ss f g]; subst.
  - exists (atleast n a). auto.
  - assert (exists xs, Forall2 (fun c x => assemble dflt n h c = Ok x) l xs /\ map shape xs = s0 :: ss) as (xs & fx & ex).
    { clear H g. revert sm. induction f as [|c s l ss' e f IHl]; intro sm; [exists []; auto|].
      destruct (IH c s) as (r & er & <-); auto; try lia. { apply (small_child n (c :: l) 0); auto. }
      destruct IHl as (xs & fx & ex). { intros p a la. inversion la; subst. apply (sm (S i :: p0)). econstructor; eauto. }
      exists (r :: xs). split; [constructor; auto|]. cbn; f_equal; auto. }
    destruct xs as [|x0 xs]; [discriminate|]. cbn in ex. injection ex as <- <-.
    eexists; split.
    + apply assemble_node_iff. exists (x0 :: xs). split; auto. apply concat_iff. split; [|reflexivity].
      split.
      * destruct l as [|c l]; inversion fx as [|? ? ? ? a0 b0]; subst.
        assert (length (shape x0) = n); [|lia].
        inversion f as [|? ? ? ? sc fc]; subst. clear - sc sm.
        assert (small n c) as smc by (apply (small_child n (c :: l) 0); auto). clear sm.
        revert sc smc. generalize (shape x0). revert c. induction h as [|h IH]; intros c s sc smc; inversion sc as [a|? l' s0 ss f g]; subst.
        -- apply padded_length. apply (smc []); constructor.
        -- rewrite set_nth_length. inversion f as [|c' ? l'' ? h1 h2]; subst. apply (IH c'); auto. apply (small_child n (c' :: l'') 0); auto.
      * intros x [<-|hx]; [apply fits_iff; auto|]. apply off_axis_iff. apply g. now apply in_map.
    + cbn [shape map]. rewrite map_map. reflexivity.
Qed.
(* ---------- the number of axes ---------- *)
Lemma leaves_iff h : forall t : tree, uniform h t -> forall a, In a (leaves t) <-> exists p, leaf_at t p a.
Proof.
  induction h as [|h IH]; intros t u a; inversion u as [b|? l ne f]; subst.
  - cbn. split; [intros [<-|[]]; exists []; constructor|]. intros [p hp]; inversion hp; auto.
  - cbn [leaves]. rewrite in_flat_map. rewrite Forall_forall in f. split.
    + intros (c & hc & ha). apply (IH c) in ha as [p hp]; auto. apply In_nth_error in hc as [i hi]. exists (i :: p). econstructor; eauto.
    + intros [p hp]. inversion hp as [|? i c q ? e la]; subst. exists c. pose proof (nth_error_In _ _ e). split; auto. apply (IH c); eauto.
Qed.
Lemma maxl_ge l x : In x l -> x <= maxl l.
Proof. induction l as [|y l IH]; [intros []|]. cbn; intros [<-|h]; try lia. apply IH in h. unfold maxl in *. lia. Qed.
Lemma maxl_in l : l <> [] -> In (maxl l) l.
Proof.
  induction l as [|x l IH]; [congruence|]. intros _. destruct l as [|y l]; [left; cbn; lia|].
  change (maxl (x :: y :: l)) with (Nat.max x (maxl (y :: l))).
  destruct (Nat.max_spec x (maxl (y :: l))) as [[_ ->]|[_ ->]]; [right; apply IH; discriminate|now left].
Qed.
Definition axes (t : tree) (d : nat) : nat := Nat.max (Nat.max 1 d) (maxl (map ndim (leaves t))).
Lemma axes_spec t d : uniform d t -> result_axes t d (axes t d).
Proof.
  intro u. unfold axes. repeat split; try lia.
  - intros p a la. assert (ndim a <= maxl (map ndim (leaves t))); [|lia]. apply maxl_ge, in_map. eapply leaves_iff; eauto.
  - destruct (Nat.max_spec (Nat.max 1 d) (maxl (map ndim (leaves t)))) as [[h ->]|[h ->]].
    + right; right. assert (map ndim (leaves t) <> []) as ne. { intro e; rewrite e in h; cbn in h; lia. }
      apply maxl_in in ne. apply in_map_iff in ne as (a & e & ha). apply (leaves_iff d) in ha as [p hp]; auto. eauto.
    + lia.
Qed.
Lemma axes_unique (t : tree) d n n' : result_axes t d n -> result_axes t d n' -> n = n'.
Proof.
  intros (a & b & c & e) (a' & b' & c' & e'). apply Nat.le_antisymm.
  - destruct e as [->|[->|(p & x & l & <-)]]; auto. eapply c'; eauto.
  - destruct e' as [->|[->|(p & x & l & <-)]]; auto. eapply c; eauto.
Qed.
Lemma block_is t r : block dflt t = Ok r <-> exists d, uniform d t /\ assemble dflt (axes t d) d t = Ok r.
Proof.
  unfold block. split.
  - destruct (check_depths t) as [d|] eqn:E; cbn [bind]; [|discriminate]. apply check_depths_iff in E. intro H. exists d. split; auto.
    unfold axes. inversion E; subst.
    + injection H as <-. cbn. f_equal. unfold atleast. destruct (ndim a) as [|m] eqn:e; cbn [Nat.max].
      * reflexivity.
      * do 3 f_equal; lia.
    + replace (Nat.max 1 (S d0)) with (S d0) by lia. exact H.
  - intros (d & u & H). pose proof (proj2 (check_depths_iff d t) u) as E. rewrite E. cbn [bind].
    unfold axes in H. inversion u; subst.
    + injection H as <-. cbn. f_equal. unfold atleast. destruct (ndim a) as [|m] eqn:e; cbn [Nat.max].
      * reflexivity.
      * do 3 f_equal; lia.
    + replace (Nat.max 1 (S d0)) with (S d0) in H by lia. exact H.
Qed.
End Block.
