(* C141.  Priors written in a model file. *)
From Verif Require Import Common SymDict_Model SymDict_More Pz_Model.
From Coq Require Import Lia.
Local Open Scope list_scope.

(* ---- specification ---- *)
(* the priors of a file, in the order they are written *)
Definition written {V} (blocks : list (block V)) : list (dnode V) :=
  flat_map (fun i => match i with Prior n => [n] | Equation => [] end) (concat blocks).
(* the last element of a list with a property *)
Definition last_such {A} (P : A -> Prop) (l : list A) (x : A) : Prop :=
  exists a b, l = a ++ x :: b /\ P x /\ forall y, In y b -> ~ P y.
Definition first_such {A} (P : A -> Prop) (l : list A) (x : A) : Prop :=
  exists a b, l = a ++ x :: b /\ P x /\ forall y, In y a -> ~ P y.

(* keywords with plot switched off: an entry for plot is overwritten, and one is added at the end if there is none *)
Definition plot_off {V} (kw : kwargs V) : kwargs V :=
  map (fun p => if chars_eqb (fst p) (str "plot") then (fst p, ABool false) else p) kw ++
  (if existsb (fun p => chars_eqb (fst p) (str "plot")) kw then [] else [(str "plot", ABool false)]).

Section P.
Variables V D : Type.
Variable dists wrappers : list chars.
Variable make : chars -> kwargs V -> result D.
Variable wrap : chars -> D -> kwargs V -> result D.
Notation build := (ast_to_distribution V D dists wrappers make wrap).
Notation build_meta := (with_metadata V D dists wrappers make wrap).
Notation parsed := (distributions_from_model V D dists wrappers make wrap).
Notation loaded := (load_priors V D dists wrappers make wrap).

Lemma mem_iff n l : mem n l = true <-> In n l.
Proof. unfold mem. rewrite existsb_exists. split; [intros (y & Hy & E); apply chars_eqb_eq in E; now subst|intros H; exists n; split; [auto|apply chars_eqb_refl]]. Qed.


Lemma dset_off (kw : kwargs V) : NoDup (map fst kw) -> dset chars_eqb plot (ABool false) kw = plot_off kw.
Proof.
  unfold plot_off, plot. set (pl := str "plot"). clearbody pl. induction kw as [|[k v] t IH]; [reflexivity|]. cbn [map fst]. intros H. inversion_clear H as [|? ? Hk Ht].
  cbn [dset existsb fst]. destruct (chars_eqb pl k) eqn:E.
  - apply chars_eqb_eq in E. subst k. rewrite chars_eqb_refl. cbn [orb]. rewrite app_nil_r. cbn [map fst]. rewrite ?chars_eqb_refl. f_equal. clear IH Ht.
    induction t as [|[k' v'] t IH]; [reflexivity|]. cbn [map fst]. cbn [map fst In] in Hk. destruct (chars_eqb k' pl) eqn:E'; [apply chars_eqb_eq in E'; tauto|]. f_equal. apply IH. tauto.
  - destruct (chars_eqb k pl) eqn:E'; [apply chars_eqb_eq in E'; subst; now rewrite chars_eqb_refl in E|]. cbn [orb app]. now rewrite (IH Ht).
Qed.

(* A prior is the named PreliZ distribution with the keywords as written, wrapped as written; maxent is called with
   plot=False whatever was written. *)
Theorem C141_built n d : NoDup (map fst (d_wkwargs n)) -> (build n = Ok d <->
  In (d_dist n) dists /\ exists base, make (d_dist n) (d_kwargs n) = Ok base /\
  match d_wrapper n with
  | None => d = base
  | Some w => In w wrappers /\ (w = str "maxent" -> wrap w base (plot_off (d_wkwargs n)) = Ok d) /\ (w <> str "maxent" -> wrap w base (d_wkwargs n) = Ok d)
  end).
Proof.
  intros ND. unfold ast_to_distribution. pose proof (mem_iff (d_dist n) dists) as M. destruct (mem (d_dist n) dists); cbn [negb].
  2:{ split; [discriminate|]. intros [H _]. apply M in H. discriminate. }
  assert (In (d_dist n) dists) as Hin by now apply M.
  destruct (make (d_dist n) (d_kwargs n)) as [base|e]; cbn [bind].
  2:{ split; [discriminate|]. intros (_ & b & Q & _). discriminate. }
  destruct (d_wrapper n) as [w|].
  2:{ split; [intros Q; injection Q as <-; eauto|]. intros (_ & b & Q & ->). injection Q as <-. easy. }
  pose proof (mem_iff w wrappers) as Mw. destruct (mem w wrappers); cbn [negb].
  2:{ split; [discriminate|]. intros (_ & b & _ & H & _). apply Mw in H. discriminate. }
  assert (In w wrappers) as Hw by now apply Mw.
  rewrite (dset_off _ ND). fold maxent. destruct (chars_eqb w maxent) eqn:E.
  - apply chars_eqb_eq in E. split.
    + intros H. refine (conj Hin (ex_intro _ base (conj eq_refl (conj Hw (conj (fun _ => H) _))))). congruence.
    + intros (_ & b & Q & _ & H & _). injection Q as <-. now apply H.
  - assert (w <> maxent) as Ne by (intros ->; rewrite chars_eqb_refl in E; discriminate). split.
    + intros H. refine (conj Hin (ex_intro _ base (conj eq_refl (conj Hw (conj _ (fun _ => H)))))). congruence.
    + intros (_ & b & Q & _ & _ & H). injection Q as <-. now apply H.
Qed.

(* ---- lookups ---- *)
Definition priors (items : list (item V)) : list (dnode V) := flat_map (fun i => match i with Prior n => [n] | Equation => [] end) items.
Lemma written_cons b (bs : list (block V)) : written (b :: bs) = priors b ++ written bs.
Proof. unfold written, priors. cbn [concat]. now rewrite flat_map_app. Qed.
(* [R ok val l res]: the dictionary has for every name what the last node of l with that name and with [ok] yields *)
Definition R {W} (val : dnode V -> option W) (l : list (dnode V)) (res : list (chars * W)) : Prop :=
  forall k v, dget chars_eqb k res = Some v <-> exists nd, last_such (fun x => d_param x = k /\ val x <> None) l nd /\ val nd = Some v.
Lemma last_snoc {A} (P : A -> Prop) l x : P x -> last_such P (l ++ [x]) x.
Proof. intros H. exists l, []. repeat split; auto. Qed.
Lemma last_app_r {A} (P : A -> Prop) l l2 x : last_such P l2 x -> last_such P (l ++ l2) x.
Proof. intros (a & b & -> & H). exists (l ++ a), b. now rewrite app_assoc. Qed.
Lemma last_app_l {A} (P : A -> Prop) l l2 x : last_such P l x -> (forall y, In y l2 -> ~ P y) -> last_such P (l ++ l2) x.
Proof. intros (a & b & -> & H & Hb) H2. exists a, (b ++ l2). rewrite <- app_assoc. split; [easy|split; [easy|]]. intros y Hy. apply in_app_iff in Hy as [Hy|Hy]; auto. Qed.
Lemma last_uniq {A} (P : A -> Prop) l : forall x y, last_such P l x -> last_such P l y -> x = y.
Proof.
  intros x y (a & b & -> & Hx & Hb) (a' & b' & E & Hy & Hb').
  revert a' E. induction a as [|z a IH]; intros [|z' a'] E; cbn in E.
  - now injection E.
  - injection E as <- E. destruct (Hb y); [|easy]. rewrite E. apply in_app_iff. right. now left.
  - injection E as -> E. destruct (Hb' x); [|easy]. rewrite <- E. apply in_app_iff. right. now left.
  - injection E as -> E. eapply IH. exact E.
Qed.
Lemma last_app_inv {A} (P : A -> Prop) l l2 x : last_such P (l ++ l2) x -> last_such P l2 x \/ (last_such P l x /\ forall y, In y l2 -> ~ P y).
Proof.
  revert l2 x. induction l as [|z l IH]; intros l2 x H; [now left|].
  destruct H as (a & b & E & Hx & Hb). destruct a as [|z' a]; cbn in E; injection E as -> E.
  - subst b. right. split; [exists [], l; repeat split; auto; intros y Hy; apply Hb, in_app_iff; now left|]. intros y Hy. apply Hb, in_app_iff. now right.
  - destruct (IH l2 x) as [H|[(a' & b' & -> & H) H2]]; [exists a, b; easy|now left|right]. split; [exists (z' :: a'), b'; easy|easy].
Qed.
Lemma R_step {W} (val : dnode V -> option W) l res n w : R val l res -> val n = Some w -> R val (l ++ [n]) (dset chars_eqb (d_param n) w res).
Proof.
  intros HR Hn k v. rewrite (dget_dset chars_eqb chars_eqb_eq). destruct (chars_eqb k (d_param n)) eqn:E.
  - apply chars_eqb_eq in E. subst k. split.
    + intros Q. injection Q as <-. exists n. split; [apply last_snoc; split; [easy|congruence]|easy].
    + intros (nd & H & Hv). assert (nd = n) as ->. { eapply last_uniq; [exact H|]. apply last_snoc. split; [easy|congruence]. } congruence.
  - rewrite (HR k v). split; intros (nd & H & Hv); exists nd; (split; [|easy]).
    + apply last_app_l; [easy|]. intros y [<-|[]] [Q _]. subst k. rewrite chars_eqb_refl in E. discriminate.
    + destruct (last_app_inv _ _ _ _ H) as [(a & b & Q & [P _] & _)|[H1 _]]; [|easy].
      destruct a as [|? [|? ?]]; cbn in Q; try discriminate. injection Q as <- _. subst k. rewrite chars_eqb_refl in E. discriminate.
Qed.
Lemma R_skip {W} (val : dnode V -> option W) l res n : R val l res -> val n = None -> R val (l ++ [n]) res.
Proof.
  intros HR Hn k v. rewrite (HR k v). split; intros (nd & H & Hv); exists nd; (split; [|easy]).
  - apply last_app_l; [easy|]. intros y [<-|[]] [_ Q]. easy.
  - destruct (last_app_inv _ _ _ _ H) as [(a & b & Q & [_ P] & _)|[H1 _]]; [|easy].
    destruct a as [|? [|? ?]]; cbn in Q; try discriminate. injection Q as <- _. easy.
Qed.
Lemma R_nil {W} (val : dnode V -> option W) : R val [] [].
Proof. intros k v. split; [discriminate|]. intros (nd & ((a & b & E & _) & _)). destruct a; discriminate. Qed.
Lemma dget_dupd_nodup {W} (d2 : list (chars * W)) : forall d k, NoDup (map fst d2) ->
  dget chars_eqb k (dupd chars_eqb d d2) = match dget chars_eqb k d2 with Some v => Some v | None => dget chars_eqb k d end.
Proof.
  induction d2 as [|[k' v'] t IH]; intros d k H; [reflexivity|]. cbn [map fst] in H. inversion_clear H as [|? ? Hk Ht].
  unfold dupd. cbn [fold_left fst snd dget]. fold (dupd chars_eqb (dset chars_eqb k' v' d) t). rewrite (IH _ _ Ht), (dget_dset chars_eqb chars_eqb_eq).
  destruct (chars_eqb k k') eqn:E; [|easy]. apply chars_eqb_eq in E. subst k'.
  destruct (dget chars_eqb k t) eqn:G; [|easy]. destruct Hk. clear -G. induction t as [|[a b] t IH]; [discriminate|]. cbn [dget] in G. destruct (chars_eqb k a) eqn:E.
  - apply chars_eqb_eq in E. now left.
  - right. auto.
Qed.
Lemma R_upd {W} (val : dnode V -> option W) l l2 res bd : R val l res -> R val l2 bd -> NoDup (map fst bd) -> R val (l ++ l2) (dupd chars_eqb res bd).
Proof.
  intros H1 H2 ND k v. rewrite (dget_dupd_nodup _ _ _ ND). destruct (dget chars_eqb k bd) as [w|] eqn:E.
  - apply H2 in E as (nd & HL & Hv). split.
    + intros Q. injection Q as <-. exists nd. split; [now apply last_app_r|easy].
    + intros (nd' & HL' & Hv'). apply (last_app_r _ l) in HL. rewrite (last_uniq _ _ _ _ HL' HL) in Hv'. congruence.
  - rewrite (H1 k v). split; intros (nd & HL & Hv); exists nd; (split; [|easy]).
    + apply last_app_l; [easy|]. intros y Hy P.
      assert (exists z, last_such (fun x => d_param x = k /\ val x <> None) l2 z) as (z & Hz).
      { clear -Hy P. revert y Hy P. induction l2 as [|x t IH] using rev_ind; [easy|]. intros y Hy P. apply in_app_iff in Hy as [Hy|[<-|[]]].
        - destruct (IH _ Hy P) as (z & Hz). destruct (chars_eqb (d_param x) k) eqn:E; [|].
          + apply chars_eqb_eq in E. destruct (val x) eqn:Ev; [exists x; apply last_snoc; split; congruence|]. exists z. apply last_app_l; [easy|]. intros ? [<-|[]] [_ Q]; easy.
          + exists z. apply last_app_l; [easy|]. intros ? [<-|[]] [Q _]. rewrite Q, chars_eqb_refl in E. discriminate.
        - exists x. now apply last_snoc. }
      destruct (val z) as [w|] eqn:Ez; [|destruct Hz as (? & ? & _ & [_ Q] & _); congruence].
      assert (dget chars_eqb k bd = Some w) as Q by (apply H2; eauto). congruence.
    + destruct (last_app_inv _ _ _ _ HL) as [HL2|[HL2 _]]; [|easy]. assert (dget chars_eqb k bd = Some v) by (apply H2; eauto). congruence.
Qed.
Definition okval {W} (f : dnode V -> result W) (n : dnode V) : option W := match f n with Ok w => Some w | Err _ => None end.
Lemma calibration_spec items : forall res,
  match from_calibration V D dists wrappers make wrap items res with
  | Ok res' => Forall (fun n => exists v, build_meta n = Ok v) (priors items) /\
               (forall l, R (okval build_meta) l res -> R (okval build_meta) (l ++ priors items) res') /\ (NoDup (map fst res) -> NoDup (map fst res'))
  | Err e => exists n, first_such (fun n => forall v, build_meta n <> Ok v) (priors items) n /\ build_meta n = Err e
  end.
Proof.
  induction items as [|[n|] t IH]; intros res; cbn [from_calibration priors flat_map].
  - split; [constructor|split; [|easy]]. intros l. now rewrite app_nil_r.
  - destruct (build_meta n) as [dm|e] eqn:E; cbn [bind].
    + specialize (IH (dset chars_eqb (d_param n) dm res)). cbn [app]. fold (priors t). destruct (from_calibration _ _ _ _ _ _ t _) as [r|e].
      * destruct IH as (I1 & I2 & I3). split; [constructor; [eauto|easy]|]. split.
        -- intros l HR. change (n :: priors t) with ([n] ++ priors t). rewrite app_assoc. apply I2. apply R_step; [easy|]. unfold okval. now rewrite E.
        -- intros ND. apply I3. now apply (dset_nodup chars_eqb chars_eqb_eq).
      * destruct IH as (x & (a & b & Q & P & Ha) & Hx). exists x. split; [|easy]. exists (n :: a), b. split; [cbn; now f_equal|]. split; [easy|]. intros y [<-|Hy]; [intros H; now destruct (H dm)|auto].
    + exists n. split; [|easy]. exists [], (priors t). split; [reflexivity|]. split; [intros v; congruence|easy].
  - apply IH.
Qed.
Lemma model_spec blocks : forall res l, R (okval build_meta) l res ->
  match from_model V D dists wrappers make wrap blocks res with
  | Ok res' => Forall (fun n => exists v, build_meta n = Ok v) (written blocks) /\ R (okval build_meta) (l ++ written blocks) res'
  | Err e => exists n, first_such (fun n => forall v, build_meta n <> Ok v) (written blocks) n /\ build_meta n = Err e
  end.
Proof.
  induction blocks as [|b t IH]; intros res l HR; cbn [from_model].
  - split; [constructor|]. unfold written. cbn. now rewrite app_nil_r.
  - rewrite written_cons. pose proof (calibration_spec b []) as C. destruct (from_calibration _ _ _ _ _ _ b []) as [bd|e]; cbn [bind].
    + destruct C as (C1 & C2 & C3). specialize (C2 [] (R_nil _)). cbn [app] in C2. specialize (C3 (NoDup_nil _)).
      specialize (IH (dupd chars_eqb res bd) (l ++ priors b) (R_upd _ _ _ _ _ HR C2 C3)). destruct (from_model _ _ _ _ _ _ t _) as [r|e].
      * destruct IH as (I1 & I2). split; [apply Forall_app; easy|]. now rewrite app_assoc.
      * destruct IH as (x & (a & b' & Q & P & Ha) & Hx). exists x. split; [|easy]. exists (priors b ++ a), b'. split; [now rewrite Q, app_assoc|]. split; [easy|].
        intros y Hy. apply in_app_iff in Hy as [Hy|Hy]; [|auto]. rewrite Forall_forall in C1. destruct (C1 y Hy) as (v & Hv). intros H. now apply (H v).
    + destruct C as (x & (a & b' & Q & P & Ha) & Hx). exists x. split; [|easy]. exists a, (b' ++ written t). split; [now rewrite Q, <- app_assoc|easy].
Qed.

Lemma meta_iff n d m : build_meta n = Ok (d, m) <->
  build n = Ok d /\ m = Meta (d_param n) (d_init n) (match d_wrapper n with Some _ => true | None => false end) (d_wrapper n).
Proof. unfold with_metadata. destruct (build n) as [x|]; cbn [bind]; split; [intros Q; now injection Q as <- <-|intros [Q ->]; now injection Q as ->|discriminate|intros [Q _]; discriminate]. Qed.
Lemma meta_err n e : build_meta n = Err e <-> build n = Err e.
Proof. unfold with_metadata. destruct (build n) as [x|]; cbn [bind]; split; congruence. Qed.

(* The priors a parse result hands out: every prior of the file must build, and the dictionary has for each name the last
   prior written for it, with its metadata. *)
Theorem C141_parsed blocks res : parsed blocks = Ok res ->
  Forall (fun n => exists d, build n = Ok d) (written blocks) /\
  forall name d m, dget chars_eqb name res = Some (d, m) <->
    exists n, last_such (fun x => d_param x = name) (written blocks) n /\ build n = Ok d /\
              m = Meta name (d_init n) (match d_wrapper n with Some _ => true | None => false end) (d_wrapper n).
Proof.
  unfold distributions_from_model. intros H. pose proof (model_spec blocks [] [] (R_nil _)) as S. rewrite H in S. destruct S as (S1 & S2). split.
  - eapply Forall_impl; [|exact S1]. intros n ([d m] & Q). apply meta_iff in Q as [Q _]. eauto.
  - intros name d m. rewrite (S2 name (d, m)). cbn [app]. rewrite Forall_forall in S1. split.
    + intros (n & (a & b & E & [P1 P2] & Hb) & Hv). exists n. unfold okval in Hv. destruct (build_meta n) as [dm|] eqn:Q; [|discriminate]. injection Hv as ->. apply meta_iff in Q as [Q Qm].
      split; [|split; [easy|now rewrite <- P1]]. exists a, b. split; [easy|split; [easy|]]. intros y Hy Py. apply (Hb y Hy). split; [easy|].
      destruct (S1 y) as (v & Qv); [rewrite E; apply in_app_iff; right; now right|]. unfold okval. now rewrite Qv.
    + intros (n & (a & b & E & P1 & Hb) & Hd & Hm). assert (build_meta n = Ok (d, m)) as Q by (apply meta_iff; subst; easy). exists n. split; [|unfold okval; now rewrite Q].
      exists a, b. split; [easy|]. split; [split; [easy|unfold okval; now rewrite Q]|]. intros y Hy [Py _]. now apply (Hb y Hy).
Qed.
(* ... and otherwise the error is that of the first prior that does not build *)
Theorem C141_parsed_error blocks e : parsed blocks = Err e ->
  exists n, first_such (fun n => forall d, build n <> Ok d) (written blocks) n /\ build n = Err e.
Proof.
  unfold distributions_from_model. intros H. pose proof (model_spec blocks [] [] (R_nil _)) as S. rewrite H in S. destruct S as (n & (a & b & E & P & Ha) & Hn).
  exists n. apply meta_err in Hn. split; [|easy]. exists a, b. split; [easy|]. split; [intros d; congruence|]. intros y Hy Q. apply (Ha y Hy). intros [d m] Q'. apply meta_iff in Q' as [Q' _]. now apply (Q d).
Qed.

(* ---- the loader ---- *)
Lemma items_spec items : forall res,
  match load_items V D dists wrappers make wrap items res with
  | Ok res' => Forall (fun n => forall e, build n = Err e -> caught e = true) (priors items) /\
               (forall l, R (okval build) l res -> R (okval build) (l ++ priors items) res')
  | Err e => exists n, first_such (fun n => exists e, build n = Err e /\ caught e = false) (priors items) n /\ build n = Err e
  end.
Proof.
  induction items as [|[n|] t IH]; intros res; cbn [load_items priors flat_map].
  - split; [constructor|]. intros l. now rewrite app_nil_r.
  - cbn [app]. fold (priors t). assert (forall b, first_such (fun n => exists e, build n = Err e /\ caught e = false) (priors t) b ->
        (forall e, build n = Err e -> caught e = true) -> first_such (fun n => exists e, build n = Err e /\ caught e = false) (n :: priors t) b) as Up.
    { intros x (a & b & Q & P & Ha) Hn. exists (n :: a), b. split; [cbn; now f_equal|]. split; [easy|]. intros y [<-|Hy]; [|auto]. intros (e & Qe & Qc). rewrite (Hn _ Qe) in Qc. discriminate. }
    unfold with_metadata. destruct (build n) as [d|e] eqn:E; cbn [bind].
    + specialize (IH (dset chars_eqb (d_param n) d res)). destruct (load_items _ _ _ _ _ _ t _) as [r|e'].
      * destruct IH as (I1 & I2). split; [constructor; [congruence|easy]|]. intros l HR. change (n :: priors t) with ([n] ++ priors t). rewrite app_assoc. apply I2. apply R_step; [easy|]. unfold okval. now rewrite E.
      * destruct IH as (x & F & Hx). exists x. split; [|easy]. apply Up; [easy|congruence].
    + destruct (caught e) eqn:Ce.
      * specialize (IH res). destruct (load_items _ _ _ _ _ _ t _) as [r|e'].
        -- destruct IH as (I1 & I2). split; [constructor; [congruence|easy]|]. intros l HR. change (n :: priors t) with ([n] ++ priors t). rewrite app_assoc. apply I2. apply R_skip; [easy|]. unfold okval. now rewrite E.
        -- destruct IH as (x & F & Hx). exists x. split; [|easy]. apply Up; [easy|congruence].
      * exists n. split; [|easy]. exists [], (priors t). split; [reflexivity|]. split; [eauto|easy].
  - apply IH.
Qed.
Lemma blocks_spec blocks : forall res l, R (okval build) l res ->
  match load_blocks V D dists wrappers make wrap blocks res with
  | Ok res' => Forall (fun n => forall e, build n = Err e -> caught e = true) (written blocks) /\ R (okval build) (l ++ written blocks) res'
  | Err e => exists n, first_such (fun n => exists e, build n = Err e /\ caught e = false) (written blocks) n /\ build n = Err e
  end.
Proof.
  induction blocks as [|b t IH]; intros res l HR; cbn [load_blocks].
  - split; [constructor|]. unfold written. cbn. now rewrite app_nil_r.
  - rewrite written_cons. pose proof (items_spec b res) as C. destruct (load_items _ _ _ _ _ _ b res) as [r|e]; cbn [bind].
    + destruct C as (C1 & C2). specialize (IH r (l ++ priors b) (C2 _ HR)). destruct (load_blocks _ _ _ _ _ _ t _) as [r'|e].
      * destruct IH as (I1 & I2). split; [apply Forall_app; easy|]. now rewrite app_assoc.
      * destruct IH as (x & (a & b' & Q & P & Ha) & Hx). exists x. split; [|easy]. exists (priors b ++ a), b'. split; [now rewrite Q, app_assoc|]. split; [easy|].
        intros y Hy. apply in_app_iff in Hy as [Hy|Hy]; [|auto]. rewrite Forall_forall in C1. intros (e' & Q1 & Q2). rewrite (C1 y Hy _ Q1) in Q2. discriminate.
    + destruct C as (x & (a & b' & Q & P & Ha) & Hx). exists x. split; [|easy]. exists a, (b' ++ written t). split; [now rewrite Q, <- app_assoc|easy].
Qed.

(* The priors of a loaded model: a prior that raises ValueError (or a subclass: an unknown distribution) or TypeError is
   dropped in silence, any other error stops the loading; what remains is, for each name, the last prior written for it
   that builds -- so a name can fall back to an earlier prior. *)
Definition silent (e : exn) : Prop := e = ValueError \/ e = TypeError \/ e = InvalidDistribution.
Lemma caught_iff e : caught e = true <-> silent e.
Proof.
  unfold silent, InvalidDistribution. destruct e; cbn [caught]; split; try discriminate; auto; try (intros [Q|[Q|Q]]; discriminate Q).
  - intros H. apply Nat.eqb_eq in H. subst. auto.
  - intros [Q|[Q|Q]]; try discriminate Q. injection Q as ->. reflexivity.
Qed.
Theorem C141_loaded blocks res : loaded blocks = Ok res ->
  Forall (fun n => forall e, build n = Err e -> silent e) (written blocks) /\
  forall name d, dget chars_eqb name res = Some d <->
    exists n, last_such (fun x => d_param x = name /\ exists d', build x = Ok d') (written blocks) n /\ build n = Ok d.
Proof.
  unfold load_priors. intros H. pose proof (blocks_spec blocks [] [] (R_nil _)) as S. rewrite H in S. destruct S as (S1 & S2). split.
  - eapply Forall_impl; [|exact S1]. intros n Hn e He. apply caught_iff. auto.
  - intros name d. rewrite (S2 name d). cbn [app]. assert (forall n, okval build n <> None <-> exists d', build n = Ok d') as Q.
    { intros n. unfold okval. destruct (build n); split; eauto; try easy. intros (? & ?); discriminate. }
    assert (forall n, okval build n = Some d <-> build n = Ok d) as Q2. { intros n. unfold okval. destruct (build n); split; congruence. }
    split; intros (n & (a & b & E & [P1 P2] & Hb) & Hv); exists n; (split; [|now apply Q2]); exists a, b; (split; [easy|]); (split; [split; [easy|now apply Q]|]); intros y Hy [Py1 Py2]; apply (Hb y Hy); split; auto; now apply Q.
Qed.
Theorem C141_loaded_error blocks e : loaded blocks = Err e ->
  exists n, first_such (fun n => exists e', build n = Err e' /\ ~ silent e') (written blocks) n /\ build n = Err e.
Proof.
  unfold load_priors. intros H. pose proof (blocks_spec blocks [] [] (R_nil _)) as S. rewrite H in S. destruct S as (n & (a & b & E & P & Ha) & Hn).
  assert (forall e', caught e' = false <-> ~ silent e') as Q. { intros e'. rewrite <- caught_iff. destruct (caught e'); split; congruence. }
  exists n. split; [|easy]. exists a, b. split; [easy|]. split; [destruct P as (e' & P1 & P2); exists e'; split; [easy|now apply Q]|]. intros y Hy (e' & P1 & P2). apply (Ha y Hy). exists e'. split; [easy|now apply Q].
Qed.

(* When every prior of the file builds the two agree. *)
Theorem C141_agree blocks res : parsed blocks = Ok res ->
  exists res', loaded blocks = Ok res' /\ forall name, dget chars_eqb name res' = option_map fst (dget chars_eqb name res).
Proof.
  intros H. destruct (C141_parsed _ _ H) as (H1 & H2). destruct (loaded blocks) as [res'|e] eqn:L.
  2:{ apply C141_loaded_error in L as (n & (a & b & E & (e' & P1 & _) & _) & _). rewrite Forall_forall in H1. destruct (H1 n) as (d & Hd); [rewrite E; apply in_app_iff; right; now left|]. congruence. }
  exists res'. split; [easy|]. destruct (C141_loaded _ _ L) as (_ & L2). intros name.
  assert (forall d, dget chars_eqb name res' = Some d <-> exists m, dget chars_eqb name res = Some (d, m)) as Q.
  { intros d. rewrite L2. rewrite Forall_forall in H1. split.
    - intros (n & (a & b & E & [P1 P2] & Hb) & Hv). eexists. apply H2. exists n. split; [|split; [easy|reflexivity]]. exists a, b. split; [easy|split; [easy|]]. intros y Hy Py. apply (Hb y Hy). split; [easy|]. apply H1. rewrite E. apply in_app_iff. right. now right.
    - intros (m & G). apply H2 in G as (n & (a & b & E & P1 & Hb) & Hv & _). exists n. split; [|easy]. exists a, b. split; [easy|]. split; [eauto|]. intros y Hy [Py _]. now apply (Hb y Hy). }
  destruct (dget chars_eqb name res) as [[d m]|] eqn:G; cbn [option_map fst].
  - apply Q. eauto.
  - destruct (dget chars_eqb name res') as [d|]; [|easy]. destruct (proj1 (Q d) eq_refl) as (m & ?). discriminate.
Qed.
End P.

(* ---- the loss is silent ---- *)
Definition norm_make (n : chars) (kw : kwargs nat) : result (chars * kwargs nat) :=
  if forallb (fun p => existsb (chars_eqb (fst p)) [str "mu"; str "sigma"]) kw then Ok (n, kw) else Err TypeError.
Definition no_wrap (w : chars) (d : chars * kwargs nat) (kw : kwargs nat) : result (chars * kwargs nat) := Ok d.
Definition good : dnode nat := DN (str "alpha") (str "Normal") [(str "mu", ANum 0); (str "sigma", ANum 1)] None [] (Some 3).
Definition misspelt : dnode nat := DN (str "alpha") (str "Normal") [(str "mu", ANum 0); (str "sigm", ANum 1)] None [] (Some 3).
Definition wrapped : dnode nat := DN (str "beta") (str "Normal") [(str "mu", ANum 0)] (Some (str "maxent")) [(str "lower", ANum 0)] (Some 5).
Theorem C141_silent_loss_refuted :
  ~ (forall blocks name, In name (map d_param (written blocks)) ->
       (exists e, load_priors nat _ [str "Normal"] [] norm_make no_wrap blocks = Err e) \/
       (exists res d, load_priors nat _ [str "Normal"] [] norm_make no_wrap blocks = Ok res /\ dget chars_eqb name res = Some d)).
Proof.
  intros H. destruct (H [[Prior misspelt]] (str "alpha")) as [(e & E)|(res & d & E & G)]; [now left|vm_compute in E; discriminate|]. vm_compute in E. injection E as <-. discriminate.
Qed.
Theorem C141_case :
  let dl := distributions_from_model nat _ [str "Normal"] [str "maxent"] norm_make (fun w d kw => Ok (fst d, kw)) in
  let ld := load_priors nat _ [str "Normal"] [str "maxent"] norm_make (fun w d kw => Ok (fst d, kw)) in
  dl [[Prior good; Equation]; [Prior wrapped]] =
    Ok [(str "alpha", ((str "Normal", d_kwargs good), Meta (str "alpha") (Some 3) false None));
        (str "beta", ((str "Normal", [(str "lower", ANum 0); (str "plot", ABool false)]), Meta (str "beta") (Some 5) true (Some (str "maxent"))))] /\
  ld [[Prior good; Equation]; [Prior wrapped]] =
    Ok [(str "alpha", (str "Normal", d_kwargs good)); (str "beta", (str "Normal", [(str "lower", ANum 0); (str "plot", ABool false)]))] /\
  dl [[Prior good]; [Prior misspelt]] = Err TypeError /\ ld [[Prior good]; [Prior misspelt]] = Ok [(str "alpha", (str "Normal", d_kwargs good))].
Proof. vm_compute. repeat split. Qed.
