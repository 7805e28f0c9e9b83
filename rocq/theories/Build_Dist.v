From Verif Require Import Common Sym_Model Sym_Spec Sym_Proofs SymDict_Model SymDict_More Build_Model Build_Spec Build_Proofs.
From Coq Require Import Permutation.
Local Open Scope list_scope.

Section D.
Context {D : Type}.
Implicit Types (bs : list (dist_block D)).
Definition priors_of bs : list (chars * D) := concat (map db_priors bs).
Definition shocks_of bs : list shock_item := concat (map db_shocks bs).

Lemma cget_In {V} k (d : list (chars * V)) v : dget chars_eqb k d = Some v -> In (k, v) d.
Proof.
  induction d as [|[k' v'] d IH]; cbn; [discriminate|]. destruct (chars_eqb k k') eqn:E; [|auto].
  apply chars_eqb_eq in E as ->. intro H. injection H as ->. auto.
Qed.
Lemma cget_None {V} k (d : list (chars * V)) : dget chars_eqb k d = None <-> ~ In k (map fst d).
Proof.
  induction d as [|[k' v'] d IH]; cbn; [tauto|]. destruct (chars_eqb k k') eqn:E.
  - apply chars_eqb_eq in E as ->. split; [discriminate|]. intro H. exfalso. auto.
  - apply chars_eqb_neq in E. rewrite IH. intuition congruence.
Qed.
Lemma cget_iff {V} k (d : list (chars * V)) v : NoDup (map fst d) -> dget chars_eqb k d = Some v <-> In (k, v) d.
Proof.
  intro Hn. split; [apply cget_In|]. intro Hi. destruct (dget chars_eqb k d) as [w|] eqn:E.
  - apply cget_In in E. f_equal. induction d as [|[a b] d IH]; [destruct Hi|]. cbn in Hn. inversion Hn; subst.
    destruct Hi as [Hi|Hi], E as [E|E]; try congruence; auto.
    + injection Hi as -> ->. exfalso. apply H1. now apply (in_map fst) in E.
    + injection E as -> ->. exfalso. apply H1. now apply (in_map fst) in Hi.
  - apply cget_None in E. exfalso. apply E. now apply (in_map fst) in Hi.
Qed.

Lemma known_fold bs : forall st, NoDup (map fst (fst st) ++ map fst (priors_of bs)) -> fst (fold_left dist_step bs st) = fst st ++ priors_of bs.
Proof.
  induction bs as [|b bs IH]; intros st H; cbn [fold_left priors_of map concat]; [now rewrite app_nil_r|].
  unfold priors_of in H. cbn [map concat] in H. fold (priors_of bs) in *. rewrite map_app, app_assoc in H.
  assert (E : dupd chars_eqb (fst st) (db_priors b) = fst st ++ db_priors b).
  { apply NoDup_app in H as (H & _ & _). apply NoDup_app in H as (_ & H1 & H2). now apply (dupd_fresh chars_eqb chars_eqb_eq). }
  rewrite IH; unfold dist_step; cbn [fst]; rewrite E; [now rewrite app_assoc|now rewrite map_app].
Qed.
Lemma shocks_step (known : list (chars * D)) items : forall (acc : list (chars * composite)) n, NoDup (map si_name items) ->
  dget chars_eqb n (fold_left (fun acc item => match create_shock item known with Some c => dset chars_eqb (si_name item) c acc | None => acc end) items acc) =
  match find (fun it => chars_eqb (si_name it) n) items with
  | Some it => match create_shock it known with Some c => Some c | None => dget chars_eqb n acc end
  | None => dget chars_eqb n acc
  end.
Proof.
  induction items as [|it items IH]; intros acc n Hn; [reflexivity|]. cbn in Hn. inversion Hn as [|? ? N1 N2]; subst. cbn [fold_left find].
  rewrite IH by exact N2. destruct (chars_eqb (si_name it) n) eqn:E.
  - apply chars_eqb_eq in E as <-. assert (F : find (fun i => chars_eqb (si_name i) (si_name it)) items = None).
    { destruct (find _ items) as [j|] eqn:Ef; [|reflexivity]. apply find_some in Ef as [F1 F2]. apply chars_eqb_eq in F2. exfalso. apply N1. rewrite <- F2. now apply in_map. }
    rewrite F. destruct (create_shock it known) as [c|]; [|reflexivity]. rewrite (dget_dset chars_eqb chars_eqb_eq), chars_eqb_refl. reflexivity.
  - assert (X : dget chars_eqb n (match create_shock it known with Some c => dset chars_eqb (si_name it) c acc | None => acc end) = dget chars_eqb n acc).
    { destruct (create_shock it known) as [c|]; [|reflexivity]. rewrite (dget_dset chars_eqb chars_eqb_eq).
      assert (E' : chars_eqb n (si_name it) = false) by (apply chars_eqb_neq; apply chars_eqb_neq in E; congruence). now rewrite E'. }
    rewrite X. reflexivity.
Qed.
Lemma shocks_fold_other bs : forall st n, NoDup (map si_name (shocks_of bs)) -> ~ In n (map si_name (shocks_of bs)) ->
  dget chars_eqb n (snd (fold_left dist_step bs st)) = dget chars_eqb n (snd st).
Proof.
  induction bs as [|b bs IH]; intros st n Hn Hi; [reflexivity|]. unfold shocks_of in Hn, Hi. cbn [map concat] in Hn, Hi. fold (shocks_of bs) in *.
  rewrite map_app in Hn, Hi. rewrite in_app_iff in Hi. apply NoDup_app in Hn as (N1 & N2 & N3). cbn [fold_left]. rewrite IH; [|exact N2|tauto].
  unfold dist_step. cbn [snd]. rewrite shocks_step by exact N1.
  destruct (find _ (db_shocks b)) as [it|] eqn:E; [|reflexivity]. apply find_some in E as [E1 E2]. apply chars_eqb_eq in E2. exfalso. apply Hi. left.
  rewrite <- E2. now apply in_map.
Qed.
Theorem shock_gets_known bs1 b bs2 item : let bs := bs1 ++ b :: bs2 in
  NoDup (map fst (priors_of bs)) -> NoDup (map si_name (shocks_of bs)) -> In item (db_shocks b) ->
  dget chars_eqb (si_name item) (snd (collect_distributions bs)) = create_shock item (priors_of (bs1 ++ [b])).
Proof.
  intros bs Hp Hs Hi. unfold collect_distributions, bs. rewrite fold_left_app. cbn [fold_left].
  assert (Sp : shocks_of bs = shocks_of bs1 ++ db_shocks b ++ shocks_of bs2).
  { unfold bs, shocks_of. rewrite map_app, concat_app. reflexivity. }
  assert (Pp : priors_of bs = priors_of bs1 ++ db_priors b ++ priors_of bs2).
  { unfold bs, priors_of. rewrite map_app, concat_app. reflexivity. }
  rewrite Sp, !map_app in Hs. rewrite Pp, !map_app in Hp.
  apply NoDup_app in Hs as (S1 & S23 & S4). apply NoDup_app in S23 as (S2 & S3 & S5). apply NoDup_app in Hp as (P1 & P23 & P4). apply NoDup_app in P23 as (P2 & P3 & P5).
  assert (In1 : In (si_name item) (map si_name (db_shocks b))) by now apply in_map.
  rewrite shocks_fold_other; [|exact S3|apply S5, In1].
  set (st := fold_left dist_step bs1 ([], [])). unfold dist_step. cbn [snd]. rewrite shocks_step by exact S2.
  assert (K : dupd chars_eqb (fst st) (db_priors b) = priors_of (bs1 ++ [b])).
  { assert (Est : fst st = priors_of bs1) by (unfold st; rewrite known_fold; [reflexivity|exact P1]).
    rewrite Est, (dupd_fresh chars_eqb chars_eqb_eq); [|exact P2|intros x Hx C; apply (P4 x Hx), in_app_iff; auto].
    unfold priors_of. rewrite map_app, concat_app. cbn. now rewrite app_nil_r. }
  rewrite K. destruct (find (fun it => chars_eqb (si_name it) (si_name item)) (db_shocks b)) as [it|] eqn:E.
  - apply find_some in E as [E1 E2]. apply chars_eqb_eq in E2.
    assert (it = item).
    { clear -S2 E1 E2 Hi. induction (db_shocks b) as [|a l IH]; [destruct Hi|]. cbn in S2. inversion S2; subst.
      destruct E1 as [->|E1], Hi as [->|Hi]; auto; exfalso; apply H1; [rewrite E2|rewrite <- E2]; now apply in_map. }
    subst it. destruct (create_shock item _); [reflexivity|]. apply cget_None.
    intro C. assert (Z : dget chars_eqb (si_name item) (snd st) = None).
    { unfold st. rewrite shocks_fold_other; [reflexivity|exact S1|]. intro C'. apply (S4 _ C'), in_app_iff. auto. }
    apply cget_None in Z. exact (Z C).
  - exfalso. pose proof (find_none _ _ E item Hi) as X. cbn in X. rewrite chars_eqb_refl in X. discriminate.
Qed.
(* what create_shock records *)
Theorem create_shock_spec item (known : list (chars * D)) : NoDup (map fst known) ->
  match create_shock item known with
  | Some c => c <> [] /\ forall kw h pr, In (kw, h, pr) c <-> In (kw, KRef h) (si_kwargs item) /\ (forall d, pr = Some d <-> In (h, d) known)
  | None => forall kw h, ~ In (kw, KRef h) (si_kwargs item)
  end.
Proof.
  intro Hn. unfold create_shock. set (L := flat_map _ _).
  assert (I : forall kw h pr, In (kw, h, pr) L <-> In (kw, KRef h) (si_kwargs item) /\ (forall d, pr = Some d <-> In (h, d) known)).
  { intros kw h pr. unfold L. rewrite in_flat_map. split.
    - intros ((k & v) & H1 & H2). cbn in H2. destruct v as [z|h']; [destruct H2|]. destruct H2 as [H2|[]]. injection H2 as <- <- <-.
      split; [exact H1|]. intro d. now apply cget_iff.
    - intros [H1 H2]. exists (kw, KRef h). split; [exact H1|]. cbn. left. f_equal. destruct (dget chars_eqb h known) as [d|] eqn:E.
      + apply cget_In, H2 in E. now symmetry.
      + destruct pr as [d|]; [|reflexivity]. assert (X : In (h, d) known) by now apply H2. apply cget_None in E. exfalso. apply E. now apply (in_map fst) in X. }
  destruct L as [|x l] eqn:EL.
  - intros kw h H. set (pr := dget chars_eqb h known). assert (X : In (kw, h, pr) []); [|destruct X]. apply I. split; [exact H|]. intro d. now apply cget_iff.
  - split; [discriminate|exact I].
Qed.
(* all declared priors, and which of them become parameter priors *)
Theorem priors_spec bs shock_names : NoDup (map fst (priors_of bs)) ->
  let cd := collect_distributions bs in let sp := split_distributions (fst cd) (snd cd) shock_names in
  snd sp = snd cd /\
  forall n d, In (n, d) (fst sp) <-> In (n, d) (priors_of bs) /\ ~ In n shock_names /\
    ~ exists s c kw pr, In (s, c) (snd cd) /\ In (kw, n, pr) c.
Proof.
  intros Hn cd sp. split; [reflexivity|]. intros n d. unfold sp, split_distributions. cbn [fst]. rewrite filter_In, andb_true_iff, !negb_true_iff.
  unfold cd at 1, collect_distributions. rewrite known_fold by exact Hn. cbn [fst app].
  set (H := flat_map _ _). assert (IH : In n H <-> exists s c kw pr, In (s, c) (snd cd) /\ In (kw, n, pr) c).
  { unfold H. rewrite in_flat_map. split.
    - intros ((s & c) & H1 & H2). apply in_map_iff in H2 as (((kw & h) & pr) & E & H2). cbn in E. subst h. exists s, c, kw, pr. auto.
    - intros (s & c & kw & pr & H1 & H2). exists (s, c). split; [exact H1|]. apply in_map_iff. exists (kw, n, pr). auto. }
  assert (EX : forall l, existsb (chars_eqb n) l = false <-> ~ In n l).
  { intro l. rewrite <- Bool.not_true_iff_false, existsb_exists. split; intros X Y; apply X; [exists n; split; [exact Y|apply chars_eqb_refl]|].
    destruct Y as (x & Y1 & Y2). apply chars_eqb_eq in Y2. now subst. }
  cbn [fst]. rewrite !EX, IH. tauto.
Qed.
End D.
