From Verif Require Import Common Sym_Model Sym_Spec Sym_Proofs Sym_Flatten SymDict_Model SymDict_More Sort_Lib Build_Model Build_Spec Build_Proofs.
From Coq Require Import Permutation Sorted.
Local Open Scope list_scope.

(* ---- keys ---- *)
Fixpoint tail_key (r : list (chars * chars)) : list part :=
  match r with [] => [] | (d, t) :: r' => PNum (to_number d) :: PText t :: tail_key r' end.
Lemma key_eq s : natural_key s = PText (fst (groups s)) :: tail_key (snd (groups s)).
Proof. unfold natural_key. f_equal. induction (snd (groups s)) as [|[d t] r IH]; cbn; [reflexivity|]. now rewrite IH. Qed.
Inductive aligned : list part -> Prop :=
| al_nil : aligned []
| al_cons n t l : aligned l -> aligned (PNum n :: PText t :: l).
Lemma tail_aligned r : aligned (tail_key r).
Proof. induction r as [|[d t] r IH]; cbn; constructor; auto. Qed.

Lemma part_eqb_eq x y : part_eqb x y = true <-> x = y.
Proof.
  destruct x, y; cbn; try (split; [discriminate|intro H; discriminate H]).
  - rewrite chars_eqb_eq. split; [congruence|intro H; injection H; auto].
  - rewrite N.eqb_eq. split; [congruence|intro H; injection H; auto].
Qed.
Definition kleb (a b : list part) : bool := match py_leb a b with Ok r => r | Err _ => false end.
Lemma leb_text t u a b : kleb (PText t :: a) (PText u :: b) = if chars_eqb t u then kleb a b else chars_leb t u.
Proof. unfold kleb. cbn. destruct (chars_eqb t u); reflexivity. Qed.
Lemma leb_num n m a b : kleb (PNum n :: a) (PNum m :: b) = if N.eqb n m then kleb a b else N.leb n m.
Proof. unfold kleb. cbn. destruct (N.eqb n m); reflexivity. Qed.
Lemma py_ok a : aligned a -> forall b, aligned b -> py_leb a b = Ok (kleb a b).
Proof.
  induction 1 as [|n t a Ha IH]; intros b Hb; destruct Hb as [|m u b Hb]; try reflexivity. rewrite leb_num, leb_text. cbn.
  destruct (N.eqb n m); [|reflexivity]. destruct (chars_eqb t u); [|reflexivity]. now apply IH.
Qed.
Theorem compare_never_raises s1 s2 : exists r, py_leb (natural_key s1) (natural_key s2) = Ok r.
Proof. rewrite !key_eq. cbn. destruct (chars_eqb _ _); [|eauto]. rewrite py_ok by apply tail_aligned. eauto. Qed.

(* one comparison step on a pair of equal-kind heads is a total preorder refined by the tail *)
Lemma klt_tot a : aligned a -> forall b, aligned b -> kleb a b = true \/ kleb b a = true.
Proof.
  induction 1 as [|n t a Ha IH]; intros b Hb; destruct Hb as [|m u b Hb]; auto.
  rewrite !leb_num, !leb_text. destruct (N.eqb_spec n m) as [->|Hn].
  - rewrite N.eqb_refl. destruct (chars_eqb t u) eqn:E.
    + apply chars_eqb_eq in E as ->. rewrite chars_eqb_refl. now apply IH.
    + assert (E' : chars_eqb u t = false) by (apply chars_eqb_neq; apply chars_eqb_neq in E; congruence). rewrite E'. apply chars_leb_total.
  - assert (E' : N.eqb m n = false) by (apply N.eqb_neq; congruence). rewrite E', !N.leb_le. lia.
Qed.
Lemma klt_tr a : aligned a -> forall b c, aligned b -> aligned c -> kleb a b = true -> kleb b c = true -> kleb a c = true.
Proof.
  induction 1 as [|n t a Ha IH]; intros b c Hb Hc; destruct Hb as [|m u b Hb]; destruct Hc as [|o w c Hc]; try (intros; reflexivity || discriminate).
  rewrite !leb_num, !leb_text. destruct (N.eqb_spec n m) as [->|Hnm].
  - destruct (N.eqb_spec m o) as [->|Hmo]; [|auto]. destruct (chars_eqb t u) eqn:E1.
    + apply chars_eqb_eq in E1 as ->. destruct (chars_eqb u w) eqn:E2; [now apply IH|auto].
    + destruct (chars_eqb u w) eqn:E2.
      * apply chars_eqb_eq in E2 as ->. rewrite E1. auto.
      * intros H1 H2. destruct (chars_eqb t w) eqn:E3; [|eapply chars_leb_trans; eassumption].
        apply chars_eqb_eq in E3 as ->. exfalso. apply chars_eqb_neq in E1. apply E1. now apply chars_leb_antisym.
  - destruct (N.eqb_spec m o) as [->|Hmo].
    + intros H _. destruct (N.eqb_spec n o); [congruence|exact H].
    + intros H1 H2. apply N.leb_le in H1, H2. destruct (N.eqb_spec n o) as [->|]; [lia|]. apply N.leb_le. lia.
Qed.
Lemma klt_antisym a : aligned a -> forall b, aligned b -> kleb a b = true -> kleb b a = true -> a = b.
Proof.
  induction 1 as [|n t a Ha IH]; intros b Hb; destruct Hb as [|m u b Hb]; try (intros; reflexivity || discriminate).
  rewrite !leb_num, !leb_text. destruct (N.eqb_spec n m) as [->|Hn].
  - rewrite N.eqb_refl. destruct (chars_eqb t u) eqn:E.
    + apply chars_eqb_eq in E as ->. rewrite chars_eqb_refl. intros H1 H2. f_equal. f_equal. now apply IH.
    + assert (E' : chars_eqb u t = false) by (apply chars_eqb_neq; apply chars_eqb_neq in E; congruence). rewrite E'. intros H1 H2.
      exfalso. apply chars_eqb_neq in E. apply E. now apply chars_leb_antisym.
  - assert (E' : N.eqb m n = false) by (apply N.eqb_neq; congruence). rewrite E', !N.leb_le. lia.
Qed.
Lemma nat_leb_tot x y : nat_leb x y = true \/ nat_leb y x = true.
Proof.
  change (kleb (natural_key (par_name x)) (natural_key (par_name y)) = true \/ kleb (natural_key (par_name y)) (natural_key (par_name x)) = true).
  rewrite !key_eq, !leb_text. destruct (chars_eqb (fst (groups (par_name x))) (fst (groups (par_name y)))) eqn:E.
  - apply chars_eqb_eq in E. rewrite E, chars_eqb_refl. apply klt_tot; apply tail_aligned.
  - assert (E' : chars_eqb (fst (groups (par_name y))) (fst (groups (par_name x))) = false) by (apply chars_eqb_neq; apply chars_eqb_neq in E; congruence).
    rewrite E'. apply chars_leb_total.
Qed.
Lemma nat_leb_tr x y z : nat_leb x y = true -> nat_leb y z = true -> nat_leb x z = true.
Proof.
  change (kleb (natural_key (par_name x)) (natural_key (par_name y)) = true -> kleb (natural_key (par_name y)) (natural_key (par_name z)) = true ->
          kleb (natural_key (par_name x)) (natural_key (par_name z)) = true).
  rewrite !key_eq, !leb_text. set (t := fst (groups (par_name x))). set (u := fst (groups (par_name y))). set (w := fst (groups (par_name z))).
  destruct (chars_eqb t u) eqn:E1.
  - apply chars_eqb_eq in E1. rewrite E1. destruct (chars_eqb u w) eqn:E2; [apply klt_tr; apply tail_aligned|auto].
  - destruct (chars_eqb u w) eqn:E2.
    + apply chars_eqb_eq in E2. rewrite <- E2, E1. auto.
    + intros H1 H2. destruct (chars_eqb t w) eqn:E3; [|eapply chars_leb_trans; eassumption].
      apply chars_eqb_eq in E3. rewrite <- E3 in H2. exfalso. apply chars_eqb_neq in E1. apply E1. now apply chars_leb_antisym.
Qed.
Lemma nat_leb_antisym x y : nat_leb x y = true -> nat_leb y x = true -> natural_key (par_name x) = natural_key (par_name y).
Proof.
  change (kleb (natural_key (par_name x)) (natural_key (par_name y)) = true -> kleb (natural_key (par_name y)) (natural_key (par_name x)) = true ->
          natural_key (par_name x) = natural_key (par_name y)).
  rewrite !key_eq, !leb_text. set (t := fst (groups (par_name x))). set (u := fst (groups (par_name y))).
  destruct (chars_eqb t u) eqn:E1.
  - apply chars_eqb_eq in E1. rewrite E1, chars_eqb_refl. intros H1 H2. f_equal. apply klt_antisym; auto; apply tail_aligned.
  - assert (E' : chars_eqb u t = false) by (apply chars_eqb_neq; apply chars_eqb_neq in E1; congruence). rewrite E'. intros H1 H2.
    exfalso. apply chars_eqb_neq in E1. apply E1. now apply chars_leb_antisym.
Qed.

(* ---- numbers inside names ---- *)
Lemma groups_nil s : groups s = ([], []) -> s = [].
Proof.
  destruct s as [|c s]; [reflexivity|]. cbn. fold (groups s). unfold group_step. destruct (is_digit c); [|discriminate].
  destruct (groups s) as [[|a t] [|[d u] r]]; discriminate.
Qed.
Lemma groups_digit c s : is_digit c = true -> fst (groups (c :: s)) = [].
Proof. intro H. cbn. fold (groups s). unfold group_step. rewrite H. destruct (groups s) as [[|a t] [|[d u] r]]; reflexivity. Qed.
Lemma groups_prefix p s : ~ ends_with_digit p -> starts_with_digit s -> groups (p ++ s) = (fst (groups p), snd (groups p) ++ snd (groups s)).
Proof.
  intros Hp (c0 & r0 & -> & Hc0). induction p as [|c p IH].
  - pose proof (groups_digit c0 r0 Hc0) as E. change (groups ([] ++ c0 :: r0) = ([], snd (groups (c0 :: r0)))). cbn [app].
    destruct (groups (c0 :: r0)) as [a r]. cbn in *. now subst.
  - change (groups ((c :: p) ++ c0 :: r0)) with (group_step c (groups (p ++ c0 :: r0))). change (groups (c :: p)) with (group_step c (groups p)). rewrite IH.
    + unfold group_step. destruct (is_digit c) eqn:Ec; [|reflexivity].
      destruct (groups p) as [[|a t] [|[d u] r]] eqn:Eg; cbn [fst snd app]; try reflexivity.
      exfalso. apply groups_nil in Eg. subst p. apply Hp. exists [], c. auto.
    + intros (q & c1 & -> & H1). apply Hp. exists (c :: q), c1. auto.
Qed.
Lemma groups_digits d q : d <> [] -> forallb is_digit d = true -> ~ starts_with_digit q -> groups (d ++ q) = ([], (d, fst (groups q)) :: snd (groups q)).
Proof.
  intros Hd Hdig Hq. induction d as [|c d IH]; [congruence|]. cbn in Hdig. apply andb_true_iff in Hdig as [Hc Hdig].
  cbn [app groups fold_right]. fold (groups (d ++ q)). unfold group_step. rewrite Hc. destruct d as [|c' d].
  - cbn [app]. destruct q as [|c1 q]; [reflexivity|]. assert (E : is_digit c1 = false) by (destruct (is_digit c1) eqn:E; [exfalso; apply Hq; exists c1, q; auto|reflexivity]).
    cbn [groups fold_right]. fold (groups q). unfold group_step. rewrite E. cbn [fst snd]. reflexivity.
  - rewrite IH; [reflexivity|discriminate|exact Hdig].
Qed.
Lemma tail_key_app r1 r2 : tail_key (r1 ++ r2) = tail_key r1 ++ tail_key r2.
Proof. induction r1 as [|[d t] r1 IH]; cbn; [reflexivity|]. now rewrite IH. Qed.
Lemma kleb_app r a b : kleb (tail_key r ++ a) (tail_key r ++ b) = kleb a b.
Proof. induction r as [|[d t] r IH]; cbn [tail_key app]; [reflexivity|]. rewrite leb_num, leb_text, N.eqb_refl, chars_eqb_refl. exact IH. Qed.
Lemma numbered_key p n q : ~ ends_with_digit p -> ~ starts_with_digit q ->
  natural_key (p ++ dec n ++ q) = PText (fst (groups p)) :: tail_key (snd (groups p)) ++ PNum n :: PText (fst (groups q)) :: tail_key (snd (groups q)).
Proof.
  intros Hp Hq. rewrite key_eq, groups_prefix; [|exact Hp|].
  - cbn [fst snd]. rewrite tail_key_app. f_equal. f_equal. rewrite groups_digits; [|apply dec_nonempty|apply dec_digits|exact Hq].
    cbn. unfold to_number. now rewrite undec_dec.
  - pose proof (dec_digits n) as H. pose proof (dec_nonempty n) as H0. destruct (dec n) as [|c r]; [congruence|]. cbn in H.
    apply andb_true_iff in H as [H _]. exists c, (r ++ q). auto.
Qed.
Theorem numbers_in_order p q n m t t' : ~ ends_with_digit p -> ~ starts_with_digit q -> (n < m)%N ->
  nat_leb (SDate (p ++ dec n ++ q) t) (SDate (p ++ dec m ++ q) t') = true /\
  nat_leb (SDate (p ++ dec m ++ q) t') (SDate (p ++ dec n ++ q) t) = false.
Proof.
  intros Hp Hq Hlt. unfold nat_leb. cbn [par_name]. rewrite !(numbered_key p _ q Hp Hq).
  set (k n := PText (fst (groups p)) :: tail_key (snd (groups p)) ++ PNum n :: PText (fst (groups q)) :: tail_key (snd (groups q))).
  change (kleb (k n) (k m) = true /\ kleb (k m) (k n) = false). unfold k. rewrite !leb_text, chars_eqb_refl, !kleb_app, !leb_num.
  destruct (N.eqb_spec n m); [lia|]. destruct (N.eqb_spec m n); [lia|]. rewrite N.leb_le, N.leb_gt. lia.
Qed.

(* ---- variables of the model ---- *)
Lemma name_leb_tot x y : name_leb x y = true \/ name_leb y x = true.
Proof. apply chars_leb_total. Qed.
Lemma name_leb_tr x y z : name_leb x y = true -> name_leb y z = true -> name_leb x z = true.
Proof. apply chars_leb_trans. Qed.
Definition dated0 (s : sym) : Prop := exists b, s = SDate b 0.
Lemma name_leb_anti x y : dated0 x -> dated0 y -> name_leb x y = true -> name_leb y x = true -> x = y.
Proof.
  intros (b & ->) (c & ->) H1 H2. pose proof (chars_leb_antisym _ _ H1 H2) as E. cbn in E. apply app_inv_tail in E. now subst.
Qed.
Definition time_aware_list (l : list (list sym)) : Prop := forall s, In s (concat l) -> time_aware s = true.
Lemma at0_dated s : time_aware s = true -> dated0 (at0 s).
Proof. destruct s; cbn; [discriminate| |]; intros _; eexists; reflexivity. Qed.
Section V.
Variable ord : set_order.
Hypothesis Ho : set_order_ok ord.
Lemma vs_spec vars shocks : time_aware_list vars -> time_aware_list shocks ->
  let r := variables_and_shocks ord vars shocks in
  (forall x, In x (snd r) <-> exists s, In s (concat shocks) /\ x = at0 s) /\
  (forall x, In x (fst r) <-> (exists s, In s (concat vars) /\ x = at0 s) /\ ~ In x (snd r)) /\
  NoDup (fst r) /\ NoDup (snd r) /\ (forall x, In x (fst r) \/ In x (snd r) -> dated0 x).
Proof.
  intros Hv Hsh. cbn zeta. unfold variables_and_shocks. cbn [fst snd]. set (sh := isort name_leb (ord (map at0 (concat shocks)))).
  assert (Nord : forall l, NoDup (ord l)).
  { intro l. eapply Permutation_NoDup; [symmetry; apply Ho|apply NoDup_nodup]. }
  assert (A : forall x, In x sh <-> exists s, In s (concat shocks) /\ x = at0 s).
  { intro x. unfold sh. rewrite isort_in, (ord_in ord Ho), in_map_iff. split; intros (s & H1 & H2); exists s; auto. }
  assert (B : forall x, In x (isort name_leb (ord (filter (fun x => negb (smem x sh)) (map at0 (concat vars))))) <-> (exists s, In s (concat vars) /\ x = at0 s) /\ ~ In x sh).
  { intro x. rewrite isort_in, (ord_in ord Ho), filter_In, in_map_iff, negb_true_iff. rewrite <- (smem_In x sh). split.
    - intros [(s & H1 & H2) H3]. split; [exists s; auto|congruence].
    - intros [(s & H1 & H2) H3]. split; [exists s; auto|]. destruct (smem x sh); [exfalso; apply H3; reflexivity|reflexivity]. }
  split; [exact A|]. split; [exact B|]. split; [|split].
  - eapply Permutation_NoDup; [apply isort_perm|apply Nord].
  - unfold sh. eapply Permutation_NoDup; [apply isort_perm|apply Nord].
  - intros x [H|H]; [apply B in H as [(s & H & ->) _]; apply at0_dated, Hv, H|apply A in H as (s & H & ->); apply at0_dated, Hsh, H].
Qed.
End V.
Lemma sort_same l1 l2 : NoDup l1 -> NoDup l2 -> (forall x, In x l1 <-> In x l2) -> (forall x, In x l1 -> dated0 x) -> isort name_leb l1 = isort name_leb l2.
Proof.
  intros N1 N2 H D. apply isort_canonical; [exact name_leb_tot|exact name_leb_tr|now apply NoDup_Permutation|]. intros x y Hx Hy. apply name_leb_anti; auto.
Qed.
Theorem vs_canonical ord ord' vars vars' shocks shocks' : set_order_ok ord -> set_order_ok ord' ->
  time_aware_list vars -> time_aware_list shocks -> time_aware_list vars' -> time_aware_list shocks' ->
  (forall x, In x (map at0 (concat vars)) <-> In x (map at0 (concat vars'))) ->
  (forall x, In x (map at0 (concat shocks)) <-> In x (map at0 (concat shocks'))) ->
  variables_and_shocks ord vars shocks = variables_and_shocks ord' vars' shocks'.
Proof.
  intros Ho Ho' H1 H2 H3 H4 Hv Hs.
  assert (Nord : forall o, set_order_ok o -> forall l, NoDup (o l)).
  { intros o Hoo l. eapply Permutation_NoDup; [symmetry; apply Hoo|apply NoDup_nodup]. }
  assert (D : forall l, time_aware_list l -> forall x, In x (map at0 (concat l)) -> dated0 x).
  { intros l Hl x Hx. apply in_map_iff in Hx as (s & <- & Hx). apply at0_dated, Hl, Hx. }
  unfold variables_and_shocks.
  assert (E : isort name_leb (ord (map at0 (concat shocks))) = isort name_leb (ord' (map at0 (concat shocks')))).
  { apply sort_same; auto.
    - intro x. rewrite (ord_in ord Ho), (ord_in ord' Ho'). apply Hs.
    - intros x Hx. apply (proj1 (ord_in ord Ho _ _)) in Hx. exact (D _ H2 x Hx). }
  rewrite E. f_equal. apply sort_same; auto.
  - intro x. rewrite (ord_in ord Ho), (ord_in ord' Ho'), !filter_In, Hv. tauto.
  - intros x Hx. apply (proj1 (ord_in ord Ho _ _)), filter_In in Hx as [Hx _]. exact (D _ H1 x Hx).
Qed.
(* model.variables: same set, naturally sorted, ties in name order *)
Theorem model_order_spec l : Permutation l (model_order l) /\ StronglySorted (fun x y => nat_leb x y = true) (model_order l) /\
  forall x, filter (fun y => nat_leb x y && nat_leb y x)%bool (model_order l) = filter (fun y => nat_leb x y && nat_leb y x)%bool l.
Proof.
  split; [apply isort_perm|]. split; [exact (isort_sorted nat_leb nat_leb_tot nat_leb_tr l)|].
  intro x. apply isort_stable. intros y z Hy Hz. apply andb_true_iff in Hy as [_ Hy], Hz as [Hz _]. eapply nat_leb_tr; eassumption.
Qed.

(* ---- all dates ---- *)
Lemma dedup_fold l : forall acc, NoDup acc -> let r := fold_left (fun acc x => if smem x acc then acc else acc ++ [x]) l acc in
  NoDup r /\ (forall x, In x r <-> In x acc \/ In x l).
Proof.
  induction l as [|a l IH]; intros acc Hn; cbn [fold_left]; [cbn; split; [exact Hn|tauto]|].
  destruct (smem a acc) eqn:E.
  - destruct (IH acc Hn) as [I1 I2]. split; [exact I1|]. intro x. rewrite I2. cbn. apply smem_In in E. split; [tauto|]. intros [H|[<-|H]]; auto.
  - destruct (IH (acc ++ [a])) as [I1 I2].
    + apply NoDup_app. split; [exact Hn|]. split; [repeat constructor; intros []|]. intros x Hx [<-|[]]. apply smem_In in Hx. congruence.
    + split; [exact I1|]. intro x. rewrite I2, in_app_iff. cbn. tauto.
Qed.
Lemma dedup_spec l : NoDup (dedup l) /\ (forall x, In x (dedup l) <-> In x l).
Proof. destruct (dedup_fold l [] (NoDup_nil _)) as [H1 H2]. split; [exact H1|]. intro x. unfold dedup. rewrite H2. cbn. tauto. Qed.
(* order of first occurrence: appending to the input only appends to the output *)
Lemma dedup_app l1 l2 : exists r, dedup (l1 ++ l2) = dedup l1 ++ r.
Proof.
  unfold dedup. rewrite fold_left_app. generalize (fold_left (fun acc x => if smem x acc then acc else acc ++ [x]) l1 []). intro acc. revert acc.
  induction l2 as [|a l2 IH]; intro acc; cbn [fold_left]; [exists []; now rewrite app_nil_r|]. destruct (smem a acc); [apply IH|].
  destruct (IH (acc ++ [a])) as (r & ->). exists ([a] ++ r). now rewrite app_assoc.
Qed.
Theorem combinations_spec vars : (forall s, In s vars -> time_aware s = true) ->
  exists names, NoDup names /\ (forall b, In b names <-> exists s, In s vars /\ par_name s = b) /\
    all_time_combinations vars = (map (fun b => SDate b (-1)) names, map (fun b => SDate b 0) names, map (fun b => SDate b 1) names).
Proof.
  intro H. destruct (dedup_spec (map at0 vars)) as [N I]. set (now := dedup (map at0 vars)) in *.
  assert (D : forall x, In x now -> x = SDate (par_name x) 0).
  { intros x Hx. apply I in Hx. apply in_map_iff in Hx as (s & <- & Hx). specialize (H s Hx). destruct s; [discriminate| |]; reflexivity. }
  assert (E : now = map (fun b => SDate b 0) (map par_name now)).
  { rewrite map_map. transitivity (map (fun x => x) now); [now rewrite map_id|]. apply map_ext_in. exact D. }
  exists (map par_name now). split; [|split].
  - rewrite E in N. apply NoDup_map_inv in N. exact N.
  - intro b. rewrite in_map_iff. split.
    + intros (x & <- & Hx). apply I in Hx. apply in_map_iff in Hx as (s & <- & Hx). exists s. split; [exact Hx|]. destruct s; reflexivity.
    + intros (s & Hx & <-). exists (at0 s). split; [destruct s; reflexivity|]. apply I. now apply in_map.
  - unfold all_time_combinations. change (dedup (map at0 vars)) with now. rewrite E. rewrite !map_map. reflexivity.
Qed.

(* ---- classification by date ---- *)
Definition shock_names_of (names : list chars) (s : sym) : Prop := In (par_name s) names.
Lemma existsb_chars n l : existsb (chars_eqb n) l = true <-> In n l.
Proof. rewrite existsb_exists. split; [intros (x & H & E); apply chars_eqb_eq in E; now subst|intro H; exists n; split; [exact H|apply chars_eqb_refl]]. Qed.
Theorem classify_spec ord eqs names : set_order_ok ord ->
  let written s := exists e, In e eqs /\ In s (atoms e) in
  match classify ord eqs names with
  | Ok (lags, now, leads, shocks) =>
      (forall s, written s -> time_aware s = true -> exists b t, s = SDate b t /\ (t = -1 \/ t = 0 \/ t = 1)%Z) /\
      (forall s, In s lags <-> written s /\ ~ In (par_name s) names /\ exists b, s = SDate b (-1)) /\
      (forall s, In s now <-> written s /\ ~ In (par_name s) names /\ exists b, s = SDate b 0) /\
      (forall s, In s leads <-> written s /\ ~ In (par_name s) names /\ exists b, s = SDate b 1) /\
      (forall s, In s shocks <-> written s /\ In (par_name s) names /\ time_aware s = true) /\
      (NoDup lags /\ NoDup now /\ NoDup leads /\ NoDup shocks) /\
      (forall l, In l [lags; now; leads; shocks] -> StronglySorted (fun x y => nat_leb x y = true) l)
  | Err e => e = ValueError /\ exists s, written s /\ time_aware s = true /\ ~ exists b t, s = SDate b t /\ (t = -1 \/ t = 0 \/ t = 1)%Z
  end.
Proof.
  intros Ho written. unfold classify. set (all := ord (filter time_aware (flat_map atoms eqs))).
  assert (IA : forall s, In s all <-> written s /\ time_aware s = true).
  { intro s. unfold all, written. rewrite (ord_in ord Ho), filter_In, in_flat_map. reflexivity. }
  assert (NA : NoDup all) by (eapply Permutation_NoDup; [symmetry; apply Ho|apply NoDup_nodup]).
  set (near := fun s => _ : bool).
  assert (Near : forall s, near s = true <-> exists b t, s = SDate b t /\ (t = -1 \/ t = 0 \/ t = 1)%Z).
  { intros [n|b t|b]; unfold near.
    - split; [discriminate|intros (? & ? & E & _); discriminate].
    - rewrite !orb_true_iff, !Z.eqb_eq. split; [intros [[H|H]|H]; exists b, t; auto|intros (? & ? & E & H); injection E as <- <-; tauto].
    - split; [discriminate|intros (? & ? & E & _); discriminate]. }
  assert (AT : forall t s, In s (isort nat_leb (filter (fun s => negb (existsb (chars_eqb (par_name s)) names) && match s with SDate _ t' => Z.eqb t' t | _ => false end)%bool all))
     <-> written s /\ ~ In (par_name s) names /\ exists b, s = SDate b t).
  { intros t s. rewrite isort_in, filter_In, IA, andb_true_iff, negb_true_iff. rewrite <- (existsb_chars (par_name s) names).
    assert (X : match s with SDate _ t' => Z.eqb t' t | _ => false end = true <-> exists b, s = SDate b t).
    { destruct s; [split; [discriminate|intros (? & E); discriminate]| |split; [discriminate|intros (? & E); discriminate]].
      rewrite Z.eqb_eq. split; [intros ->; eauto|intros (? & E); injection E; auto]. }
    rewrite X. split.
    - intros [[H1 _] [H2 H3]]. repeat split; auto. congruence.
    - intros (H1 & H2 & H3). repeat split; auto; [destruct H3 as (b & ->); reflexivity|]. destruct (existsb _ names); congruence. }
  destruct (forallb near all) eqn:E.
  - rewrite forallb_forall in E. split.
    { intros s H1 H2. apply Near, E, IA. auto. }
    split; [intro s; apply AT|]. split; [intro s; apply AT|]. split; [intro s; apply AT|]. split.
    { intro s. rewrite isort_in, filter_In, IA, existsb_chars. tauto. }
    split; [repeat split; (eapply Permutation_NoDup; [apply isort_perm|apply NoDup_filter, NA])|].
    intros l Hl. repeat (destruct Hl as [<-|Hl]; [exact (isort_sorted nat_leb nat_leb_tot nat_leb_tr _)|]). destruct Hl.
  - split; [reflexivity|]. assert (X : exists s, In s all /\ near s = false).
    { clear -E. induction all as [|a l IH]; [discriminate|]. cbn in E. destruct (near a) eqn:En; [|exists a; split; [now left|exact En]].
      destruct (IH E) as (s & H1 & H2). exists s. split; [now right|exact H2]. }
    destruct X as (s & H1 & H2). apply IA in H1 as [H1 H3]. exists s. repeat split; auto. rewrite <- Near. congruence.
Qed.
(* the lists do not depend on set order if no two names of the model have the same natural key *)
Theorem classify_canonical ord ord' eqs names : set_order_ok ord -> set_order_ok ord' ->
  (forall s s', In s (flat_map atoms eqs) -> In s' (flat_map atoms eqs) -> natural_key (par_name s) = natural_key (par_name s') -> par_name s = par_name s') ->
  (forall s, In s (flat_map atoms eqs) -> In (par_name s) names -> exists b, s = SDate b 0) ->
  classify ord eqs names = classify ord' eqs names.
Proof.
  intros Ho Ho' Hk Hz. unfold classify. set (L := filter time_aware (flat_map atoms eqs)).
  set (all := ord L). set (all' := ord' L).
  assert (P : Permutation all all').
  { unfold all, all'. etransitivity; [apply Ho|symmetry; apply Ho']. }
  assert (IL : forall s, In s all -> In s (flat_map atoms eqs) /\ time_aware s = true).
  { intros s Hs. unfold all in Hs. apply (proj1 (ord_in ord Ho _ _)) in Hs. now apply filter_In in Hs. }
  assert (PF : forall (q : sym -> bool) l l', Permutation l l' -> Permutation (filter q l) (filter q l')).
  { intros q l l' H. induction H; cbn; auto; repeat (match goal with |- context [if ?b then _ else _] => destruct b end); auto; [apply perm_swap|]. etransitivity; eassumption. }
  assert (C : forall q, (forall x y, In x all -> In y all -> q x = true -> q y = true -> par_name x = par_name y -> x = y) ->
    isort nat_leb (filter q all) = isort nat_leb (filter q all')).
  { intros q Hq. apply isort_canonical; [exact nat_leb_tot|exact nat_leb_tr|apply PF, P|]. intros x y Hx Hy L1 L2.
    apply filter_In in Hx as [Hx Qx], Hy as [Hy Qy]. apply Hq; auto. apply Hk; [apply IL, Hx|apply IL, Hy|]. now apply nat_leb_antisym. }
  set (near := fun s => _ : bool).
  assert (EF : forallb near all = forallb near all').
  { destruct (forallb near all) eqn:E1, (forallb near all') eqn:E2; try reflexivity.
    - rewrite forallb_forall in E1. assert (X : forallb near all' = true) by (apply forallb_forall; intros x Hx; apply E1; eapply Permutation_in; [symmetry; exact P|exact Hx]). congruence.
    - rewrite forallb_forall in E2. assert (X : forallb near all = true) by (apply forallb_forall; intros x Hx; apply E2; eapply Permutation_in; [exact P|exact Hx]). congruence. }
  rewrite EF. destruct (forallb near all'); [|reflexivity].
  assert (T : forall t x y, (negb (existsb (chars_eqb (par_name x)) names) && match x with SDate _ t' => Z.eqb t' t | _ => false end)%bool = true ->
    (negb (existsb (chars_eqb (par_name y)) names) && match y with SDate _ t' => Z.eqb t' t | _ => false end)%bool = true -> par_name x = par_name y -> x = y).
  { intros t x y Hx Hy. apply andb_true_iff in Hx as [_ Hx], Hy as [_ Hy]. destruct x, y; try discriminate. apply Z.eqb_eq in Hx, Hy. cbn. congruence. }
  cbv beta zeta. rewrite !(C (fun s => negb (existsb (chars_eqb (par_name s)) names) && match s with SDate _ t' => Z.eqb t' _ | _ => false end)%bool) by (intros x y _ _; apply T).
  rewrite (C (fun s => existsb (chars_eqb (par_name s)) names)); [reflexivity|].
  intros x y Hx Hy Qx Qy E. apply existsb_chars in Qx, Qy. destruct (Hz x (proj1 (IL x Hx)) Qx) as (b & ->), (Hz y (proj1 (IL y Hy)) Qy) as (c & ->).
  cbn in E. now subst.
Qed.
