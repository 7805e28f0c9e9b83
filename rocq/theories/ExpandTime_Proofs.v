From Verif Require Import Common Expr_Model Expr_RoundTrip ExpandTime_Model ExpandTime_Spec.
From Coq Require Import Permutation.
Local Open Scope list_scope.

(* ---------- names ---------- *)
Lemma digits_suffix_unique (a b u v : chars) (c d : ascii) :
  forallb is_digit u = true -> forallb is_digit v = true -> is_digit c = false -> is_digit d = false ->
  (a ++ [c]) ++ u = (b ++ [d]) ++ v -> a ++ [c] = b ++ [d] /\ u = v.
Proof.
  intros Hu Hv Hc Hd H.
  assert (G : forall (u v : chars), forallb is_digit u = true -> forallb is_digit v = true ->
     u ++ (c :: rev a) = v ++ (d :: rev b) -> u = v /\ c :: rev a = d :: rev b).
  { clear H Hu Hv u v. induction u as [|x u IH]; intros [|y v] Hu Hv H; cbn in *.
    - auto.
    - injection H as -> _. apply andb_true_iff in Hv as [Hv _]. congruence.
    - injection H as -> _. apply andb_true_iff in Hu as [Hu _]. congruence.
    - apply andb_true_iff in Hu as [_ Hu]. apply andb_true_iff in Hv as [_ Hv].
      injection H as -> H. destruct (IH v Hu Hv H) as [-> ?]. auto. }
  apply (f_equal (@rev ascii)) in H. rewrite !rev_app_distr in H. cbn in H.
  destruct (G (rev u) (rev v)) as [E1 E2].
  - rewrite forallb_forall in *. intros x Hx. apply Hu, in_rev, Hx.
  - rewrite forallb_forall in *. intros x Hx. apply Hv, in_rev, Hx.
  - exact H.
  - apply (f_equal (@rev ascii)) in E1. rewrite !rev_involutive in E1.
    injection E2 as -> E2. apply (f_equal (@rev ascii)) in E2. rewrite !rev_involutive in E2. subst. auto.
Qed.

Lemma lag_split x k : lag_name x k = ((x ++ str "__la") ++ ["g"%char]) ++ dec (N.of_nat k).
Proof. unfold lag_name. cbn. rewrite <- !app_assoc. reflexivity. Qed.
Lemma lead_split x k : lead_name x k = ((x ++ str "__lea") ++ ["d"%char]) ++ dec (N.of_nat k).
Proof. unfold lead_name. cbn. rewrite <- !app_assoc. reflexivity. Qed.

Lemma lag_name_inj x y k l : lag_name x k = lag_name y l -> x = y /\ k = l.
Proof.
  rewrite !lag_split. intro H.
  apply digits_suffix_unique in H as [H1 H2]; try apply dec_digits; try reflexivity.
  apply app_inj_tail in H1 as [H1 _]. apply app_inv_tail in H1. apply dec_inj in H2. split; [auto|lia].
Qed.
Lemma lead_name_inj x y k l : lead_name x k = lead_name y l -> x = y /\ k = l.
Proof.
  rewrite !lead_split. intro H.
  apply digits_suffix_unique in H as [H1 H2]; try apply dec_digits; try reflexivity.
  apply app_inj_tail in H1 as [H1 _]. apply app_inv_tail in H1. apply dec_inj in H2. split; [auto|lia].
Qed.
Lemma lag_lead_disjoint x y k l : lag_name x k <> lead_name y l.
Proof.
  rewrite lag_split, lead_split. intro H.
  apply digits_suffix_unique in H as [H1 H2]; try apply dec_digits; try reflexivity.
  apply app_inj_tail in H1 as [_ H1]. discriminate.
Qed.

(* ---------- dictionaries ---------- *)
Lemma lookup_dset k k' v d : lookup k (dset k' v d) = if chars_eqb k k' then Some v else lookup k d.
Proof.
  unfold lookup. induction d as [|[a w] d IH]; cbn.
  - destruct (chars_eqb k k') eqn:E; reflexivity.
  - destruct (chars_eqb k' a) eqn:E1; cbn.
    + apply chars_eqb_eq in E1; subst a.
      destruct (chars_eqb k k'); reflexivity.
    + destruct (chars_eqb k a) eqn:E2; cbn.
      * apply chars_eqb_eq in E2; subst a. destruct (chars_eqb k k') eqn:E3; [|reflexivity].
        apply chars_eqb_eq in E3. subst. rewrite chars_eqb_refl in E1. discriminate.
      * exact IH.
Qed.
Lemma dset_keys k v d : map fst (dset k v d) = if din k d then map fst d else map fst d ++ [k].
Proof.
  unfold din, lookup. induction d as [|[a w] d IH]; cbn; [reflexivity|].
  destruct (chars_eqb k a); cbn; [reflexivity|]. rewrite IH.
  destruct (find _ d); reflexivity.
Qed.
Lemma lookup_In {V} k (v : V) d : lookup k d = Some v -> In (k, v) d.
Proof.
  unfold lookup. destruct (find _ d) as [[a w]|] eqn:E; [|discriminate].
  apply find_some in E as [H1 H2]. cbn in H2. apply chars_eqb_eq in H2. intro H. injection H as <-. now subst.
Qed.
Lemma lookup_NoDup_In {V} k (v : V) d : NoDup (map fst d) -> In (k, v) d -> lookup k d = Some v.
Proof.
  unfold lookup. induction d as [|[a w] d IH]; cbn; [easy|]. intros Hn [H|H].
  - injection H as -> ->. now rewrite chars_eqb_refl.
  - inversion Hn; subst. destruct (chars_eqb k a) eqn:E; [|auto].
    apply chars_eqb_eq in E. subst a. exfalso. apply H2. apply in_map_iff. exists (k, v). auto.
Qed.
Lemma din_In k d : din k d = true <-> In k (map fst d).
Proof.
  unfold din, lookup. induction d as [|[a w] d IH]; cbn; [easy|].
  destruct (chars_eqb k a) eqn:E.
  - apply chars_eqb_eq in E. subst. tauto.
  - apply chars_eqb_neq in E. rewrite IH. intuition congruence.
Qed.
Lemma dset_NoDup k v d : NoDup (map fst d) -> NoDup (map fst (dset k v d)).
Proof.
  intro H. rewrite dset_keys. destruct (din k d) eqn:E; [exact H|].
  assert (~ In k (map fst d)) by (rewrite <- din_In; congruence).
  apply (Permutation_NoDup (l := k :: map fst d)); [|constructor; assumption].
  apply Permutation_cons_append.
Qed.

(* ---------- the collector as a fold over occurrences, for lags and leads at once ---------- *)
Section Extreme.
Variables (deep : Z -> bool) (opt : Z -> Z -> Z) (best : Z -> Z -> Prop).
Hypothesis opt_or : forall a b, opt a b = a \/ opt a b = b.
Hypothesis opt_l : forall a b, best (opt a b) a.
Hypothesis opt_r : forall a b, best (opt a b) b.
Hypothesis best_trans : forall a b c, best a b -> best b c -> best a c.
Hypothesis opt_0 : forall z, deep z = true -> opt 0 z = z.

Definition estep (d : list (chars * Z)) (o : chars * tix) : list (chars * Z) :=
  match snd o with
  | TIss => d
  | TI z => if deep z then dset (fst o) (opt (dget (fst o) d 0) z) d else d
  end.

Definition ext (d : list (chars * Z)) (L : list (chars * tix)) : Prop :=
  NoDup (map fst d) /\
  forall x, match lookup x d with
            | Some m => deep m = true /\ In (x, TI m) L /\ forall z, In (x, TI z) L -> deep z = true -> best m z
            | None => forall z, In (x, TI z) L -> deep z = false
            end.

Lemma ext_nil : ext [] [].
Proof. split; [constructor|]. intro x. cbn. easy. Qed.

Lemma best_refl z : best z z.
Proof. destruct (opt_or z z) as [E|E]; rewrite <- E at 1; apply opt_l. Qed.

(* adding value z for name n, whatever z's origin, provided it is a deep date of n *)
Lemma ext_add d L n z : ext d L -> deep z = true ->
  ext (dset n (opt (dget n d 0) z) d) (L ++ [(n, TI z)]).
Proof.
  intros [Hn H] Hz. split; [apply dset_NoDup, Hn|]. intro x. rewrite lookup_dset.
  specialize (H x). unfold dget. destruct (chars_eqb x n) eqn:E.
  - apply chars_eqb_eq in E. subst n. destruct (lookup x d) as [m|] eqn:El.
    + destruct H as (H1 & H2 & H3). repeat split.
      * destruct (opt_or m z) as [->| ->]; assumption.
      * destruct (opt_or m z) as [->| ->]; apply in_or_app; [left; assumption|right; left; reflexivity].
      * intros w Hw Hd. apply in_app_or in Hw as [Hw|[Hw|[]]].
        -- eapply best_trans; [apply opt_l|]. apply H3; assumption.
        -- injection Hw as ->. apply opt_r.
    + rewrite opt_0 by assumption. repeat split; [assumption|apply in_or_app; right; left; reflexivity|].
      intros w Hw Hd. apply in_app_or in Hw as [Hw|[Hw|[]]].
      * rewrite (H w Hw) in Hd. discriminate.
      * injection Hw as ->. apply best_refl.
  - apply chars_eqb_neq in E. destruct (lookup x d) as [m|] eqn:El.
    + destruct H as (H1 & H2 & H3). repeat split; [assumption|apply in_or_app; left; assumption|].
      intros w Hw Hd. apply in_app_or in Hw as [Hw|[Hw|[]]]; [auto|]. congruence.
    + intros w Hw. apply in_app_or in Hw as [Hw|[Hw|[]]]; [auto|]. congruence.
Qed.

Lemma ext_skip d L o : ext d L -> (forall z, snd o = TI z -> deep z = false) -> ext d (L ++ [o]).
Proof.
  intros [Hn H] Ho. split; [exact Hn|]. intro x. specialize (H x). destruct (lookup x d) as [m|] eqn:El.
  - destruct H as (H1 & H2 & H3). repeat split; [assumption|apply in_or_app; left; assumption|].
    intros w Hw Hd. apply in_app_or in Hw as [Hw|[Hw|[]]]; [auto|]. subst o. rewrite (Ho w eq_refl) in Hd. discriminate.
  - intros w Hw. apply in_app_or in Hw as [Hw|[Hw|[]]]; [auto|]. subst o. apply Ho. reflexivity.
Qed.

Lemma ext_step d L o : ext d L -> ext (estep d o) (L ++ [o]).
Proof.
  intro H. destruct o as [n [z|]]; unfold estep; cbn [snd fst].
  - destruct (deep z) eqn:E; [now apply ext_add|]. apply ext_skip; [exact H|]. cbn. congruence.
  - apply ext_skip; [exact H|]. cbn. congruence.
Qed.
Lemma ext_fold L' : forall d L, ext d L -> ext (fold_left estep L' d) (L ++ L').
Proof.
  induction L' as [|o L' IH]; intros d L H; cbn; [now rewrite app_nil_r|].
  replace (L ++ o :: L') with ((L ++ [o]) ++ L') by (now rewrite <- app_assoc).
  apply IH, ext_step, H.
Qed.

(* merging the dictionary of the controls *)
Definition merge (d c : list (chars * Z)) : list (chars * Z) :=
  fold_left (fun d kv => dset (fst kv) (opt (dget (fst kv) d 0) (snd kv)) d) c d.

Lemma ext_merge_list c : forall d L, ext d L -> (forall k z, In (k, z) c -> deep z = true) ->
  ext (merge d c) (L ++ map (fun kv => (fst kv, TI (snd kv))) c).
Proof.
  induction c as [|[k z] c IH]; intros d L H Hc; cbn; [now rewrite app_nil_r|].
  replace (L ++ (k, TI z) :: map (fun kv : chars * Z => (fst kv, TI (snd kv))) c)
    with ((L ++ [(k, TI z)]) ++ map (fun kv : chars * Z => (fst kv, TI (snd kv))) c) by (now rewrite <- app_assoc).
  apply IH; [|intros; eapply Hc; right; eassumption].
  apply ext_add; [exact H|]. apply (Hc k z). left. reflexivity.
Qed.

Lemma ext_merge d c L L' : ext d L -> ext c L' -> ext (merge d c) (L ++ L').
Proof.
  intros Hd [Hn Hc].
  assert (Hin : forall k z, In (k, z) c -> deep z = true /\ In (k, TI z) L' /\
            forall w, In (k, TI w) L' -> deep w = true -> best z w).
  { intros k z H. apply (lookup_NoDup_In k z c Hn) in H. specialize (Hc k). rewrite H in Hc. exact Hc. }
  assert (Hm := ext_merge_list c d L Hd (fun k z H => proj1 (Hin k z H))).
  destruct Hm as [Hn' Hm]. split; [exact Hn'|]. intro x. specialize (Hm x).
  assert (G : forall w, In (x, TI w) L' -> deep w = true -> exists z, In (x, z) c /\ best z w).
  { intros w Hw Hdw. specialize (Hc x). destruct (lookup x c) as [z|] eqn:E.
    - exists z. split; [now apply lookup_In|]. now apply Hc.
    - rewrite (Hc w Hw) in Hdw. discriminate. }
  destruct (lookup x (merge d c)) as [m|].
  - destruct Hm as (H1 & H2 & H3). repeat split; [exact H1| |].
    + apply in_app_or in H2 as [H2|H2]; apply in_or_app; [left; exact H2|right].
      apply in_map_iff in H2 as ([k z] & E & H2). injection E as -> ->. now apply Hin.
    + intros w Hw Hdw. apply in_app_or in Hw as [Hw|Hw].
      * apply H3; [apply in_or_app; left; exact Hw|exact Hdw].
      * destruct (G w Hw Hdw) as (z & Hz & Hb). eapply best_trans; [|exact Hb].
        apply H3; [|now apply (Hin x z)]. apply in_or_app. right. apply in_map_iff. exists (x, z). auto.
  - intros w Hw. apply in_app_or in Hw as [Hw|Hw].
    + apply Hm. apply in_or_app. left. exact Hw.
    + destruct (deep w) eqn:Ed; [|reflexivity]. destruct (G w Hw Ed) as (z & Hz & _).
      rewrite <- (Hm z); [symmetry; now apply (Hin x z)|]. apply in_or_app. right. apply in_map_iff. exists (x, z). auto.
Qed.
End Extreme.

Definition dlag (z : Z) : bool := Z.ltb z (-1).
Definition dlead (z : Z) : bool := Z.ltb 1 z.

Section P.
Context {F X : Type}.
Notation expr := (expr F). Notation gblock := (gblock F X). Notation equation := (equation F).
Implicit Types (b : gblock) (q : equation).

Definition vstep (s : cstate) (o : chars * tix) : cstate := visit_var (fst o) (snd o) s.

Lemma fold_flat_map {A B S} (f : S -> B -> S) (g : A -> list B) (h : S -> A -> S) (l : list A) :
  (forall a s, In a l -> h s a = fold_left f (g a) s) ->
  forall s, fold_left h l s = fold_left f (flat_map g l) s.
Proof.
  induction l as [|a l IH]; intros H s; cbn; [reflexivity|].
  rewrite fold_left_app, H by (left; reflexivity). apply IH. intros; apply H; right; assumption.
Qed.

Lemma collect_occs (e : expr) : forall s, collect e s = fold_left vstep (occs e) s.
Proof.
  induction e as [v|n|n t|a IH|o a b IHa IHb|f args IH|a IH] using expr_ind'; intro s; cbn [collect occs fold_left]; auto.
  - now rewrite fold_left_app, IHb, IHa.
  - apply fold_flat_map. rewrite Forall_forall in IH. auto.
Qed.
Lemma collect_eqs_occs (l : list equation) : collect_eqs l = fold_left vstep (occs_eqs l) ([], []).
Proof.
  unfold collect_eqs. apply fold_flat_map. intros q s _. unfold collect_eq.
  now rewrite fold_left_app, !collect_occs.
Qed.
Lemma vstep_fst s o : fst (vstep s o) = estep dlag Z.min (fst s) o.
Proof.
  destruct o as [n [z|]]; unfold vstep, visit_var, estep, dlag; cbn [fst snd]; [|reflexivity].
  destruct (Z.ltb z (-1)); [reflexivity|]. destruct (Z.ltb 1 z); reflexivity.
Qed.
Lemma vstep_snd s o : snd (vstep s o) = estep dlead Z.max (snd s) o.
Proof.
  destruct o as [n [z|]]; unfold vstep, visit_var, estep, dlead; cbn [fst snd]; [|reflexivity].
  destruct (Z.ltb z (-1)) eqn:E.
  - destruct (Z.ltb 1 z) eqn:E2; [|reflexivity]. apply Z.ltb_lt in E, E2. lia.
  - destruct (Z.ltb 1 z); reflexivity.
Qed.
Lemma vfold_fst L : forall s, fst (fold_left vstep L s) = fold_left (estep dlag Z.min) L (fst s).
Proof. induction L as [|o L IH]; intro s; cbn; [reflexivity|]. now rewrite IH, vstep_fst. Qed.
Lemma vfold_snd L : forall s, snd (fold_left vstep L s) = fold_left (estep dlead Z.max) L (snd s).
Proof. induction L as [|o L IH]; intro s; cbn; [reflexivity|]. now rewrite IH, vstep_snd. Qed.

Notation extlag := (ext dlag Z.le).
Notation extlead := (ext dlead (fun u w => Z.le w u)).

Ltac zcond := first [intros u w; destruct (Z.min_spec u w); lia | intros u w; destruct (Z.max_spec u w); lia
  | intros; lia | unfold dlag, dlead; intros z Hz; apply Z.ltb_lt in Hz; lia].

Lemma deep_dicts_ext (b : gblock) :
  extlag (fst (deep_dicts b)) (occs_block b) /\ extlead (snd (deep_dicts b)) (occs_block b).
Proof.
  unfold deep_dicts, occs_block. cbv zeta. cbn [fst snd].
  rewrite collect_eqs_occs.
  rewrite (fold_flat_map (A := expr) vstep occs (fun s e => collect e s)) by (intros; apply collect_occs).
  rewrite !vfold_fst, !vfold_snd. cbn [fst snd]. unfold dyn_eqs.
  split.
  - change (fun (d : list (chars * Z)) (kv : chars * Z) => dset (fst kv) (Z.min (dget (fst kv) d 0) (snd kv)) d)
      with (fun (d : list (chars * Z)) (kv : chars * Z) => dset (fst kv) (Z.min (dget (fst kv) d 0) (snd kv)) d).
    apply (ext_merge dlag Z.min Z.le); try zcond.
    + apply (ext_fold dlag Z.min Z.le) with (L := []); try zcond. apply ext_nil.
    + apply (ext_fold dlag Z.min Z.le) with (L := []); try zcond. apply ext_nil.
  - apply (ext_merge dlead Z.max (fun u w => Z.le w u)); try zcond.
    + apply (ext_fold dlead Z.max (fun u w => Z.le w u)) with (L := []); try zcond. apply ext_nil.
    + apply (ext_fold dlead Z.max (fun u w => Z.le w u)) with (L := []); try zcond. apply ext_nil.
Qed.

(* [covers s L]: s records every deep occurrence of L *)
Definition covers (s : cstate) (L : list (chars * tix)) : Prop :=
  forall x z, In (x, TI z) L ->
    (z < -1 -> exists m, lookup x (fst s) = Some m /\ m <= z)%Z /\
    (1 < z -> exists m, lookup x (snd s) = Some m /\ z <= m)%Z.

Lemma deep_covers b : covers (deep_dicts b) (occs_block b).
Proof.
  destruct (deep_dicts_ext b) as [[_ H1] [_ H2]]. intros x z H. split; intro Hz.
  - specialize (H1 x). destruct (lookup x (fst (deep_dicts b))) as [m|].
    + exists m. split; [reflexivity|]. apply H1; [exact H|]. now apply Z.ltb_lt.
    + specialize (H1 z H). apply Z.ltb_ge in H1. lia.
  - specialize (H2 x). destruct (lookup x (snd (deep_dicts b))) as [m|].
    + exists m. split; [reflexivity|]. apply H2; [exact H|]. now apply Z.ltb_lt.
    + specialize (H2 z H). apply Z.ltb_ge in H2. lia.
Qed.

Lemma covers_sub s L L' : covers s L -> incl L' L -> covers s L'.
Proof. intros H Hi x z Hin. apply H, Hi, Hin. Qed.

(* occurrences dated inside [-1,1] after replacement *)
Lemma replace_var_near s n t : covers s [(n, t)] -> forall x u, In (x, u) (occs (replace_var (F:=F) s n t)) -> near u.
Proof.
  intros Hc x u. destruct t as [z|]; cbn [replace_var].
  - specialize (Hc n z (or_introl eq_refl)) as [H1 H2].
    destruct (din n (fst s) && Z.ltb z (-1))%bool eqn:E1; [|destruct (din n (snd s) && Z.ltb 1 z)%bool eqn:E2].
    + cbn. intros [H|[]]. injection H as <- <-. cbn. lia.
    + cbn. intros [H|[]]. injection H as <- <-. cbn. lia.
    + cbn. intros [H|[]]. injection H as <- <-. cbn.
      apply andb_false_iff in E1. apply andb_false_iff in E2. unfold din in *.
      destruct (Z_lt_ge_dec z (-1)) as [Hz|Hz].
      { destruct (H1 Hz) as (m & Hm & _). rewrite Hm in E1. destruct E1 as [E1|E1]; [discriminate|].
        apply Z.ltb_ge in E1. lia. }
      destruct (Z_lt_ge_dec 1 z) as [Hz'|Hz'].
      { destruct (H2 Hz') as (m & Hm & _). rewrite Hm in E2. destruct E2 as [E2|E2]; [discriminate|].
        apply Z.ltb_ge in E2. lia. }
      lia.
  - cbn. intros [H|[]]. injection H as <- <-. exact I.
Qed.
Lemma replace_near s e : covers s (occs e) -> forall x u, In (x, u) (occs (replace (F:=F) s e)) -> near u.
Proof.
  induction e as [v|n|n t|a IH|o a b IHa IHb|f args IH|a IH] using expr_ind'; intro Hc; cbn [replace occs]; try easy.
  - apply replace_var_near, Hc.
  - apply IH, Hc.
  - intros x u Hin. apply in_app_or in Hin as [Hin|Hin].
    + eapply IHa; [|exact Hin]. eapply covers_sub; [exact Hc|]. cbn. apply incl_appl, incl_refl.
    + eapply IHb; [|exact Hin]. eapply covers_sub; [exact Hc|]. cbn. apply incl_appr, incl_refl.
  - intros x u Hin. rewrite flat_map_concat_map, map_map, <- flat_map_concat_map in Hin.
    apply in_flat_map in Hin as (a & Ha & Hin). rewrite Forall_forall in IH.
    eapply IH; [exact Ha| |exact Hin]. eapply covers_sub; [exact Hc|]. cbn. intros o Ho. apply in_flat_map. eauto.
  - apply IH, Hc.
Qed.

(* near occurrences are untouched *)
Lemma replace_near_id s e : (forall x u, In (x, u) (occs e) -> near u) -> replace (F:=F) s e = e.
Proof.
  induction e as [v|n|n t|a IH|o a b IHa IHb|f args IH|a IH] using expr_ind'; intro Hc; cbn [replace]; try reflexivity.
  - destruct t as [z|]; [|reflexivity]. cbn. specialize (Hc n (TI z) (or_introl eq_refl)). cbn in Hc.
    destruct (Z.ltb z (-1)) eqn:E1; [apply Z.ltb_lt in E1; lia|].
    destruct (Z.ltb 1 z) eqn:E2; [apply Z.ltb_lt in E2; lia|]. now rewrite !andb_false_r.
  - now rewrite IH.
  - rewrite IHa, IHb; [reflexivity| |]; intros x u H; apply (Hc x u); cbn; apply in_or_app; auto.
  - f_equal. rewrite <- (map_id args) at 2. apply map_ext_in. intros a Ha. rewrite Forall_forall in IH.
    apply IH; [exact Ha|]. intros x u H. apply (Hc x u). cbn. apply in_flat_map. eauto.
  - now rewrite IH.
Qed.

Definition lagc (s : cstate) := flat_map (fun kv : chars * Z => create_lag_chain (F:=F) (fst kv) (Z.to_nat (Z.abs (snd kv) - 1))) (fst s).
Definition leadc (s : cstate) := flat_map (fun kv : chars * Z => create_lead_chain (F:=F) (fst kv) (Z.to_nat (snd kv - 1))) (snd s).

Lemma chain_near s q : In q (lagc s ++ leadc s) ->
  forall x u, In (x, u) (occs (lhs q) ++ occs (rhs q)) -> near u.
Proof.
  intros H x u Hin. apply in_app_or in H as [H|H]; apply in_flat_map in H as ([k z] & _ & H);
    apply in_map_iff in H as (l & <- & _); cbn in Hin;
    destruct Hin as [Hin|[Hin|[]]]; injection Hin as <- <-; cbn; lia.
Qed.
Lemma chain_fixed s s' q : In q (lagc s ++ leadc s) -> replace_eq s' q = q.
Proof.
  intro H. unfold replace_eq. rewrite !replace_near_id.
  - destruct q; reflexivity.
  - intros x u Hin. eapply chain_near; [exact H|]. apply in_or_app. right. exact Hin.
  - intros x u Hin. eapply chain_near; [exact H|]. apply in_or_app. left. exact Hin.
Qed.

(* what the expanded block looks like; holds also in the early-return case *)
Lemma empty_dicts_near b : deep_dicts b = ([], []) -> forall x u, In (x, u) (occs_block b) -> near u.
Proof.
  intros H x u Hin. pose proof (deep_covers b) as Hc. rewrite H in Hc. destruct u as [z|]; [|exact I]. cbn.
  destruct (Hc x z Hin) as [H1 H2]. cbn in H1, H2.
  destruct (Z_lt_ge_dec z (-1)) as [Hz|Hz]; [destruct (H1 Hz) as (? & ? & _); discriminate|].
  destruct (Z_lt_ge_dec 1 z) as [Hz'|Hz']; [destruct (H2 Hz') as (? & ? & _); discriminate|]. lia.
Qed.

Lemma in_occs_block_eq (b : gblock) q : In q (dyn_eqs b) -> incl (occs (lhs q) ++ occs (rhs q)) (occs_block b).
Proof. intros H o Ho. unfold occs_block. apply in_or_app. left. apply in_flat_map. eauto. Qed.

Lemma expand_shape b :
  let s := deep_dicts b in
  definitions (expand_block b) = map (replace_eq s) (definitions b) /\
  controls (expand_block b) = map (replace s) (controls b) /\
  objective (expand_block b) = map (replace_eq s) (objective b) /\
  constraints (expand_block b) = map (replace_eq s) (constraints b) /\
  identities (expand_block b) = map (replace_eq s) (identities b) ++ lagc s ++ leadc s /\
  bname (expand_block b) = bname b /\ other (expand_block b) = other b.
Proof.
  cbv zeta. destruct (deep_dicts b) as [d1 d2] eqn:E.
  assert (Hid : forall l, incl l (dyn_eqs b) -> d1 = [] -> d2 = [] -> map (replace_eq (d1, d2)) l = l).
  { intros l Hl -> ->. rewrite <- (map_id l) at 2. apply map_ext_in. intros q Hq.
    unfold replace_eq. rewrite !replace_near_id; [destruct q; reflexivity| |];
    intros x u Hin; apply (empty_dicts_near b E x u);
    apply (in_occs_block_eq b q (Hl q Hq)); apply in_or_app; auto. }
  destruct (match d1 with [] => match d2 with [] => true | _ => false end | _ => false end) eqn:Ee.
  - destruct d1; [|discriminate]. destruct d2; [|discriminate].
    assert (Hb : expand_block b = b) by (unfold expand_block; rewrite E; reflexivity).
    rewrite Hb. repeat split; cbn [lagc leadc fst snd flat_map app]; rewrite ?app_nil_r; symmetry; try (apply Hid; auto).
    + unfold dyn_eqs. apply incl_appl, incl_refl.
    + rewrite <- (map_id (controls b)) at 2. apply map_ext_in. intros e He. apply replace_near_id.
      intros x u Hin. apply (empty_dicts_near b E x u). unfold occs_block. apply in_or_app. right. apply in_flat_map. eauto.
    + unfold dyn_eqs. apply incl_appr, incl_appl, incl_refl.
    + unfold dyn_eqs. apply incl_appr, incl_appr, incl_appl, incl_refl.
    + unfold dyn_eqs. apply incl_appr, incl_appr, incl_appr, incl_refl.
  - assert (Hb : expand_block b = GBlock (bname b)
        (map (replace_eq (d1, d2)) (definitions b))
        (map (replace (d1, d2)) (controls b))
        (map (replace_eq (d1, d2)) (objective b))
        (map (replace_eq (d1, d2)) (constraints b))
        (map (replace_eq (d1, d2)) (new_identities b (d1, d2)))
        (other b)).
    { unfold expand_block. rewrite E. destruct d1; [destruct d2; [discriminate|]|]; reflexivity. }
    rewrite Hb. cbn [definitions controls objective constraints identities bname other]. repeat split.
    unfold new_identities. fold (lagc (d1, d2)) (leadc (d1, d2)). rewrite map_app. f_equal.
    rewrite <- (map_id (lagc (d1, d2) ++ leadc (d1, d2))) at 2.
    apply map_ext_in. intros q Hq. eapply chain_fixed, Hq.
Qed.

Lemma expand_dyn_eqs b :
  forall q, In q (dyn_eqs (expand_block b)) <->
    (exists q0, In q0 (dyn_eqs b) /\ q = replace_eq (deep_dicts b) q0) \/
    In q (lagc (deep_dicts b) ++ leadc (deep_dicts b)).
Proof.
  destruct (expand_shape b) as (E1 & _ & E3 & E4 & E5 & _). intro q. unfold dyn_eqs. rewrite E1, E3, E4, E5.
  rewrite !app_assoc. rewrite <- !map_app. rewrite <- app_assoc. rewrite (in_app_iff (map _ _)), in_map_iff.
  split; intros [H|H]; auto; destruct H as (q0 & H1 & H2); left; exists q0; auto.
Qed.

Lemma expand_near b : forall x u, In (x, u) (occs_block (expand_block b)) -> near u.
Proof.
  intros x u H. unfold occs_block in H. apply in_app_or in H as [H|H].
  - apply in_flat_map in H as (q & Hq & H). apply expand_dyn_eqs in Hq as [(q0 & Hq0 & ->)|Hq].
    + cbn in H. pose proof (covers_sub _ _ _ (deep_covers b) (in_occs_block_eq b q0 Hq0)) as Hc.
      apply in_app_or in H as [H|H]; (eapply replace_near; [|exact H]); (eapply covers_sub; [exact Hc|]);
      [apply incl_appl|apply incl_appr]; apply incl_refl.
    + eapply chain_near; eassumption.
  - destruct (expand_shape b) as (_ & E2 & _). rewrite E2 in H.
    rewrite flat_map_concat_map, map_map, <- flat_map_concat_map in H. apply in_flat_map in H as (e & He & H).
    eapply replace_near; [|exact H]. eapply covers_sub; [apply deep_covers|].
    intros o Ho. unfold occs_block. apply in_or_app. right. apply in_flat_map. eauto.
Qed.

(* ---------- which auxiliaries are generated ---------- *)
Lemma uses_lag_dict (b : gblock) x k :
  uses_lag b x k <-> exists m, In (x, m) (fst (deep_dicts b)) /\ In k (seq 1 (Z.to_nat (Z.abs m - 1))).
Proof.
  destruct (deep_dicts_ext b) as [[Hn H] _]. split.
  - intros (z & Hin & Hk). destruct (deep_covers b x z Hin) as [H1 _]. destruct H1 as (m & Hm & Hle); [lia|].
    exists m. split; [apply lookup_In, Hm|]. apply in_seq. lia.
  - intros (m & Hm & Hk). apply (lookup_NoDup_In _ _ _ Hn) in Hm. specialize (H x). rewrite Hm in H.
    destruct H as (H1 & H2 & _). apply Z.ltb_lt in H1. exists m. split; [exact H2|]. apply in_seq in Hk. lia.
Qed.
Lemma uses_lead_dict (b : gblock) x k :
  uses_lead b x k <-> exists m, In (x, m) (snd (deep_dicts b)) /\ In k (seq 1 (Z.to_nat (m - 1))).
Proof.
  destruct (deep_dicts_ext b) as [_ [Hn H]]. split.
  - intros (z & Hin & Hk). destruct (deep_covers b x z Hin) as [_ H1]. destruct H1 as (m & Hm & Hle); [lia|].
    exists m. split; [apply lookup_In, Hm|]. apply in_seq. lia.
  - intros (m & Hm & Hk). apply (lookup_NoDup_In _ _ _ Hn) in Hm. specialize (H x). rewrite Hm in H.
    destruct H as (H1 & H2 & _). apply Z.ltb_lt in H1. exists m. split; [exact H2|]. apply in_seq in Hk. lia.
Qed.

Definition lag_eq (x : chars) (k : nat) : equation :=
  Eqn (Var (lag_name x k) (TI 0)) (Var (if Nat.eqb k 1 then x else lag_name x (k - 1)) (TI (-1))) None None [].
Definition lead_eq (x : chars) (k : nat) : equation :=
  Eqn (Var (lead_name x k) (TI 0)) (Expec (Var (if Nat.eqb k 1 then x else lead_name x (k - 1)) (TI 1))) None None [].

Lemma in_lagc b q : In q (lagc (deep_dicts b)) <-> exists x k, uses_lag b x k /\ q = lag_eq x k.
Proof.
  unfold lagc. rewrite in_flat_map. split.
  - intros ([x m] & H1 & H2). apply in_map_iff in H2 as (k & <- & Hk). exists x, k. split; [|reflexivity].
    apply uses_lag_dict. exists m. auto.
  - intros (x & k & H & ->). apply uses_lag_dict in H as (m & Hm & Hk). exists (x, m). split; [exact Hm|].
    apply in_map_iff. exists k. auto.
Qed.
Lemma in_leadc b q : In q (leadc (deep_dicts b)) <-> exists x k, uses_lead b x k /\ q = lead_eq x k.
Proof.
  unfold leadc. rewrite in_flat_map. split.
  - intros ([x m] & H1 & H2). apply in_map_iff in H2 as (k & <- & Hk). exists x, k. split; [|reflexivity].
    apply uses_lead_dict. exists m. auto.
  - intros (x & k & H & ->). apply uses_lead_dict in H as (m & Hm & Hk). exists (x, m). split; [exact Hm|].
    apply in_map_iff. exists k. auto.
Qed.

(* ---------- semantics ---------- *)
Section Sem.
Context {V : Type} (I : interp F V).

Lemma uses_lag_pred (b : gblock) x k : uses_lag b x (S (S k)) -> uses_lag b x (S k).
Proof. intros (z & H1 & H2). exists z. split; [exact H1|lia]. Qed.
Lemma uses_lead_pred (b : gblock) x k : uses_lead b x (S (S k)) -> uses_lead b x (S k).
Proof. intros (z & H1 & H2). exists z. split; [exact H1|lia]. Qed.

Lemma lag_chain_means (b : gblock) (p : path V) :
  (forall x k, uses_lag b x k -> holds I p (lag_eq x k)) <-> lags_right b p.
Proof.
  split.
  - intros H x k. induction k as [|[|k] IH]; intros Hu t.
    + destruct Hu as (z & _ & Hz). lia.
    + specialize (H x 1%nat Hu t). cbn in H. rewrite !Z.add_0_r in H. exact H.
    + pose proof (H x (S (S k)) Hu t) as Ht. cbn -[lag_name] in Ht. rewrite Z.add_0_r in Ht.
      rewrite Ht. rewrite (IH (uses_lag_pred _ _ _ Hu)). f_equal. lia.
  - intros H x k Hu t. cbn -[lag_name]. rewrite Z.add_0_r, (H x k Hu).
    destruct (Nat.eqb_spec k 1) as [->|Hk]; [reflexivity|].
    destruct k as [|[|k]]; [destruct Hu as (z & _ & Hz); lia|lia|].
    cbn [Nat.sub]. rewrite (H x (S k)) by (apply uses_lag_pred, Hu). f_equal. lia.
Qed.

Lemma lead_chain_means (b : gblock) (p : path V) : tower I ->
  (forall x k, uses_lead b x k -> holds I p (lead_eq x k)) <-> leads_forecast I b p.
Proof.
  intro HT. split.
  - intros H x k. induction k as [|[|k] IH]; intros Hu t.
    + destruct Hu as (z & _ & Hz). lia.
    + specialize (H x 1%nat Hu t). cbn in H. rewrite !Z.add_0_r in H. exact H.
    + pose proof (H x (S (S k)) Hu t) as Ht. cbn -[lead_name] in Ht. rewrite Z.add_0_r in Ht.
      rewrite Ht. rewrite (IH (uses_lead_pred _ _ _ Hu)), HT. f_equal. f_equal. lia.
  - intros H x k Hu t. cbn -[lead_name]. rewrite Z.add_0_r, (H x k Hu).
    destruct (Nat.eqb_spec k 1) as [->|Hk]; [reflexivity|].
    destruct k as [|[|k]]; [destruct Hu as (z & _ & Hz); lia|lia|].
    cbn [Nat.sub]. rewrite (H x (S k)) by (apply uses_lead_pred, Hu). rewrite HT. f_equal. f_equal. lia.
Qed.

Lemma den_replace (b : gblock) (p : path V) e : lags_right b p -> leads_forecast I b p ->
  incl (occs e) (occs_block b) -> forall t, den I p t (replace (deep_dicts b) e) = den_fc I p t e.
Proof.
  intros Hlag Hlead.
  induction e as [v|n|n u|a IH|o a c IHa IHb|f args IH|a IH] using expr_ind'; intros Hi t; cbn [replace den den_fc]; try reflexivity.
  - destruct u as [z|]; [|reflexivity]. assert (Hin : In (n, TI z) (occs_block b)) by (apply Hi; left; reflexivity).
    destruct (deep_covers b n z Hin) as [H1 H2]. cbn [replace_var].
    unfold din. destruct (Z.ltb_spec z (-1)) as [Hz|Hz].
    + destruct (H1 Hz) as (m & -> & Hm). cbn [andb den].
      destruct (Z.ltb_spec 1 z) as [Hz'|_]; [lia|].
      change (make_lag_name n) with (lag_name n). rewrite Hlag.
      * f_equal. lia.
      * exists z. split; [exact Hin|lia].
    + rewrite andb_false_r. destruct (Z.ltb_spec 1 z) as [Hz'|Hz'].
      * destruct (H2 Hz') as (m & -> & Hm). cbn [andb den].
        change (make_lead_name n) with (lead_name n). rewrite Hlead.
        -- f_equal. f_equal. lia.
        -- exists z. split; [exact Hin|lia].
      * rewrite andb_false_r. reflexivity.
  - rewrite IH; auto.
  - rewrite IHa, IHb; [reflexivity| |]; intros q Hq; apply Hi; cbn; apply in_or_app; auto.
  - f_equal. rewrite map_map. apply map_ext_in. intros a Ha. rewrite Forall_forall in IH.
    apply IH; [exact Ha|]. intros q Hq. apply Hi. cbn. apply in_flat_map. eauto.
  - rewrite IH; auto.
Qed.

Theorem expand_exact (b : gblock) (p : path V) : tower I ->
  solves I p (expand_block b) <-> solves_fc I p b /\ lags_right b p /\ leads_forecast I b p.
Proof.
  intro HT. split.
  - intro H.
    assert (Hlag : lags_right b p).
    { apply lag_chain_means. intros x k Hu. apply H, expand_dyn_eqs. right. apply in_or_app. left.
      apply in_lagc. eauto. }
    assert (Hlead : leads_forecast I b p).
    { apply lead_chain_means; [exact HT|]. intros x k Hu. apply H, expand_dyn_eqs. right. apply in_or_app. right.
      apply in_leadc. eauto. }
    repeat split; auto. intros q Hq t.
    assert (Hh : holds I p (replace_eq (deep_dicts b) q)) by (apply H, expand_dyn_eqs; left; eauto).
    specialize (Hh t). cbn in Hh. pose proof (in_occs_block_eq b q Hq) as Hi.
    rewrite !den_replace in Hh; auto; intros o Ho; apply Hi, in_or_app; auto.
  - intros (H & Hlag & Hlead) q Hq. apply expand_dyn_eqs in Hq as [(q0 & Hq0 & ->)|Hq].
    + intro t. cbn. pose proof (in_occs_block_eq b q0 Hq0) as Hi.
      rewrite !den_replace; auto; intros o Ho; apply Hi, in_or_app; auto.
    + apply in_app_or in Hq as [Hq|Hq].
      * apply in_lagc in Hq as (x & k & Hu & ->). apply (proj2 (lag_chain_means b p)); assumption.
      * apply in_leadc in Hq as (x & k & Hu & ->). apply (proj2 (lead_chain_means b p HT)); assumption.
Qed.

Lemma fc_same (b : gblock) (p : path V) :
  foresight I \/ (forall x k, ~ uses_lead b x k) -> (solves_fc I p b <-> solves I p b).
Proof.
  intro Hc.
  assert (G : forall e, incl (occs e) (occs_block b) -> forall t, den_fc I p t e = den I p t e).
  { induction e as [v|n|n u|a IH|o a c IHa IHb|f args IH|a IH] using expr_ind'; intros Hi t; cbn [den den_fc]; try reflexivity.
    - destruct u as [z|]; [|reflexivity]. destruct (Z.ltb_spec 1 z) as [Hz|Hz]; [|reflexivity].
      destruct Hc as [Hc|Hc]; [apply Hc|]. exfalso. apply (Hc n 1%nat). exists z.
      split; [apply Hi; left; reflexivity|lia].
    - rewrite IH; auto.
    - rewrite IHa, IHb; [reflexivity| |]; intros q Hq; apply Hi; cbn; apply in_or_app; auto.
    - f_equal. apply map_ext_in. intros a Ha. rewrite Forall_forall in IH.
      apply IH; [exact Ha|]. intros q Hq. apply Hi. cbn. apply in_flat_map. eauto.
    - rewrite IH; auto. }
  split; intros H q Hq t; specialize (H q Hq t); pose proof (in_occs_block_eq b q Hq) as Hi.
  - rewrite <- !G; auto; intros o Ho; apply Hi, in_or_app; auto.
  - rewrite !G; auto; intros o Ho; apply Hi, in_or_app; auto.
Qed.

Theorem expand_foresight (b : gblock) (p : path V) : foresight I ->
  solves I p (expand_block b) <-> solves I p b /\ lags_right b p /\ leads_right b p.
Proof.
  intro HF. assert (HT : tower I) by (intros t v; now rewrite !HF).
  rewrite expand_exact, fc_same by auto.
  assert (E : leads_forecast I b p <-> leads_right b p).
  { split; intros H x k Hu t; rewrite (H x k Hu t), ?HF; reflexivity. }
  tauto.
Qed.
End Sem.

Lemma lag_chain_any_E {V} (I : interp F V) (b : gblock) (p : path V) :
  (forall x k, ~ uses_lead b x k) ->
  solves I p (expand_block b) <-> solves I p b /\ lags_right b p.
Proof.
  intro HL.
  (* the expectation operator is never used by the added equations, so replay the argument without the tower law *)
  split.
  - intro H.
    assert (Hlag : lags_right b p).
    { apply (lag_chain_means I). intros x k Hu. apply H, expand_dyn_eqs. right. apply in_or_app. left.
      apply in_lagc. eauto. }
    assert (Hlead : leads_forecast I b p) by (intros x k Hu; exfalso; eapply HL; eassumption).
    split; [|exact Hlag]. apply fc_same; [right; exact HL|]. intros q Hq t.
    assert (Hh : holds I p (replace_eq (deep_dicts b) q)) by (apply H, expand_dyn_eqs; left; eauto).
    specialize (Hh t). cbn in Hh. pose proof (in_occs_block_eq b q Hq) as Hi.
    rewrite !(den_replace I b p) in Hh; auto; intros o Ho; apply Hi, in_or_app; auto.
  - intros (H & Hlag) q Hq. 
    assert (Hlead : leads_forecast I b p) by (intros x k Hu; exfalso; eapply HL; eassumption).
    apply (fc_same I b p (or_intror HL)) in H.
    apply expand_dyn_eqs in Hq as [(q0 & Hq0 & ->)|Hq].
    + intro t. cbn. pose proof (in_occs_block_eq b q0 Hq0) as Hi.
      rewrite !(den_replace I b p); auto; intros o Ho; apply Hi, in_or_app; auto.
    + apply in_app_or in Hq as [Hq|Hq].
      * apply in_lagc in Hq as (x & k & Hu & ->). apply (proj2 (lag_chain_means I b p)); assumption.
      * apply in_leadc in Hq as (x & k & Hu & ->). exfalso. eapply HL; eassumption.
Qed.

(* ---------- existence of the extended path ---------- *)
Definition aux_list (b : gblock) : list (chars * (chars * Z)) :=
  flat_map (fun kv => map (fun k => (lag_name (fst kv) k, (fst kv, - Z.of_nat k)%Z))
                          (seq 1 (Z.to_nat (Z.abs (snd kv) - 1)))) (fst (deep_dicts b))
  ++ flat_map (fun kv => map (fun k => (lead_name (fst kv) k, (fst kv, Z.of_nat k)))
                          (seq 1 (Z.to_nat (snd kv - 1)))) (snd (deep_dicts b)).

Lemma in_aux_list b n x z : In (n, (x, z)) (aux_list b) <->
  (exists k, uses_lag b x k /\ n = lag_name x k /\ z = (- Z.of_nat k)%Z) \/
  (exists k, uses_lead b x k /\ n = lead_name x k /\ z = Z.of_nat k).
Proof.
  unfold aux_list. rewrite in_app_iff, !in_flat_map. split; (intros [H|H]; [left|right]).
  - destruct H as ([y m] & H1 & H2). apply in_map_iff in H2 as (k & E & Hk). cbn [fst snd] in *.
    assert (E' := E). injection E as E1 E2 E3. subst y. exists k.
    split; [apply uses_lag_dict; eauto|]. auto.
  - destruct H as ([y m] & H1 & H2). apply in_map_iff in H2 as (k & E & Hk). cbn [fst snd] in *.
    injection E as E1 E2 E3. subst y. exists k. split; [apply uses_lead_dict; eauto|]. auto.
  - destruct H as (k & Hu & -> & ->). apply uses_lag_dict in Hu as (m & Hm & Hk). exists (x, m).
    split; [exact Hm|]. apply in_map_iff. exists k. auto.
  - destruct H as (k & Hu & -> & ->). apply uses_lead_dict in Hu as (m & Hm & Hk). exists (x, m).
    split; [exact Hm|]. apply in_map_iff. exists k. auto.
Qed.

Lemma is_aux_list b n : is_aux b n <-> exists x z, In (n, (x, z)) (aux_list b).
Proof.
  split.
  - intros [(x & k & Hu & ->)|(x & k & Hu & ->)].
    + exists x, (- Z.of_nat k)%Z. apply in_aux_list. left. eauto.
    + exists x, (Z.of_nat k). apply in_aux_list. right. eauto.
  - intros (x & z & H). apply in_aux_list in H as [(k & Hu & -> & _)|(k & Hu & -> & _)]; [left|right]; eauto.
Qed.

Definition ext_path {V} (fc : Z -> V -> V) (b : gblock) (p : path V) : path V := fun n t =>
  match lookup n (aux_list b) with
  | Some (x, z) => if Z.ltb z 0 then p x (t + z)%Z else fc t (p x (t + z)%Z)
  | None => p n t
  end.

Lemma aux_functional b n x z x' z' : In (n, (x, z)) (aux_list b) -> In (n, (x', z')) (aux_list b) -> x = x' /\ z = z'.
Proof.
  intros H H'. apply in_aux_list in H as [(k & _ & -> & ->)|(k & _ & -> & ->)];
  apply in_aux_list in H' as [(k' & _ & E & ->)|(k' & _ & E & ->)].
  - apply lag_name_inj in E as [-> ->]. auto.
  - exfalso. eapply lag_lead_disjoint, E.
  - exfalso. eapply lag_lead_disjoint. symmetry. exact E.
  - apply lead_name_inj in E as [-> ->]. auto.
Qed.
Lemma lookup_aux b n x z : In (n, (x, z)) (aux_list b) -> lookup n (aux_list b) = Some (x, z).
Proof.
  intro H. destruct (lookup n (aux_list b)) as [[x' z']|] eqn:E.
  - apply lookup_In in E. destruct (aux_functional b n x z x' z' H E) as [-> ->]. reflexivity.
  - exfalso. unfold lookup in E. destruct (find (fun kv => chars_eqb n (fst kv)) (aux_list b)) eqn:Ef; [discriminate|].
    apply (find_none _ _ Ef) in H. cbn in H. rewrite chars_eqb_refl in H. discriminate.
Qed.
Lemma ext_agrees {V} fc b (p : path V) : agree_off_aux b p (ext_path fc b p).
Proof.
  intros n Hn t. unfold ext_path. destruct (lookup n (aux_list b)) as [[x z]|] eqn:E; [|reflexivity].
  exfalso. apply Hn, is_aux_list. exists x, z. apply lookup_In, E.
Qed.
Lemma uses_names (b : gblock) x k : uses_lag b x k \/ uses_lead b x k -> exists t, In (x, t) (occs_block b).
Proof. intros [(z & H & _)|(z & H & _)]; eauto. Qed.

Lemma ext_right {V} fc b (p : path V) : fresh b ->
  lags_right b (ext_path fc b p) /\
  (forall x k, uses_lead b x k -> forall t, ext_path fc b p (lead_name x k) t = fc t (ext_path fc b p x (t + Z.of_nat k)%Z)).
Proof.
  intro Hf. split; intros x k Hu t.
  - destruct (uses_names b x k (or_introl Hu)) as (u & Hin). rewrite (ext_agrees fc b p x (Hf x u Hin)).
    unfold ext_path. rewrite (lookup_aux b _ x (- Z.of_nat k)%Z) by (apply in_aux_list; left; eauto).
    destruct Hu as (z & _ & Hz). destruct (Z.ltb_spec (- Z.of_nat k) 0); [|lia]. f_equal. 
  - destruct (uses_names b x k (or_intror Hu)) as (u & Hin). rewrite (ext_agrees fc b p x (Hf x u Hin)).
    unfold ext_path. rewrite (lookup_aux b _ x (Z.of_nat k)) by (apply in_aux_list; right; eauto).
    destruct (Z.ltb_spec (Z.of_nat k) 0); [lia|]. reflexivity.
Qed.

Lemma den_agree {V} (I : interp F V) (p p' : path V) e :
  (forall n t, In (n, t) (occs e) -> forall s, p' n s = p n s) -> forall t, den I p' t e = den I p t e.
Proof.
  induction e as [v|n|n u|a IH|o a c IHa IHb|f args IH|a IH] using expr_ind'; intros Hi t; cbn [den]; try reflexivity.
  - destruct u; [|reflexivity]. eapply Hi. left. reflexivity.
  - rewrite IH; auto.
  - rewrite IHa, IHb; [reflexivity| |]; intros n u Hq; eapply Hi; cbn; apply in_or_app; eauto.
  - f_equal. apply map_ext_in. intros a Ha. rewrite Forall_forall in IH.
    apply IH; [exact Ha|]. intros n u Hq. eapply Hi. cbn. apply in_flat_map. eauto.
  - rewrite IH; auto.
Qed.
Lemma solves_agree {V} (I : interp F V) b (p p' : path V) :
  fresh b -> agree_off_aux b p p' -> solves I p b -> solves I p' b.
Proof.
  intros Hf Ha H q Hq t. pose proof (in_occs_block_eq b q Hq) as Hi.
  rewrite !(den_agree I p p'); [apply H, Hq| |]; intros n u Hn s; apply Ha; eapply Hf; apply Hi, in_or_app; eauto.
Qed.

Theorem expand_extends {V} (I : interp F V) b (p : path V) : foresight I -> fresh b -> solves I p b ->
  exists p', agree_off_aux b p p' /\ solves I p' (expand_block b) /\
    (forall p'', agree_off_aux b p p'' -> solves I p'' (expand_block b) -> forall n t, p'' n t = p' n t).
Proof.
  intros HF Hf Hs. pose (p' := ext_path (fun _ v => v) b p). exists p'.
  assert (Ha : agree_off_aux b p p') by apply ext_agrees.
  destruct (ext_right (fun _ v => v) b p Hf) as [H1 H2].
  split; [exact Ha|]. split.
  - apply expand_foresight; [exact HF|]. split; [eapply solves_agree; eauto|]. auto.
  - intros p'' Ha'' Hs'' n t. apply (expand_foresight I b p'' HF) in Hs'' as (_ & G1 & G2).
    destruct (lookup n (aux_list b)) as [[x z]|] eqn:E.
    + apply lookup_In in E. apply in_aux_list in E as [(k & Hu & -> & _)|(k & Hu & -> & _)].
      * rewrite (G1 x k Hu), (H1 x k Hu : forall t, p' _ _ = p' _ _).
        destruct (uses_names b x k (or_introl Hu)) as (u & Hin).
        rewrite (Ha'' x (Hf x u Hin)), (Ha x (Hf x u Hin)). reflexivity.
      * rewrite (G2 x k Hu), (H2 x k Hu : forall t, p' _ _ = p' _ _).
        destruct (uses_names b x k (or_intror Hu)) as (u & Hin).
        rewrite (Ha'' x (Hf x u Hin)), (Ha x (Hf x u Hin)). reflexivity.
    + assert (Hn : ~ is_aux b n).
      { intro Hn. apply is_aux_list in Hn as (x & z & Hn). apply lookup_aux in Hn. congruence. }
      rewrite (Ha'' n Hn), (Ha n Hn). reflexivity.
Qed.

(* ---------- counting ---------- *)
Definition lhs_name (q : equation) : chars := match lhs q with Var n _ => n | _ => [] end.

Lemma NoDup_flat_seq (nm : chars -> nat -> chars) (depth : Z -> nat) d :
  (forall x y k l, nm x k = nm y l -> x = y /\ k = l) -> NoDup (map fst d) ->
  NoDup (flat_map (fun kv : chars * Z => map (nm (fst kv)) (seq 1 (depth (snd kv)))) d).
Proof.
  intros Hinj. induction d as [|[x m] d IH]; cbn; intro Hn; [constructor|]. inversion Hn; subst.
  assert (Happ : forall (A : Type) (l1 l2 : list A), NoDup l1 -> NoDup l2 -> (forall a, In a l1 -> ~ In a l2) -> NoDup (l1 ++ l2)).
  { clear. induction l1 as [|a l1 IH]; intros l2 H1 H2 Hd; cbn; [exact H2|]. inversion H1; subst. constructor.
    - rewrite in_app_iff. intros [H|H]; [auto|]. eapply Hd; [left; reflexivity|exact H].
    - apply IH; auto. intros b Hb. apply Hd. right. exact Hb. }
  apply Happ.
  - apply FinFun.Injective_map_NoDup; [|apply seq_NoDup]. intros k l E. now apply Hinj in E.
  - now apply IH.
  - intros n H H'. apply in_map_iff in H as (k & <- & _). apply in_flat_map in H' as ([y m'] & Hy & H').
    apply in_map_iff in H' as (l & E & _). cbn in E. apply Hinj in E as [-> _].
    apply H1. apply in_map_iff. exists (x, m'). auto.
Qed.

Theorem added_identities b : exists new,
  identities (expand_block b) = map (replace_eq (deep_dicts b)) (identities b) ++ new /\
  NoDup (map lhs_name new) /\
  (forall n, In n (map lhs_name new) <-> is_aux b n).
Proof.
  destruct (expand_shape b) as (_ & _ & _ & _ & E5 & _).
  exists (lagc (deep_dicts b) ++ leadc (deep_dicts b)). split; [exact E5|].
  assert (E1 : map lhs_name (lagc (deep_dicts b)) =
     flat_map (fun kv : chars * Z => map (lag_name (fst kv)) (seq 1 (Z.to_nat (Z.abs (snd kv) - 1)))) (fst (deep_dicts b))).
  { unfold lagc. rewrite flat_map_concat_map, concat_map, map_map, flat_map_concat_map. f_equal.
    apply map_ext. intros kv. unfold create_lag_chain. rewrite map_map. reflexivity. }
  assert (E2 : map lhs_name (leadc (deep_dicts b)) =
     flat_map (fun kv : chars * Z => map (lead_name (fst kv)) (seq 1 (Z.to_nat (snd kv - 1)))) (snd (deep_dicts b))).
  { unfold leadc. rewrite flat_map_concat_map, concat_map, map_map, flat_map_concat_map. f_equal.
    apply map_ext. intros kv. unfold create_lead_chain. rewrite map_map. reflexivity. }
  destruct (deep_dicts_ext b) as [[Hn1 _] [Hn2 _]].
  rewrite map_app, E1, E2. split.
  - assert (Happ : forall (A : Type) (l1 l2 : list A), NoDup l1 -> NoDup l2 -> (forall a, In a l1 -> ~ In a l2) -> NoDup (l1 ++ l2)).
    { clear. induction l1 as [|a l1 IH]; intros l2 H1 H2 Hd; cbn; [exact H2|]. inversion H1; subst. constructor.
      - rewrite in_app_iff. intros [H|H]; [auto|]. eapply Hd; [left; reflexivity|exact H].
      - apply IH; auto. intros b Hb. apply Hd. right. exact Hb. }
    apply Happ.
    + apply (NoDup_flat_seq lag_name (fun z => Z.to_nat (Z.abs z - 1))); [apply lag_name_inj|exact Hn1].
    + apply (NoDup_flat_seq lead_name (fun z => Z.to_nat (z - 1))); [apply lead_name_inj|exact Hn2].
    + intros n H H'. apply in_flat_map in H as (? & _ & H). apply in_map_iff in H as (? & <- & _).
      apply in_flat_map in H' as (? & _ & H'). apply in_map_iff in H' as (? & E & _).
      eapply lag_lead_disjoint. symmetry. exact E.
  - intro n. rewrite in_app_iff, !in_flat_map. unfold is_aux. split; (intros [H|H]; [left|right]).
    + destruct H as ([x m] & Hm & H). apply in_map_iff in H as (k & <- & Hk). exists x, k. split; [|reflexivity].
      apply uses_lag_dict. eauto.
    + destruct H as ([x m] & Hm & H). apply in_map_iff in H as (k & <- & Hk). exists x, k. split; [|reflexivity].
      apply uses_lead_dict. eauto.
    + destruct H as (x & k & Hu & ->). apply uses_lag_dict in Hu as (m & Hm & Hk). exists (x, m). split; [exact Hm|].
      apply in_map_iff. eauto.
    + destruct H as (x & k & Hu & ->). apply uses_lead_dict in Hu as (m & Hm & Hk). exists (x, m). split; [exact Hm|].
      apply in_map_iff. eauto.
Qed.
End P.
