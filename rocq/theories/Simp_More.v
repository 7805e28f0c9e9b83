From Verif Require Import Common Sym_Model Sym_Spec Sym_Proofs Sym_More Sym_Flatten SS_Proofs SymDict_Model Sort_Lib Build_Proofs Simp_Model Simp_Spec Simp_Proofs.
From Coq Require Import Permutation Sorted.
Local Open Scope list_scope.

Lemma one_elt {X} (l : list X) x y : length l = 1 -> In x l -> In y l -> x = y.
Proof. destruct l as [|a [|b l]]; cbn; try discriminate. intros _ [<-|[]] [<-|[]]. reflexivity. Qed.

Lemma to_remove_in tr vars eqs b : In b (to_remove tr vars eqs) <-> In b vars /\ In b tr /\ column_sum eqs b = 1.
Proof. unfold to_remove. rewrite filter_In, andb_true_iff, Nat.eqb_eq, cmem_In. tauto. Qed.
Lemma drop_in tr vars eqs e : In e (drop_isolated tr vars eqs) <->
  In e eqs /\ forall b, In b (to_remove tr vars eqs) -> ~ In (now b) (atoms e).
Proof.
  unfold drop_isolated. rewrite filter_In, negb_true_iff. split; intros [H1 H2]; (split; [assumption|]).
  - intros b Hb Hi. assert (X : existsb (fun b => smem (now b) (atoms e)) (to_remove tr vars eqs) = true).
    { apply existsb_exists. exists b. now rewrite smem_In. }
    congruence.
  - destruct (existsb _ _) eqn:E; [|reflexivity]. apply existsb_exists in E as (b & Hb & Hi). apply smem_In in Hi. exfalso. eapply H2; eassumption.
Qed.
Lemma now_uses b e : In (now b) (atoms e) -> uses e b = true.
Proof. intro H. apply uses_in. exists (now b). split; [assumption|]. cbn. auto. Qed.

(* splitting a list of equations at the one that mentions b *)
Lemma column_split eqs b : column_sum eqs b = 1 -> exists l1 e l2, eqs = l1 ++ e :: l2 /\ uses e b = true /\
  forall e', In e' (l1 ++ l2) -> uses e' b = false.
Proof.
  unfold column_sum. induction eqs as [|e eqs IH]; cbn [filter length]; [discriminate|]. destruct (uses e b) eqn:E.
  - cbn [length]. intro H. apply eq_add_S in H. exists [], e, eqs. split; [reflexivity|]. split; [assumption|]. cbn [app]. intros e' He'.
    destruct (uses e' b) eqn:E'; [|reflexivity]. assert (X : In e' (filter (fun e => uses e b) eqs)) by now apply filter_In.
    destruct (filter _ eqs); [destruct X|discriminate].
  - intro H. destruct (IH H) as (l1 & e0 & l2 & -> & H1 & H2). exists (e :: l1), e0, l2. split; [reflexivity|]. split; [assumption|].
    intros e' [<-|He']; [assumption|now apply H2].
Qed.

(* solving for the isolated variables one after the other *)
Lemma isolated_extends {V} (A : alg V) eqs (bs : list chars) :
  (forall e, In e eqs -> near e) ->
  (forall b, In b bs -> column_sum eqs b = 1) ->
  (forall e b, In e eqs -> In b bs -> In (now b) (atoms e) -> closable A e b) ->
  forall env, solves A env (filter (fun e => negb (existsb (fun b => smem (now b) (atoms e)) bs)) eqs) ->
  exists env', same_but bs env env' /\ solves A env' eqs.
Proof.
  intro Hn. induction bs as [|b bs IH]; intros Hc Hcl env Hs.
  - exists env. split; [intros s _; reflexivity|]. intros g e Hg He. apply Hs; [assumption|]. apply filter_In. split; [assumption|reflexivity].
  - assert (Hc' : forall x, In x bs -> column_sum eqs x = 1) by (intros; apply Hc; now right).
    assert (Hcl' : forall e x, In e eqs -> In x bs -> In (now x) (atoms e) -> closable A e x) by (intros; apply Hcl; auto; now right).
    destruct (column_split eqs b (Hc b (or_introl eq_refl))) as (l1 & e0 & l2 & E & Hu & Hrest).
    (* first make env solve the filtered list for bs *)
    assert (X : exists env1, same_but [b] env env1 /\
      solves A env1 (filter (fun e => negb (existsb (fun b => smem (now b) (atoms e)) bs)) eqs)).
    { destruct (smem (now b) (atoms e0)) eqn:Em.
      - apply smem_In in Em. assert (Hin0 : In e0 eqs) by (rewrite E; apply in_app_iff; right; now left).
        destruct (Hcl e0 b Hin0 (or_introl eq_refl) Em env) as (env1 & Hsame & Hsol1).
        exists env1. split; [assumption|]. intros g e Hg He. apply filter_In in He as [He Hf].
        destruct (uses e b) eqn:Eu.
        + assert (e = e0).
          { rewrite E in He. apply in_app_iff in He as [He|[->|He]]; [|reflexivity|]; (rewrite Hrest in Eu; [discriminate|apply in_app_iff; auto]). }
          subst e. apply Hsol1; [assumption|now left].
        + rewrite (ev_view_same A [b] env env1 g e Hsame Hg).
          * apply Hs; [assumption|]. apply filter_In. split; [assumption|]. cbn [existsb].
            destruct (smem (now b) (atoms e)) eqn:E2; [apply smem_In in E2; apply now_uses in E2; congruence|]. exact Hf.
          * intros b' [<-|[]]. apply not_uses; [now apply Hn|assumption].
      - exists env. split; [intros s _; reflexivity|]. intros g e Hg He. apply Hs; [assumption|].
        apply filter_In in He as [He Hf]. apply filter_In. split; [assumption|]. cbn [existsb].
        destruct (smem (now b) (atoms e)) eqn:E2; [|exact Hf]. exfalso.
        apply smem_In in E2. pose proof (now_uses b e E2) as Hu2.
        assert (e = e0).
        { rewrite E in He. apply in_app_iff in He as [He|[->|He]]; [|reflexivity|]; (rewrite Hrest in Hu2; [discriminate|apply in_app_iff; auto]). }
        subst e. apply (smem_In (now b)) in E2. congruence. }
    destruct X as (env1 & S1 & Hs1). destruct (IH Hc' Hcl' env1 Hs1) as (env2 & S2 & Hs2).
    exists env2. split; [|assumption]. apply (same_but_trans [b] bs env env1 env2 S1 S2).
Qed.

Section Red.
Variables (simp auto : sx -> sx).

Lemma loop_near d l : no_new_symbol simp -> no_new_symbol auto -> forall eqs,
  (forall b rhs, In b l -> lookup b d = Some rhs -> near rhs) -> (forall e, In e eqs -> near e) ->
  forall e, In e (fold_left (reduce_one simp auto d) l eqs) -> near e.
Proof.
  intros Hs Ha. induction l as [|b l IH]; intros eqs Hd He; cbn; [assumption|]. apply IH; [intros; eapply Hd; eauto; now right|].
  apply reduce_one_near; auto. intros rhs. apply Hd. now left.
Qed.

(* the whole of simplify_tryreduce *)
Lemma tryreduce_shape tr eqs vars d eqs' vars' gone :
  simplify_tryreduce simp auto tr eqs vars d = (eqs', vars', gone) -> length eqs = length vars ->
  eqs' = fold_left (reduce_one simp auto d) tr (drop_isolated tr vars eqs) /\
  vars' = fst (reduce_variable_list eqs' vars) /\ gone = snd (reduce_variable_list eqs' vars).
Proof.
  unfold simplify_tryreduce. intros H E. apply Nat.eqb_eq in E. rewrite E in H. cbn [negb] in H. injection H as <- <- <-. auto.
Qed.
Lemma tryreduce_not_square tr eqs vars d : length eqs <> length vars -> simplify_tryreduce simp auto tr eqs vars d = (eqs, vars, []).
Proof. intro E. unfold simplify_tryreduce. apply Nat.eqb_neq in E. now rewrite E. Qed.
End Red.

(* ---------- counting ---------- *)
Lemma filter_perm {X} (p : X -> bool) l l' : Permutation l l' -> Permutation (filter p l) (filter p l').
Proof.
  induction 1 as [|x l l' H IH|x y l|l1 l2 l3 H1 IH1 H2 IH2]; cbn; auto.
  - destruct (p x); auto.
  - destruct (p x), (p y); auto. constructor.
  - etransitivity; eassumption.
Qed.
Lemma filter_map {X Y} (f : X -> Y) (p : Y -> bool) l : filter p (map f l) = map f (filter (fun x => p (f x)) l).
Proof. induction l as [|x l IH]; cbn; [reflexivity|]. destruct (p (f x)); cbn; now rewrite IH. Qed.

Lemma isolated_square tr eqs vars : NoDup vars -> matched eqs vars -> (forall e, In e eqs -> near e) ->
  length (fst (reduce_variable_list (drop_isolated tr vars eqs) vars)) = length (drop_isolated tr vars eqs).
Proof.
  intros Hnd (l & Hf & Hs & Hm) Hn.
  assert (Hcol : forall b, column_sum eqs b = 1 -> forall p q, In p l -> In q l -> uses (snd p) b = true -> uses (snd q) b = true -> p = q).
  { intros b Hb p q Hp Hq Up Uq. apply (one_elt (filter (fun x => uses (snd x) b) l)).
    - rewrite <- Hb. unfold column_sum. rewrite <- (Permutation_length (filter_perm (fun e => uses e b) _ _ Hs)), filter_map.
      now rewrite map_length.
    - now apply filter_In.
    - now apply filter_In. }
  assert (Heq : forall e, In e eqs -> exists b, In (b, e) l).
  { intros e He. apply (Permutation_in _ (Permutation_sym Hs)) in He. apply in_map_iff in He as ([b e'] & <- & He). now exists b. }
  assert (Hvar : forall b, In b vars -> exists e, In (b, e) l).
  { intros b Hb. apply (Permutation_in _ (Permutation_sym Hf)) in Hb. apply in_map_iff in Hb as ([b' e] & <- & He). now exists e. }
  assert (Hle : forall b e, In (b, e) l -> In e eqs /\ In b vars).
  { intros b e H. split; [apply (Permutation_in _ Hs), in_map_iff; now exists (b, e)|apply (Permutation_in _ Hf), in_map_iff; now exists (b, e)]. }
  set (keep := fun e => negb (existsb (fun b => smem (now b) (atoms e)) (to_remove tr vars eqs))).
  assert (Hk : forall e, In e eqs -> (keep e = true <-> In e (drop_isolated tr vars eqs))).
  { intros e He. unfold drop_isolated. rewrite filter_In. fold keep. tauto. }
  cbn [fst reduce_variable_list]. rewrite isort_length.
  transitivity (length (map fst (filter (fun p => keep (snd p)) l))).
  2:{ rewrite map_length. unfold drop_isolated. fold keep.
      change (filter _ eqs) with (filter keep eqs).
      rewrite <- (Permutation_length (filter_perm keep _ _ Hs)), filter_map. now rewrite map_length. }
  apply Permutation_length, NoDup_Permutation.
  - apply NoDup_nodup.
  - assert (Hndl : NoDup (map fst l)) by (eapply Permutation_NoDup; [symmetry; exact Hf|assumption]).
    clear -Hndl. induction l as [|p l IH]; cbn; [constructor|]. inversion_clear Hndl as [|? ? H1 H2]. destruct (keep (snd p)); [|auto].
    cbn. constructor; [|auto]. intro Hi. apply H1. apply in_map_iff in Hi as (q & <- & Hi). apply filter_In in Hi. apply in_map. tauto.
  - intro b. rewrite nodup_In, occurring_in. split.
    + intros [Hv (e & He & Hme)]. destruct (Hvar b Hv) as (eb & Hb). apply in_map_iff. exists (b, eb). split; [reflexivity|].
      apply filter_In. split; [assumption|]. cbn [snd]. destruct (Hle b eb Hb) as [Heb _]. apply Hk; [assumption|].
      apply drop_in. split; [assumption|]. intros b0 Hb0 Hi. pose proof Hb0 as Hb0'. apply to_remove_in in Hb0 as (Hv0 & _ & Hc0).
      apply drop_in in He as [He Hkeep].
      destruct (Hvar b0 Hv0) as (e1 & He1). destruct (Hle _ _ He1) as [Hin1 _].
      assert (X : (b0, e1) = (b, eb)).
      { apply (Hcol b0 Hc0); try assumption; cbn [snd]; [apply mentions_uses; [auto|eapply Hm; eassumption]|now apply now_uses]. }
      injection X as -> ->.
      destruct (Heq e He) as (b2 & He2).
      assert (Y : (b, eb) = (b2, e)).
      { apply (Hcol b Hc0); try assumption; cbn [snd]; [now apply now_uses|apply mentions_uses; auto]. }
      injection Y as <- <-. exact (Hkeep b Hb0' Hi).
    + intro Hi. apply in_map_iff in Hi as ([b' e] & <- & Hi). cbn. apply filter_In in Hi as [Hi Hke]. cbn in Hke.
      destruct (Hle _ _ Hi) as [H1 H2]. split; [assumption|]. exists e. split; [now apply Hk|eapply Hm; eassumption].
Qed.

Lemma isolated_requested tr eqs vars : NoDup vars -> matched eqs vars -> (forall e, In e eqs -> near e) ->
  forall b, In b (snd (reduce_variable_list (drop_isolated tr vars eqs) vars)) -> In b tr.
Proof.
  intros Hnd (l & Hf & Hs & Hm) Hn b Hb. apply rvl_gone in Hb as [Hv Hno].
  assert (Hvar : forall b, In b vars -> exists e, In (b, e) l).
  { intros x Hx. apply (Permutation_in _ (Permutation_sym Hf)) in Hx. apply in_map_iff in Hx as ([b' e] & <- & He). now exists e. }
  destruct (Hvar b Hv) as (e & He). assert (Hin : In e eqs) by (apply (Permutation_in _ Hs), in_map_iff; now exists (b, e)).
  destruct (existsb (fun b => smem (now b) (atoms e)) (to_remove tr vars eqs)) eqn:Ek.
  2:{ exfalso. apply Hno. exists e. split; [|eapply Hm; eassumption]. unfold drop_isolated. apply filter_In. now rewrite Ek. }
  apply existsb_exists in Ek as (b0 & Hb0 & Hi). apply smem_In in Hi. apply to_remove_in in Hb0 as (Hv0 & Ht0 & Hc0).
  destruct (Hvar b0 Hv0) as (e1 & He1). assert (Hin1 : In e1 eqs) by (apply (Permutation_in _ Hs), in_map_iff; now exists (b0, e1)).
  assert (X : (b0, e1) = (b, e)).
  { apply (one_elt (filter (fun x => uses (snd x) b0) l)).
    - rewrite <- Hc0. unfold column_sum. rewrite <- (Permutation_length (filter_perm (fun e => uses e b0) _ _ Hs)), filter_map.
      now rewrite map_length.
    - apply filter_In. split; [assumption|]. apply mentions_uses; [auto|eapply Hm; eassumption].
    - apply filter_In. split; [assumption|]. now apply now_uses. }
  injection X as <- _. assumption.
Qed.

(* ---------- constants ---------- *)
Lemma dset_in d k v kv : In kv (dset d k v) -> kv = (k, v) \/ In kv d.
Proof.
  unfold dset. destruct (smem k (map fst d)).
  - intro H. apply in_map_iff in H as (kv0 & E & H). destruct (sym_eqb (fst kv0) k); subst; auto.
  - intro H. apply in_app_iff in H as [H|[<-|[]]]; auto.
Qed.
Lemma dset_key d k v x : In x (map fst (dset d k v)) <-> x = k \/ In x (map fst d).
Proof.
  unfold dset. destruct (smem k (map fst d)) eqn:E.
  - apply smem_In in E.
    replace (map fst (map (fun kv => if sym_eqb (fst kv) k then (k, v) else kv) d)) with (map fst d).
    + split; [auto|intros [->|H]; auto].
    + clear E. induction d as [|[k0 v0] d IH]; cbn; [reflexivity|]. rewrite <- IH. f_equal. destruct (sym_eqb k0 k) eqn:E; [|reflexivity].
      cbn. now apply sym_eqb_eq in E.
  - rewrite map_app, in_app_iff. cbn. intuition.
Qed.
Lemma dupdate_in e : forall d kv, In kv (dupdate d e) -> In kv e \/ In kv d.
Proof.
  induction e as [|[k v] e IH]; intros d kv H; cbn in H; [now right|]. apply IH in H as [H|H]; [left; now right|].
  apply dset_in in H as [->|H]; [left; now left|now right].
Qed.
Lemma dupdate_key e : forall d x, In x (map fst (dupdate d e)) <-> In x (map fst e) \/ In x (map fst d).
Proof.
  induction e as [|[k v] e IH]; intros d x; cbn; [tauto|]. change (fold_left _ e (dset d k v)) with (dupdate (dset d k v) e).
  rewrite IH, dset_key. intuition.
Qed.

Section Const.
Variables (auto : sx -> sx) (natoms : sx -> nat) (solve : sx -> sym -> list sx) (sord : sdict -> sdict).
(* an equation the code treats as pinning down the single variable x *)
Definition pins (e : sx) (x : sym) : Prop := (natoms e <= 3)%nat /\ var_atoms e = [x].

Lemma constants_ok eqs : (forall e x, In e eqs -> pins e x -> solve e x <> []) -> forall d, exists d',
  constants natoms solve d eqs = Ok d' /\
  (forall kv, In kv d' -> In kv d \/ exists e x s, In e eqs /\ pins e x /\ hd_error (solve e x) = Some s /\ In kv (expand_subs1 x s)) /\
  (forall e x s, In e eqs -> pins e x -> hd_error (solve e x) = Some s -> forall k, In k (map fst (expand_subs1 x s)) -> In k (map fst d')) /\
  (forall k, In k (map fst d) -> In k (map fst d')).
Proof.
  induction eqs as [|e eqs IH]; intros Hs d; cbn [constants].
  - exists d. split; [reflexivity|]. split; [auto|]. split; [intros e x s []|auto].
  - assert (Hs' : forall e x, In e eqs -> pins e x -> solve e x <> []) by (intros; apply Hs; auto; now right).
    assert (X : exists d1, constant_step natoms solve d e = Ok d1 /\
      (forall kv, In kv d1 -> In kv d \/ exists x s, pins e x /\ hd_error (solve e x) = Some s /\ In kv (expand_subs1 x s)) /\
      (forall x s, pins e x -> hd_error (solve e x) = Some s -> forall k, In k (map fst (expand_subs1 x s)) -> In k (map fst d1)) /\
      (forall k, In k (map fst d) -> In k (map fst d1))).
    { unfold constant_step. destruct (Nat.leb (natoms e) 3) eqn:El.
      2:{ exists d. split; [reflexivity|]. split; [auto|]. split; [|auto]. intros x s [Hl _]. apply Nat.leb_gt in El. lia. }
      apply Nat.leb_le in El. destruct (var_atoms e) as [|x [|y l]] eqn:Ev.
      - exists d. split; [reflexivity|]. split; [auto|]. split; [|auto]. intros x s [_ Hx]. congruence.
      - assert (Hp : pins e x) by now split.
        destruct (solve e x) as [|s ss] eqn:Es; [exfalso; eapply Hs; [now left|exact Hp|exact Es]|].
        exists (dupdate d (expand_subs1 x s)). split; [reflexivity|]. split; [|split].
        + intros kv Hkv. apply dupdate_in in Hkv as [Hkv|Hkv]; [|auto]. right. exists x, s. now rewrite Es.
        + intros x' s' [_ Hx'] Es' k Hk. rewrite Ev in Hx'. injection Hx' as <-. rewrite Es in Es'. injection Es' as <-. apply dupdate_key. auto.
        + intros k Hk. apply dupdate_key. auto.
      - exists d. split; [reflexivity|]. split; [auto|]. split; [|auto]. intros x' s [_ Hx]. congruence. }
    destruct X as (d1 & E1 & Ha & Hb & Hc). rewrite E1. cbn [bind]. destruct (IH Hs' d1) as (d' & E' & Ha' & Hb' & Hc').
    exists d'. split; [exact E'|]. split; [|split].
    + intros kv Hkv. destruct (Ha' kv Hkv) as [H|(e' & x & s & H1 & H2 & H3 & H4)].
      * destruct (Ha kv H) as [H0|(x & s & H2 & H3 & H4)]; [auto|]. right. exists e, x, s. repeat split; auto; try apply H2. now left.
      * right. exists e', x, s. repeat split; auto; try apply H2. now right.
    + intros e' x s [<-|He'] Hp Hh k Hk; [apply Hc'; eapply Hb; eassumption|eapply Hb'; eassumption].
    + intros k Hk. apply Hc', Hc, Hk.
Qed.
Lemma constants_crash eqs1 e eqs2 x : (forall e x, In e eqs1 -> pins e x -> solve e x <> []) -> pins e x -> solve e x = [] ->
  forall d, constants natoms solve d (eqs1 ++ e :: eqs2) = Err IndexError.
Proof.
  intros H1 [Hl Hv] Hs. induction eqs1 as [|e1 eqs1 IH]; intro d; cbn [constants app].
  - unfold constant_step. apply Nat.leb_le in Hl. now rewrite Hl, Hv, Hs.
  - assert (Hh : forall e x, In e [e1] -> pins e x -> solve e x <> []) by (intros e' x' [<-|[]]; apply H1; now left).
    destruct (constants_ok [e1] Hh d) as (d' & E & _). cbn [constants] in E. destruct (constant_step natoms solve d e1) as [d1|]; cbn [bind] in *; [|discriminate].
    apply IH. intros; apply H1; auto; now right.
Qed.

End Const.

Lemma expand_const x s : param_only s -> forall k v, In (k, v) (expand_subs1 x s) -> v = s /\ In k [set_date (Some (-1)%Z) x; set_date (Some 0%Z) x; set_date (Some 1%Z) x; set_date None x].
Proof.
  intros Hp k v H. unfold expand_subs1 in H. apply in_map_iff in H as (t & E & Ht). injection E as <- <-.
  split.
  - destruct s as [z|s0|a b|a b|a|f k a]; try reflexivity. destruct (Hp s0 (or_introl eq_refl)) as (n & ->). reflexivity.
  - cbn in Ht. cbn. intuition (subst; auto).
Qed.

(* d's entries hold on a path where each constant holds *)
Lemma model_view {V} (A : alg V) env d g : view g ->
  (forall k v, In (k, v) d -> exists b, base_of k = Some b /\ param_only v /\ constant_path A env b v) ->
  model_of A (fun s => env (g s)) d.
Proof.
  intros Hg H k v Hkv. destruct (H k v Hkv) as (b & Hb & Hp & Hd & Hss).
  assert (E : ev A (fun s => env (g s)) v = ev A env v).
  { apply ev_ext. intros s Hs. destruct (Hp s Hs) as (n & ->). now rewrite view_par. }
  rewrite E. destruct k as [n|x t|x]; cbn in Hb; inversion Hb; subst x; destruct Hg; cbn; auto.
Qed.
Lemma subs_seq_gone d : (forall k v, In (k, v) d -> param_only v) -> forall e s, time_aware s = true ->
  In s (atoms (subs_seq d e)) -> In s (atoms e) /\ ~ In s (map fst d).
Proof.
  intros Hd e s Ht. revert e. induction d as [|[k v] d IH]; intros e Hi; cbn in *; [auto|].
  apply IH in Hi as [Hi Hn]; [|intros; eapply Hd; eauto]. rewrite subs1_smap in Hi. apply atoms_smap in Hi as (s0 & H0 & Hi).
  destruct (sym_eqb s0 k) eqn:E.
  - destruct (Hd k v (or_introl eq_refl) s Hi) as (n & ->). discriminate.
  - cbn in Hi. destruct Hi as [->|[]]. split; [assumption|]. intros [<-|Hk]; [rewrite sym_eqb_refl in E; discriminate|auto].
Qed.
