From Verif Require Import Common Sym_Model Sym_Spec Sym_Proofs Sym_More Sym_Flatten SS_Proofs SymDict_Model SymDict_More Sort_Lib Build_Proofs Simp_Model Simp_Spec.
From Coq Require Import Permutation Sorted.
Local Open Scope list_scope.

Lemma cmem_In x l : cmem x l = true <-> In x l.
Proof. unfold cmem. rewrite existsb_exists. split; [intros (y & Hy & E); apply chars_eqb_eq in E; now subst|intro H; exists x; now rewrite chars_eqb_refl]. Qed.
Lemma cmem_false x l : cmem x l = false <-> ~ In x l.
Proof. rewrite <- cmem_In. destruct (cmem x l); split; congruence. Qed.
Lemma is_zero_eq e : is_zero e = true <-> e = Cst 0.
Proof. destruct e as [[]| | | | |]; cbn; split; congruence. Qed.

Lemma uses_in e b : uses e b = true <-> exists s, In s (atoms e) /\ In s (combos b).
Proof.
  unfold uses. rewrite existsb_exists. split; intros (s & H1 & H2); exists s.
  - apply smem_In in H2. now split.
  - now rewrite smem_In.
Qed.
Lemma combos_base b s : In s (combos b) -> base_of s = Some b.
Proof. cbn. intuition (subst; reflexivity). Qed.
Lemma uses_mentions e b : uses e b = true -> mentions e b.
Proof. rewrite uses_in. intros (s & H & H1). exists s. split; [assumption|]. now apply combos_base. Qed.
Lemma mentions_uses e b : near e -> mentions e b -> uses e b = true.
Proof.
  intros Hn (s & H & Hb). apply uses_in. exists s. split; [assumption|]. destruct s as [n|x t|x]; cbn in Hb; inversion Hb; subst x.
  - apply Hn in H. cbn. assert (t = -1 \/ t = 0 \/ t = 1)%Z as [-> | [-> | ->]] by lia; auto.
  - cbn. auto.
Qed.
Lemma not_uses e b : near e -> uses e b = false -> ~ mentions e b.
Proof. intros Hn Hu Hm. rewrite (mentions_uses e b Hn Hm) in Hu. discriminate. Qed.

(* ---------- variable lists ---------- *)
Lemma occurring_in eqs vars b : In b (occurring eqs vars) <-> In b vars /\ exists e, In e eqs /\ mentions e b.
Proof.
  unfold occurring. rewrite filter_In, in_flat_map, cmem_In. split.
  - intros [(e & He & Hb) Hv]. split; [assumption|]. exists e. split; [assumption|].
    apply in_flat_map in Hb as (s & Hs & Hb). exists s. split; [assumption|]. destruct (base_of s); cbn in Hb; [|contradiction].
    destruct Hb as [->|[]]. reflexivity.
  - intros [Hv (e & He & s & Hs & Hb)]. split; [|assumption]. exists e. split; [assumption|]. apply in_flat_map. exists s.
    rewrite Hb. split; [assumption|now left].
Qed.
Lemma leb_total a b : name_leb a b = true \/ name_leb b a = true.
Proof. apply chars_leb_total. Qed.
Lemma leb_trans a b c : name_leb a b = true -> name_leb b c = true -> name_leb a c = true.
Proof. apply chars_leb_trans. Qed.
Lemma isort_nodup (l : list chars) : NoDup l -> NoDup (isort name_leb l).
Proof. intro H. eapply Permutation_NoDup; [apply isort_perm|assumption]. Qed.

Definition by_name (a b : chars) : Prop := name_leb a b = true.
Lemma rvl_kept eqs vars b : In b (fst (reduce_variable_list eqs vars)) <-> In b vars /\ exists e, In e eqs /\ mentions e b.
Proof. cbn [fst reduce_variable_list]. rewrite isort_in, nodup_In. apply occurring_in. Qed.
Lemma rvl_gone eqs vars b : In b (snd (reduce_variable_list eqs vars)) <-> In b vars /\ ~ exists e, In e eqs /\ mentions e b.
Proof.
  cbn [snd reduce_variable_list]. rewrite isort_in, nodup_In, filter_In, negb_true_iff, cmem_false, nodup_In, occurring_in. intuition.
Qed.
Lemma rvl_nodup eqs vars : NoDup (fst (reduce_variable_list eqs vars)) /\ NoDup (snd (reduce_variable_list eqs vars)).
Proof. cbn. split; apply isort_nodup, NoDup_nodup. Qed.
Lemma rvl_sorted eqs vars : StronglySorted by_name (fst (reduce_variable_list eqs vars)) /\
  StronglySorted by_name (snd (reduce_variable_list eqs vars)).
Proof. cbn. split; apply (isort_sorted name_leb leb_total leb_trans). Qed.
Lemma rvl_partition eqs vars : NoDup vars ->
  Permutation (fst (reduce_variable_list eqs vars) ++ snd (reduce_variable_list eqs vars)) vars.
Proof.
  intro Hn. apply NoDup_Permutation; [| assumption |].
  - destruct (rvl_nodup eqs vars) as [H1 H2]. apply Build_Proofs.NoDup_app. split; [assumption|]. split; [assumption|].
    intros x Hx Hy. apply rvl_kept in Hx. apply rvl_gone in Hy. tauto.
  - intro x. rewrite in_app_iff, rvl_kept, rvl_gone. split; [tauto|]. intro Hx.
    destruct (in_dec chars_dec x (fst (reduce_variable_list eqs vars))) as [H|H]; rewrite rvl_kept in H; tauto.
Qed.

(* ---------- environments ---------- *)
Lemma view_base g s : view g -> base_of (g s) = base_of s.
Proof. intros []; destruct s; reflexivity. Qed.
Lemma view_par g n : view g -> g (SPar n) = SPar n.
Proof. intros []; reflexivity. Qed.
Lemma view_step g t : view g -> exists g', view g' /\ forall s, g (step_sym t s) = g' s.
Proof.
  intros [k|].
  - exists (step_sym (t + k)). split; [constructor|]. intros []; cbn; try reflexivity. f_equal. lia.
  - exists to_ss_sym. split; [constructor|]. intros []; reflexivity.
Qed.
Lemma mentions_atom e s b : In s (atoms e) -> base_of s = Some b -> mentions e b.
Proof. intros H1 H2. exists s. now split. Qed.

Lemma ev_view_same {V} (A : alg V) l env env' g e : same_but l env env' -> view g -> (forall b, In b l -> ~ mentions e b) ->
  ev A (fun s => env' (g s)) e = ev A (fun s => env (g s)) e.
Proof.
  intros Hs Hg Hm. apply ev_ext. intros s Hin. apply Hs. intros b Hb Hl. rewrite view_base in Hb by assumption.
  apply (Hm b Hl). eapply mentions_atom; eassumption.
Qed.
Lemma same_but_trans {V} l1 l2 (e1 e2 e3 : sym -> V) : same_but l1 e1 e2 -> same_but l2 e2 e3 -> same_but (l1 ++ l2) e1 e3.
Proof.
  intros H1 H2 s Hs. rewrite H2, H1; [reflexivity| |]; intros b Hb Hi; apply (Hs b Hb), in_app_iff; auto.
Qed.
Lemma solves_cons {V} (A : alg V) env e eqs : solves A env (e :: eqs) <-> solves A env [e] /\ solves A env eqs.
Proof.
  split.
  - intro H. split; intros g e' Hg Hi; apply H; try assumption; cbn in Hi |- *; tauto.
  - intros [H1 H2] g e' Hg [->|Hi]; [apply H1; [assumption|now left]|now apply H2].
Qed.
Lemma solves_app {V} (A : alg V) env l1 l2 : solves A env (l1 ++ l2) <-> solves A env l1 /\ solves A env l2.
Proof.
  split.
  - intro H. split; intros g e' Hg Hi; apply H; auto; apply in_app_iff; auto.
  - intros [H1 H2] g e' Hg Hi. apply in_app_iff in Hi as [Hi|Hi]; auto.
Qed.
Lemma solves_incl {V} (A : alg V) env l1 l2 : incl l1 l2 -> solves A env l2 -> solves A env l1.
Proof. intros Hi H g e Hg He. apply H; auto. Qed.

Lemma subs_view {V} (A : alg V) env b rhs g e : view g -> env (g (SDate b 0)) = ev A (fun s => env (g s)) rhs ->
  ev A (fun s => env (g s)) (subs1 (now b) rhs e) = ev A (fun s => env (g s)) e.
Proof. intros Hg H. apply subs1_holds. exact H. Qed.

(* the path on which b follows rhs *)
Definition follow {V} (A : alg V) (env : sym -> V) (b : chars) (rhs : sx) : sym -> V := fun s =>
  match s with
  | SPar _ => env s
  | SDate x t => if chars_eqb x b then ev A (fun s => env (step_sym t s)) rhs else env s
  | SSs x => if chars_eqb x b then ev A (fun s => env (to_ss_sym s)) rhs else env s
  end.
Lemma follow_same {V} (A : alg V) env b rhs : same_but [b] env (follow A env b rhs).
Proof.
  intros [n|x t|x] Hs; cbn; [reflexivity| |]; (destruct (chars_eqb x b) eqn:E; [|reflexivity]); exfalso;
  apply chars_eqb_eq in E; subst; apply (Hs b); cbn; auto.
Qed.
Lemma follow_always {V} (A : alg V) env b rhs : ~ mentions rhs b -> always A (follow A env b rhs) b rhs.
Proof.
  intros Hm g Hg. rewrite (ev_view_same A [b] env (follow A env b rhs) g rhs); [|apply follow_same|assumption|].
  - destruct Hg; cbn; rewrite chars_eqb_refl; reflexivity.
  - intros b' [<-|[]]. exact Hm.
Qed.

Section Red.
Variables (simp auto : sx -> sx).
Notation cand := (candidate simp auto).

(* ---------- the substitution loop ---------- *)
Lemma cand_sound {V} (A : alg V) env b rhs eqs : faithful A simp -> faithful A auto -> always A env b rhs ->
  (solves A env (cand b rhs eqs) <-> solves A env eqs).
Proof.
  intros Hs Ha Hb.
  assert (E : forall g e, view g -> ev A (fun s => env (g s)) (simp (auto (subs1 (now b) rhs e))) = ev A (fun s => env (g s)) e).
  { intros g e Hg. rewrite Hs, Ha. apply subs_view; auto. }
  split; intros H g e Hg He.
  - rewrite <- E by assumption. apply H; [assumption|]. unfold candidate. apply in_map_iff. eauto.
  - apply in_map_iff in He as (e0 & <- & He). rewrite E by assumption. now apply H.
Qed.
Lemma drop_zero_sound {V} (A : alg V) env eqs :
  solves A env (filter (fun e => negb (is_zero e)) eqs) <-> solves A env eqs.
Proof.
  split.
  - intros H g e Hg He. destruct (is_zero e) eqn:E; [apply is_zero_eq in E; subst; reflexivity|]. apply H; [assumption|].
    apply filter_In. now rewrite E.
  - apply solves_incl. intros e He. now apply filter_In in He.
Qed.
Lemma reduce_one_keeps {V} (A : alg V) env d eqs b : faithful A simp -> faithful A auto ->
  (forall rhs, lookup b d = Some rhs -> always A env b rhs) -> solves A env eqs -> solves A env (reduce_one simp auto d eqs b).
Proof.
  intros Hs Ha Hb H. unfold reduce_one. destruct (lookup b d) as [rhs|]; [|assumption].
  destruct (accepted b (cand b rhs eqs)); [|assumption]. apply drop_zero_sound, cand_sound; auto.
Qed.
Lemma loop_keeps {V} (A : alg V) env d l : faithful A simp -> faithful A auto -> forall eqs,
  (forall b rhs, In b l -> lookup b d = Some rhs -> always A env b rhs) -> solves A env eqs ->
  solves A env (fold_left (reduce_one simp auto d) l eqs).
Proof.
  intros Hs Ha. induction l as [|b l IH]; intros eqs Hb H; cbn; [assumption|]. apply IH; [intros; apply Hb; auto; now right|].
  apply reduce_one_keeps; auto. intros rhs. apply Hb. now left.
Qed.
Lemma drop_incl tr vars eqs : incl (drop_isolated tr vars eqs) eqs.
Proof. intros e He. now apply filter_In in He. Qed.

(* atoms of candidates *)
Lemma cand_atom b rhs eqs e s : no_new_symbol simp -> no_new_symbol auto -> In e (cand b rhs eqs) -> In s (atoms e) ->
  In s (atoms rhs) \/ exists e0, In e0 eqs /\ In s (atoms e0).
Proof.
  intros Hs Ha He Hi. apply in_map_iff in He as (e0 & <- & He). apply Hs, Ha in Hi. rewrite subs1_smap in Hi.
  apply atoms_smap in Hi as (s0 & H0 & Hi). destruct (sym_eqb s0 (now b)) eqn:E; [now left|]. right. exists e0. cbn in Hi.
  destruct Hi as [->|[]]. now split.
Qed.
Lemma cand_near b rhs eqs : no_new_symbol simp -> no_new_symbol auto -> near rhs -> (forall e, In e eqs -> near e) ->
  forall e, In e (cand b rhs eqs) -> near e.
Proof.
  intros Hs Ha Hr He e Hi x t Hx. destruct (cand_atom b rhs eqs e (SDate x t) Hs Ha Hi Hx) as [H|(e0 & H0 & H)].
  - eapply Hr; eassumption.
  - eapply He; eassumption.
Qed.
Lemma reduce_one_near d eqs b : no_new_symbol simp -> no_new_symbol auto ->
  (forall rhs, lookup b d = Some rhs -> near rhs) -> (forall e, In e eqs -> near e) ->
  forall e, In e (reduce_one simp auto d eqs b) -> near e.
Proof.
  intros Hs Ha Hd He e. unfold reduce_one. destruct (lookup b d) as [rhs|] eqn:E; [|apply He].
  destruct (accepted b (cand b rhs eqs)); [|apply He]. intro Hi. apply filter_In in Hi as [Hi _]. revert Hi. apply cand_near; auto.
Qed.
(* variables that no equation and no right-hand side mentions stay away *)
Definition clear (eqs : list sx) (b : chars) : Prop := forall e, In e eqs -> ~ mentions e b.
Lemma reduce_one_clear d eqs b x : no_new_symbol simp -> no_new_symbol auto ->
  (forall rhs, lookup b d = Some rhs -> ~ mentions rhs x) -> clear eqs x -> clear (reduce_one simp auto d eqs b) x.
Proof.
  intros Hs Ha Hd He. unfold reduce_one. destruct (lookup b d) as [rhs|] eqn:E; [|apply He].
  destruct (accepted b (cand b rhs eqs)); [|apply He]. intros e Hi (s & Hi2 & Hb). apply filter_In in Hi as [Hi _].
  destruct (cand_atom b rhs eqs e s Hs Ha Hi Hi2) as [H|(e0 & H0 & H)].
  - apply (Hd rhs eq_refl). eapply mentions_atom; eassumption.
  - apply (He e0 H0). eapply mentions_atom; eassumption.
Qed.
Lemma loop_clear d l x : no_new_symbol simp -> no_new_symbol auto -> forall eqs,
  (forall b rhs, In b l -> lookup b d = Some rhs -> ~ mentions rhs x) -> clear eqs x ->
  clear (fold_left (reduce_one simp auto d) l eqs) x.
Proof.
  intros Hs Ha. induction l as [|b l IH]; intros eqs Hd H; cbn; [assumption|]. apply IH; [intros; eapply Hd; eauto; now right|].
  apply reduce_one_clear; auto. intros rhs. apply Hd. now left.
Qed.

Lemma loop_extends {V} (A : alg V) d l : faithful A simp -> faithful A auto -> no_new_symbol simp -> no_new_symbol auto ->
  (forall b rhs, In b l -> lookup b d = Some rhs -> near rhs /\ ~ mentions rhs b) ->
  forall eqs env, (forall e, In e eqs -> near e) ->
  solves A env (fold_left (reduce_one simp auto d) l eqs) ->
  exists C env', incl C l /\ same_but C env env' /\ solves A env' eqs /\
    ((forall b rhs x, In b l -> lookup b d = Some rhs -> In x l -> ~ mentions rhs x) ->
      forall b, In b C -> clear (fold_left (reduce_one simp auto d) l eqs) b).
Proof.
  intros Hs Ha Ns Na. induction l as [|b l IH]; intros Hd eqs env Hn Hsol.
  - exists [], env. split; [easy|]. split; [intros s _; reflexivity|]. split; [exact Hsol|]. intros _ b [].
  - cbn [fold_left] in Hsol |- *.
    assert (Hd' : forall b0 rhs, In b0 l -> lookup b0 d = Some rhs -> near rhs /\ ~ mentions rhs b0) by (intros; apply Hd; auto; now right).
    assert (Hn' : forall e, In e (reduce_one simp auto d eqs b) -> near e).
    { apply reduce_one_near; auto. intros rhs E. apply (Hd b rhs (or_introl eq_refl) E). }
    destruct (IH Hd' _ env Hn' Hsol) as (C & env1 & HC & Hsame & Hsol1 & Hcl).
    unfold reduce_one in Hsol1. destruct (lookup b d) as [rhs|] eqn:E.
    2:{ exists C, env1. split; [intros x Hx; right; now apply HC|]. split; [assumption|]. split; [assumption|].
        intros Hfree x Hx. apply Hcl; [|assumption]. intros b0 rhs x0 H1 H2 H3. apply (Hfree b0 rhs x0); auto; now right. }
    destruct (accepted b (cand b rhs eqs)) eqn:Hacc.
    2:{ exists C, env1. split; [intros x Hx; right; now apply HC|]. split; [assumption|]. split; [assumption|].
        intros Hfree x Hx. apply Hcl; [|assumption]. intros b0 rhs' x0 H1 H2 H3. apply (Hfree b0 rhs' x0); auto; now right. }
    destruct (Hd b rhs (or_introl eq_refl) E) as [Hr Hnb].
    pose proof Hacc as Hacc0. apply andb_true_iff in Hacc as [_ Hu]. apply negb_true_iff in Hu.
    assert (Hcb : clear (cand b rhs eqs) b).
    { intros e He. apply not_uses; [revert e He; apply cand_near; auto|].
      destruct (uses e b) eqn:Eu; [|reflexivity]. assert (X : existsb (fun e => uses e b) (cand b rhs eqs) = true) by (apply existsb_exists; eauto).
      congruence. }
    apply (proj1 (drop_zero_sound A env1 _)) in Hsol1.
    exists (C ++ [b]), (follow A env1 b rhs).
    split; [intros x Hx; apply in_app_iff in Hx as [Hx|[<-|[]]]; [right; now apply HC|now left]|].
    split; [eapply same_but_trans; [exact Hsame|apply follow_same]|].
    split.
    + apply (cand_sound A (follow A env1 b rhs) b rhs eqs Hs Ha (follow_always A env1 b rhs Hnb)).
      intros g e Hg He. rewrite (ev_view_same A [b] env1 (follow A env1 b rhs) g e); [now apply Hsol1|apply follow_same|assumption|].
      intros b' [<-|[]]. now apply Hcb.
    + intros Hfree x Hx. apply in_app_iff in Hx as [Hx|[<-|[]]].
      * apply Hcl; [|assumption]. intros b0 rhs' x0 H1 H2 H3. apply (Hfree b0 rhs' x0); auto; now right.
      * apply loop_clear; auto.
        { intros b0 rhs' H1 H2. apply (Hfree b0 rhs' b); auto; [now right|now left]. }
        intros e He. unfold reduce_one in He. rewrite E in He.
        rewrite Hacc0 in He. apply filter_In in He as [He _]. now apply Hcb.
Qed.
End Red.
