From Verif Require Import Common Sym_Model Sym_Spec Sym_Proofs Sym_Diff Sym_Flatten Sym_More SymDict_Model SymDict_More
  Block_Model Block_Spec Block_Proofs Block_Lagr Block_Foc Block_Solve.
From Coq Require Import Permutation Reals Lra.
Local Open Scope list_scope.

Lemma assigned_named short cs : forall i k e n, nth_error cs k = Some e -> g_lm e = Some n -> nth_error (assigned short i cs) k = Some (SDate n 0).
Proof.
  induction cs as [|x cs IH]; intros i [|k] e n H Hn; cbn in H; try discriminate.
  - injection H as ->. cbn [assigned]. rewrite Hn. reflexivity.
  - cbn [assigned]. destruct (g_lm x); cbn [nth_error]; eapply IH; eassumption.
Qed.
Lemma assigned_upper short cs : forall i m, In m (assigned short i cs) ->
  (exists n e, m = SDate n 0 /\ In e cs /\ g_lm e = Some n) \/ (exists j, (j < n_unnamed cs)%nat /\ m = SDate (lambda_name short (i + j)) 0).
Proof.
  induction cs as [|e cs IH]; intros i m; cbn [assigned]; [easy|]. unfold n_unnamed. cbn [filter].
  destruct (g_lm e) as [n|] eqn:E; intros [<-|H].
  - left. exists n, e. repeat split; auto. now left.
  - destruct (IH _ _ H) as [(n' & e' & -> & Hn & He)|(j & Hj & ->)]; [left; exists n', e'; repeat split; auto; now right|right; eauto].
  - right. exists 0%nat. cbn [length]. rewrite Nat.add_0_r. split; [lia|reflexivity].
  - destruct (IH _ _ H) as [(n' & e' & -> & Hn & He)|(j & Hj & ->)]; [left; exists n', e'; repeat split; auto; now right|].
    right. exists (S j). cbn [length]. fold (n_unnamed cs). split; [lia|]. now rewrite Nat.add_succ_r.
Qed.

Lemma nget_In {V} k (v : V) d : nget k d = Some v -> In (k, v) d.
Proof.
  unfold nget. induction d as [|[k' v'] d IH]; cbn; [discriminate|]. destruct (Nat.eqb k k') eqn:E.
  - intro H. injection H as ->. apply Nat.eqb_eq in E. subst. now left.
  - intro H. right. exact (IH H).
Qed.
Section S.
Variables ord sord : set_order.
Variable aord : list sx -> list sx.
Hypothesis Ho : set_order_ok ord.
Hypothesis Hs : set_order_ok sord.
Hypothesis Ha : forall l, Permutation (aord l) l.

Lemma Forall2_map_l {A B C} (R : B -> C -> Prop) (f : A -> B) l l' : Forall2 (fun x y => R (f x) y) l l' -> Forall2 R (map f l) l'.
Proof. induction 1; cbn; constructor; auto. Qed.
Lemma Forall2_refl_in {A} (R : A -> A -> Prop) l : (forall x, In x l -> R x x) -> Forall2 R l l.
Proof. induction l; intro H; constructor; [apply H; now left|apply IHl; intros; apply H; now right]. Qed.
Lemma Forall2_nth {A B} (R : A -> B -> Prop) l l' : length l = length l' -> (forall i y, nth_error l' i = Some y -> exists x, nth_error l i = Some x /\ R x y) -> Forall2 R l l'.
Proof.
  revert l'. induction l as [|x l IH]; intros [|y l'] Hl H; cbn in Hl; try discriminate; constructor.
  - destruct (H 0%nat y eq_refl) as (x' & E & Hr). injection E as <-. exact Hr.
  - apply IH; [lia|]. intros i y' Hi. exact (H (S i) y' Hi).
Qed.

(* The derivative statement for one control. *)
Definition is_foc (a : ablock) (obj : geq) (c : sx) (ms : list sym) (f : sx) (x : sym) : Prop :=
  forall G, exists n, forall (env : sym -> R) (full : R -> sym -> R) H eps, (n <= H)%nat -> (0 < eps)%R -> defined G env c ->
     (forall y, (Rabs (y - env x) < eps)%R -> follows_definitions a (with_value env x y) (full y) (Ralg G)) ->
     (forall k e, In e (ab_defs a) -> defined G (later k (full (env x))) (g_rhs e)) ->
     (forall k, defined G (later k (full (env x))) (g_rhs obj)) ->
     (forall k e, In e (ab_cons a) -> defined G (later k (full (env x))) (g_lhs e) /\ defined G (later k (full (env x))) (g_rhs e)) ->
     derivable_pt_lim (fun y => sum_f_R0 (fun k => (ev (Ralg G) env c) ^ k * lagrangian (Ralg G) a obj ms (later (Z.of_nat k) (full y)))%R H)
       (env x) (ev (Ralg G) env f).

Theorem block_system a obj c short b : optimisation_block a obj c short -> to_block ord sord a = Ok b ->
  exists b' eqs focs, solve_optimization ord sord aord b = Ok b' /\ k_sys b' = eqs ++ focs /\
    Forall2 (fun x e => forall G env, follows_definitions a env env (Ralg G) ->
               ev (Ralg G) env x = (ev (Ralg G) env (g_rhs e) - ev (Ralg G) env (g_lhs e))%R)
      eqs (ab_ids a ++ filter (fun e => negb (g_exclude e)) (ab_cons a) ++ [obj]) /\
    (forall x e b0 t, In x eqs -> In e (ab_defs a) -> g_lhs e = Sy (SDate b0 t) -> ~ In (SDate b0 t) (atoms x)) /\
    Forall2 (is_foc a obj c (assigned short 1 (ab_cons a))) focs (ab_controls a).
Proof.
  intros [O1 O2 O3 O4 O5 O6 O7 O8 O9 O10] Hb.
  destruct (solve_correct ord sord aord Ho Hs Ha a obj c b short Hb O1 O2 O3 O4 O5 O6 O7 O8 O9 O10)
    as (b' & flat & mu' & focs & Hflat & Hsol & Hsys & Hlen & Hmu & _ & _ & _ & _ & _ & Hfoc).
  exists b', (map (fun e => written sord (sd1 a flat) (equation_to_sympy e)) (ab_ids a ++ filter (fun e => negb (g_exclude e)) (ab_cons a) ++ [obj])), focs.
  split; [exact Hsol|].
  apply to_block_inv in Hb as (short' & d' & Hsh' & Hval & Hcons & _).
  destruct (validate_facts a short' Hval) as (Hcal & _ & _).
  assert (Hobjcal : g_cal obj = None).
  { apply Hcal. rewrite O3. apply in_or_app; right. apply in_or_app; left. now left. }
  assert (Hall : forall e, In e (ab_ids a ++ filter (fun e => negb (g_exclude e)) (ab_cons a) ++ [obj]) -> g_cal e = None).
  { intros e He. apply in_app_or in He as [He|He]; [|apply in_app_or in He as [He|[<-|[]]]; [|exact Hobjcal]].
    - apply Hcal. rewrite !in_app_iff. auto.
    - apply filter_In in He as [He _]. apply Hcal. rewrite !in_app_iff. auto. }
  split; [|split; [|split]].
  - rewrite Hsys, !map_app, <- !app_assoc. reflexivity.
  - apply Forall2_map_l, Forall2_refl_in. intros e He G env Hf.
    exact (written_means ord sord Ho Hs a O2 flat Hflat G e _ (Hall e He) eq_refl env Hf).
  - intros x e b0 t Hx He El Hin. apply in_map_iff in Hx as (e' & <- & He').
    apply (written_atoms ord sord Ho Hs a O2 flat Hflat e' (SDate b0 t) (Hall e' He') Hin).
    unfold sd1. rewrite map_map. apply in_map_iff. exists e. split; [|exact He]. cbn. unfold key_of. now rewrite El.
  - apply Forall2_nth; [exact Hlen|]. intros i x Hi. destruct (O7 x (nth_error_In _ _ Hi)) as (n & t & ->).
    destruct (Hfoc i n t Hi) as (f & Hf1 & Hf2). exists f. split; [exact Hf1|]. intro G.
    destruct (discount_spec aord Ha obj c O5 Hobjcal) as (df & Hdf & Hdfp & Hdfv & Hdfd). rewrite Hdf in Hf2.
    assert (Hmsd : forall m, In m (assigned short 1 (ab_cons a)) -> exists n, m = SDate n 0 /\ ~ defined_name a n).
    { intros m Hm. destruct (assigned_in short (ab_cons a) 1 m Hm) as [(n' & -> & _)|(j & _ & ->)]; eexists; (split; [reflexivity|]); apply O10; exact Hm. }
    destruct (foc_correct ord sord Ho Hs a obj O2 flat Hflat O8 O9 (assigned short 1 (ab_cons a)) (assigned_length short (ab_cons a) 1) Hmsd G df c n t Hdfp (Hdfv G)) as (f' & N & Hf' & Hd).
    assert (f' = f) by congruence. subst f'. exists N. intros env full H eps HN Heps Hdc. apply Hd; [exact HN|exact Heps|]. apply Hdfd, Hdc.
Qed.

Theorem multipliers_are_variables a obj c short b : optimisation_block a obj c short -> to_block ord sord a = Ok b ->
    (forall m, In m (assigned short 1 (ab_cons a)) -> ~ In m (ab_shocks a)) ->
  exists b' vars0 vars1, solve_optimization ord sord aord b = Ok b' /\
    variable_list ord sord b [] = Ok vars0 /\ variable_list ord sord b' vars0 = Ok vars1 /\
    forall m, In m (assigned short 1 (ab_cons a)) -> In m vars1.
Proof.
  intros [O1 O2 O3 O4 O5 O6 O7 O8 O9 O10] Hb Hsh.
  destruct (solve_correct ord sord aord Ho Hs Ha a obj c b short Hb O1 O2 O3 O4 O5 O6 O7 O8 O9 O10)
    as (b' & flat & mu' & focs & Hflat & Hsol & _ & _ & Hmu & Hdefs & Hshk & Hdd & M1 & M2 & _).
  assert (Hf : exists f, flatten ord sord (sd1 a flat) = Ok f).
  { apply (flatten_succeeds_iff ord sord Ho).
    - rewrite (sd1_keys a O2). exact (def_pairs_nodup a O2).
    - exists (fun _ => 0%nat). intros k v s Hkv Hsv Hin _. exfalso. rewrite (sd1_keys a O2) in Hin.
      unfold sd1 in Hkv. apply in_map_iff in Hkv as (e' & E & He'). injection E as <- <-.
      exact (proj1 (proj2 (flat_facts ord sord Ho Hs a O2 flat Hflat)) _ _ _ (flatval_in ord sord Ho Hs a O2 flat Hflat e' He') Hsv Hin). }
  destruct Hf as (f & Hf). exists b'.
  unfold variable_list. rewrite Hdefs, Hdd. cbn [bind]. rewrite Hf. cbn [bind]. eexists. eexists. split; [exact Hsol|]. split; [reflexivity|]. split; [reflexivity|].
  destruct (numbering ord sord a b Hb) as (_ & _ & _ & _ & _ & _ & Hm0). destruct (to_block_inv ord sord a b Hb) as (sh & d' & _ & _ & _ & Eb).
  assert (Hshk0 : k_shocks b = ab_shocks a) by (rewrite Eb; reflexivity).
  intros m Hm. apply filter_In. rewrite Hshk, Hshk0. split.
  - destruct (assigned_upper short (ab_cons a) 1 m Hm) as [(n & e & -> & He & El)|(j & Hj & ->)].
    + apply in_or_app. left. apply in_or_app. left. apply filter_In. split.
      * apply in_or_app. right. apply in_flat_map.
        assert (Hin : In (Some (SDate n 0)) (map snd (entries a))).
        { unfold entries. rewrite map_app, map_map. apply in_or_app. left. apply in_map_iff. exists e. split; [cbn; unfold extract_multiplier; now rewrite El|].
          rewrite !in_app_iff. auto. }
        change (map snd (entries a)) with (map e_mult (entries a)) in Hin. apply In_nth_error in Hin as (i & Hi).
        exists (i, Some (SDate n 0)). split; [|now left]. rewrite Hm0. apply (in_numbered 0). exact Hi.
      * cbn [set_date]. apply negb_true_iff, not_true_iff_false. intro Hx. apply smem_In in Hx. exact (Hsh _ Hm Hx).
    + apply in_or_app. right. apply in_flat_map. exists ((1 + j)%nat, Some (SDate (lambda_name short (1 + j)) 0)). split; [|now left].
      rewrite Hmu. specialize (M1 j Hj). exact (nget_In _ _ _ M1).
  - destruct (assigned_upper short (ab_cons a) 1 m Hm) as [(n & e & -> & He & El)|(j & Hj & ->)]; cbn [set_date];
      apply negb_true_iff, not_true_iff_false; intro Hx; apply smem_In in Hx; exact (Hsh _ Hm Hx).
Qed.
End S.
