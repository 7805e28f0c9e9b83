From Verif Require Import Common Sym_Model Sym_Spec Sym_Proofs Sym_Flatten Sym_More SS_Model SS_Spec.
From Coq Require Import Permutation Reals Lra.
Local Open Scope list_scope.

(* substitution by values that hold does not change the meaning, whatever the order *)
Lemma subs1_holds {V} (A : alg V) env x r e : env x = ev A env r -> ev A env (subs1 x r e) = ev A env e.
Proof.
  intro H. rewrite subs1_smap, ev_smap. apply ev_ext. intros s _.
  destruct (sym_eqb s x) eqn:E; [apply sym_eqb_eq in E; subst; auto|reflexivity].
Qed.
Lemma subs_seq_holds {V} (A : alg V) env d : forall e, model_of A env d -> ev A env (subs_seq d e) = ev A env e.
Proof.
  unfold subs_seq. induction d as [|[k v] d IH]; intros e H; cbn [fold_left fst snd]; [reflexivity|].
  rewrite IH. - apply subs1_holds, H. left; reflexivity. - intros k' v' Hi. apply H. right; exact Hi.
Qed.
Lemma model_of_perm {V} (A : alg V) env d d' : Permutation d d' -> model_of A env d -> model_of A env d'.
Proof. intros P H k v Hi. apply H. eapply Permutation_in; [symmetry; exact P|exact Hi]. Qed.

Section Propagate.
Variable ord : set_order.
Hypothesis Ho : set_order_ok ord.
Variable dord : sdict -> sdict.
Hypothesis Hd : forall d, Permutation (dord d) d.
Variable solve : sx -> sym -> option (list sx).
Variable simple : sx -> bool.
Notation try_solve := (try_solve ord dord solve simple).
Notation unknowns := (unknowns ord).
Notation prop_pass := (prop_pass ord dord solve simple).
Notation prop_loop := (prop_loop ord dord solve simple).
Variable vars : list sym.
Variable eqs : list sx.

Lemma unknowns_in res eq u : In u (unknowns vars res eq) <-> In u (atoms eq) /\ In u vars /\ ~ In u (map fst res).
Proof using Ho. clear solve simple dord Hd eqs.
  unfold SS_Model.unknowns. rewrite (ord_in ord Ho), filter_In, andb_true_iff, negb_true_iff, smem_In.
  rewrite <- not_true_iff_false, smem_In. tauto.
Qed.

(* one successful step *)
Definition stepped (d : sdict) (e : sx) (u : sym) (s : sx) : Prop :=
  In e eqs /\ unknowns vars d e = [u] /\ try_solve e u d vars = Some s.
Inductive derives : sdict -> list (sx * (sym * sx)) -> sdict -> Prop :=
| der_refl d : derives d [] d
| der_step d e u s l d' : stepped d e u s -> derives (d ++ [(u, s)]) l d' -> derives d ((e, (u, s)) :: l) d'.
Lemma der_trans d1 l1 d2 l2 d3 : derives d1 l1 d2 -> derives d2 l2 d3 -> derives d1 (l1 ++ l2) d3.
Proof. induction 1; intro; cbn; [assumption|econstructor; eauto]. Qed.

Lemma pass_gen l : incl l eqs -> forall d p, exists ext,
  derives d ext (fst (fold_left (prop_eq ord dord solve simple vars) l (d, p))) /\
  (snd (fold_left (prop_eq ord dord solve simple vars) l (d, p)) = (p || negb (Nat.eqb (length ext) 0))%bool) /\
  (ext = [] -> forall e, In e l -> forall u, unknowns vars d e = [u] -> try_solve e u d vars = None).
Proof.
  induction l as [|e l IH]; intros Hi d p; cbn [fold_left].
  - exists []. cbn. split; [constructor|]. split; [destruct p; reflexivity|]. intros _ ? [].
  - assert (Est : prop_eq ord dord solve simple vars (d, p) e =
      match unknowns vars d e with
      | [u] => match try_solve e u d vars with Some s => (d ++ [(u, s)], true) | None => (d, p) end
      | _ => (d, p) end) by reflexivity.
    rewrite Est. clear Est.
    assert (Hl : incl l eqs) by (intros x Hx; apply Hi; right; exact Hx).
    assert (He : In e eqs) by (apply Hi; left; reflexivity).
    destruct (unknowns vars d e) as [|u [|? ?]] eqn:Eu.
    + destruct (IH Hl d p) as (ext & A & B & C). exists ext. split; [exact A|]. split; [exact B|].
      intros Hn e' [<-|H'] u Hu; [congruence|eauto].
    + destruct (try_solve e u d vars) as [s|] eqn:Es.
      * destruct (IH Hl (d ++ [(u, s)]) true) as (ext & A & B & C). exists ((e, (u, s)) :: ext). split.
        -- econstructor; [|exact A]. repeat split; assumption.
        -- split; [etransitivity; [exact B|cbn; destruct p; reflexivity]|discriminate].
      * destruct (IH Hl d p) as (ext & A & B & C). exists ext. split; [exact A|]. split; [exact B|].
        intros Hn e' [<-|H'] u' Hu; [|eauto]. rewrite Eu in Hu. injection Hu as <-. exact Es.
    + destruct (IH Hl d p) as (ext & A & B & C). exists ext. split; [exact A|]. split; [exact B|].
      intros Hn e' [<-|H'] u' Hu; [congruence|eauto].
Qed.
Lemma pass_spec d : exists ext, derives d ext (fst (prop_pass vars eqs d)) /\
  snd (prop_pass vars eqs d) = negb (Nat.eqb (length ext) 0) /\
  (ext = [] -> forall e, In e eqs -> forall u, unknowns vars d e = [u] -> try_solve e u d vars = None).
Proof. destruct (pass_gen eqs (incl_refl _) d false) as (ext & A & B & C). exists ext. auto. Qed.
Lemma loop_derives n : forall d, exists ext, derives d ext (prop_loop n vars eqs d).
Proof.
  induction n as [|n IH]; intro d; cbn [SS_Model.prop_loop].
  - exists []. constructor.
  - destruct (pass_spec d) as (e1 & A & _ & _). destruct (prop_pass vars eqs d) as [d' p] eqn:E. cbn [fst] in A.
    destruct p; [|eauto]. destruct (IH d') as (e2 & B). exists (e1 ++ e2). eapply der_trans; eauto.
Qed.

(* --- consequences of a derivation --- *)
Lemma der_shape d l d' : derives d l d' -> d' = d ++ map snd l.
Proof.
  induction 1 as [|d e u s l d' Hs _ IH]; cbn; [symmetry; apply app_nil_r|]. rewrite IH, <- app_assoc. reflexivity.
Qed.
Lemma stepped_new d e u s : stepped d e u s -> In u vars /\ ~ In u (map fst d) /\ In u (atoms e).
Proof.
  intros (_ & Hu & _). assert (H : In u (unknowns vars d e)) by (rewrite Hu; left; reflexivity).
  apply unknowns_in in H. tauto.
Qed.
Lemma der_new d l d' : derives d l d' -> forall e u s, In (e, (u, s)) l ->
  In e eqs /\ In u vars /\ ~ In u (map fst d) /\ In u (atoms e).
Proof.
  induction 1 as [|d e0 u0 s0 l d' Hs _ IH]; intros e u s Hi; [destruct Hi|]. destruct Hi as [E|Hi].
  - injection E as <- <- <-. destruct (stepped_new _ _ _ _ Hs) as (? & ? & ?). destruct Hs. tauto.
  - destruct (IH e u s Hi) as (? & ? & N & ?). repeat split; auto. intro Hx. apply N. rewrite map_app, in_app_iff. auto.
Qed.
Lemma der_nodup d l d' : derives d l d' -> NoDup (map fst d) -> NoDup (map fst d').
Proof.
  induction 1 as [|d e u s l d' Hs _ IH]; intro Hn; [exact Hn|]. apply IH. rewrite map_app. cbn [map fst].
  apply stepped_new in Hs as (_ & N & _).
  apply (Permutation_NoDup (l := u :: map fst d)); [apply Permutation_cons_append|]. constructor; assumption.
Qed.
(* the equations used are different ones, and none has an unknown left *)
Lemma der_keys d l d' k : derives d l d' -> In k (map fst d) -> In k (map fst d').
Proof. intros H Hk. rewrite (der_shape _ _ _ H), map_app. apply in_or_app. auto. Qed.
Lemma der_used d l d' : derives d l d' -> forall e u s, In (e, (u, s)) l -> unknowns vars d' e = [].
Proof.
  induction 1 as [|d e0 u0 s0 l d' Hs Hr IH]; intros e u s Hi; [destruct Hi|]. destruct Hi as [E|Hi]; [|eauto].
  injection E as <- <- <-. destruct (unknowns vars d' e0) as [|w ws] eqn:Ew; [reflexivity|exfalso].
  assert (Hw : In w (unknowns vars d' e0)) by (rewrite Ew; left; reflexivity).
  apply unknowns_in in Hw as (Ha & Hv & Hn). destruct Hs as (_ & Hu & _).
  assert (In w (unknowns vars d e0)).
  { apply unknowns_in. repeat split; auto. intro Hx. apply Hn. eapply der_keys; [exact Hr|]. rewrite map_app, in_app_iff. auto. }
  rewrite Hu in H. destruct H as [->|[]]. apply Hn. eapply der_keys; [exact Hr|]. rewrite map_app, in_app_iff. cbn. auto.
Qed.
Lemma der_distinct d l d' : derives d l d' -> NoDup (map fst l).
Proof.
  induction 1 as [|d e u s l d' Hs Hr IH]; cbn; [constructor|]. constructor; [|exact IH].
  intro Hi. apply in_map_iff in Hi as ([e' [u' s']] & E & Hi). cbn in E. subst e'.
  destruct (der_new _ _ _ Hr _ _ _ Hi) as (_ & Hv & Hn & Ha).
  assert (H : In u' (unknowns vars d e)).
  { apply unknowns_in. repeat split; auto. intro Hx. apply Hn. rewrite map_app, in_app_iff. auto. }
  destruct Hs as (_ & Hu & _). rewrite Hu in H. destruct H as [->|[]]. apply Hn. rewrite map_app, in_app_iff. cbn. auto.
Qed.

Lemma try_solve_inv e u d s : try_solve e u d vars = Some s ->
  solve (subs_seq (dord d) e) u = Some [s] /\ simple s = true /\
  (forall w, In w (atoms (subs_seq (dord d) e)) -> In w vars -> w = u).
Proof.
  unfold SS_Model.try_solve. cbv zeta. destruct (list_eq_dec sym_eq_dec _ [u]) as [E|]; [|discriminate].
  destruct (solve _ u) as [[|s0 [|? ?]]|]; try discriminate. destruct (simple s0) eqn:Es; [|discriminate].
  intros [= <-]. repeat split; auto. intros w Hw Hv.
  assert (H : In w (ord (filter (fun s => smem s vars) (atoms (subs_seq (dord d) e))))).
  { apply (ord_in ord Ho). apply filter_In. split; [exact Hw|]. now apply smem_In. }
  rewrite E in H. destruct H as [->|[]]. reflexivity.
Qed.
(* values found mention no steady-state variable of the model *)
Lemma der_closed d l d' : solver_uses_equation_symbols solve -> derives d l d' ->
  forall e u s, In (e, (u, s)) l -> forall w, In w (atoms s) -> ~ In w vars.
Proof.
  intro Hf. induction 1 as [|d e0 u0 s0 l d' Hs Hr IH]; intros e u s Hi w Hw Hv; [destruct Hi|].
  destruct Hi as [E|Hi]; [|eapply IH; eauto]. injection E as <- <- <-. destruct Hs as (_ & _ & Ht).
  destruct (try_solve_inv _ _ _ _ Ht) as (S1 & _ & S3).
  destruct (Hf _ _ _ _ S1 (or_introl eq_refl) w Hw) as (Hwa & Hwu). apply Hwu. exact (S3 _ Hwa Hv).
Qed.

Variable G : smooth.
Lemma der_sound D l d d' : solver_sound G D solve -> derives d l d' ->
  forall e u s, In (e, (u, s)) l -> forall env, D env -> model_of (Ralg G) env d' -> ev (Ralg G) env e = 0%R.
Proof.
  intro Hs. induction 1 as [|d e0 u0 s0 l d' Hst Hr IH]; intros e u s Hi env HD Hm; [destruct Hi|].
  destruct Hi as [E|Hi]; [|eapply IH; eauto]. injection E as <- <- <-. destruct Hst as (_ & _ & Ht).
  destruct (try_solve_inv _ _ _ _ Ht) as (S1 & _ & _).
  pose proof (der_shape _ _ _ Hr) as Sh.
  assert (Hin : forall k v, In (k, v) (d ++ [(u0, s0)]) -> env k = ev (Ralg G) env v).
  { intros k v Hk. apply Hm. rewrite Sh. apply in_or_app. auto. }
  rewrite <- (subs_seq_holds (Ralg G) env (dord d) e0).
  - apply (Hs _ _ _ S1 env HD). apply Hin. apply in_or_app. right. left. reflexivity.
  - eapply model_of_perm; [symmetry; apply Hd|]. intros k v Hk. apply Hin. apply in_or_app. auto.
Qed.
Lemma der_complete D l d d' : solver_complete G D solve -> derives d l d' ->
  forall env, D env -> model_of (Ralg G) env d -> (forall e, In e eqs -> ev (Ralg G) env e = 0%R) -> model_of (Ralg G) env d'.
Proof.
  intro Hs. induction 1 as [|d e0 u0 s0 l d' Hst Hr IH]; intros env HD Hm He; [exact Hm|].
  apply IH; auto. destruct Hst as (Hin & _ & Ht). destruct (try_solve_inv _ _ _ _ Ht) as (S1 & _ & _).
  intros k v Hk. apply in_app_or in Hk as [Hk|[E|[]]]; [auto|]. injection E as <- <-.
  apply (Hs _ _ _ S1 env HD). rewrite subs_seq_holds; [auto|]. eapply model_of_perm; [symmetry; apply Hd|exact Hm].
Qed.

(* --- fixpoint --- *)
Definition settled (d : sdict) : Prop :=
  forall e, In e eqs -> forall u, unknowns vars d e = [u] -> try_solve e u d vars = None.
Lemma settled_pass d : settled d -> prop_pass vars eqs d = (d, false).
Proof.
  intro H. unfold SS_Model.prop_pass. assert (X : forall l, incl l eqs -> forall p,
    fold_left (prop_eq ord dord solve simple vars) l (d, p) = (d, p)).
  { induction l as [|e l IH]; intros Hi p; cbn [fold_left]; [reflexivity|].
    assert (E : prop_eq ord dord solve simple vars (d, p) e = (d, p)).
    { unfold prop_eq. cbn [fst snd]. destruct (unknowns vars d e) as [|u [|? ?]] eqn:Eu; try reflexivity.
      rewrite (H e); auto. apply Hi. left; reflexivity. }
    rewrite E. apply IH. intros x Hx. apply Hi. right; exact Hx. }
  apply X, incl_refl.
Qed.
Lemma settled_loop n d : settled d -> prop_loop n vars eqs d = d.
Proof. intro H. destruct n; cbn [SS_Model.prop_loop]; [reflexivity|]. rewrite (settled_pass _ H). reflexivity. Qed.
Definition missing (d : sdict) : list sym := filter (fun v => negb (smem v (map fst d))) (nodup sym_eq_dec vars).
Lemma missing_le d : length (missing d) <= length vars.
Proof.
  unfold missing. apply NoDup_incl_length; [apply NoDup_filter, NoDup_nodup|].
  intros x Hx. apply filter_In in Hx as [Hx _]. now apply nodup_In in Hx.
Qed.
Lemma missing_decr d l d' : derives d l d' -> (length l + length (missing d') <= length (missing d))%nat.
Proof.
  induction 1 as [|d e u s l d' Hs Hr IH]; cbn; [lia|].
  enough (length (missing (d ++ [(u, s)])) < length (missing d))%nat by lia.
  destruct (stepped_new _ _ _ _ Hs) as (Hv & Hn & _).
  unfold missing. rewrite map_app. cbn [map fst].
  assert (Nd : NoDup (nodup sym_eq_dec vars)) by apply NoDup_nodup.
  assert (Hin : In u (nodup sym_eq_dec vars)) by now apply nodup_In.
  revert Nd Hin. generalize (nodup sym_eq_dec vars) as vs. induction vs as [|w vs IHv]; intros Nd Hin; [destruct Hin|].
  inversion_clear Nd as [|? ? N1 N2]. cbn [filter].
  assert (M : forall vs', length (filter (fun v => negb (smem v (map fst d ++ [u]))) vs') <=
                      length (filter (fun v => negb (smem v (map fst d))) vs')).
  { induction vs' as [|z vs' IHz]; cbn; [lia|].
    destruct (smem z (map fst d ++ [u])) eqn:E1; destruct (smem z (map fst d)) eqn:E2; cbn; try lia.
    exfalso. apply smem_In in E2. rewrite <- not_true_iff_false, smem_In in E1. apply E1, in_or_app. auto. }
  destruct (sym_eq_dec w u) as [->|Ne].
  - assert (E1 : smem u (map fst d ++ [u]) = true) by (apply smem_In, in_or_app; right; left; reflexivity).
    assert (E2 : smem u (map fst d) = false) by (apply not_true_iff_false; now rewrite smem_In).
    rewrite E1, E2. cbn [negb length]. specialize (M vs). lia.
  - destruct Hin as [->|Hin]; [congruence|]. specialize (IHv N2 Hin).
    destruct (smem w (map fst d ++ [u])) eqn:E1; destruct (smem w (map fst d)) eqn:E2; cbn; try lia.
    exfalso. apply smem_In in E2. rewrite <- not_true_iff_false, smem_In in E1. apply E1, in_or_app. auto.
Qed.
Lemma loop_settles n : forall d, (length (missing d) < n)%nat -> settled (prop_loop n vars eqs d).
Proof.
  induction n as [|n IH]; intros d Hn; [lia|]. cbn [SS_Model.prop_loop].
  destruct (pass_spec d) as (ext & A & B & C). destruct (prop_pass vars eqs d) as [d' p]. cbn [fst snd] in A, B.
  destruct ext as [|x ext].
  - cbn in B. subst p. inversion A; subst. intros e He u Hu. apply C; auto.
  - cbn in B. subst p. apply IH. apply missing_decr in A. cbn [length] in A. lia.
Qed.
End Propagate.
