(* What parsing delivers can be printed: names are identifiers, dicts have distinct keys, assumptions are consistent *)
From Verif Require Import Common Expr_Model Expr_Spec Expr_Lex Expr_Proofs Expr_RoundTrip SymDict_Model Gcn_Lex Gcn_Model Gcn_Basic Gcn_Grammar Gcn_Expr Gcn_Sound Gcn_Complete Gcn_Complete5 Gcn_Meaning Gcn_Build Gcn_Print Gcn_Print2 Gcn_Print3.
Local Open Scope list_scope.
Set Default Proof Using "Type".

Section Faithful.
Context {F : Type} (fprint fstr : F -> chars) (fread : chars -> F).
(* every number of the expression prints as a literal that reads back as the same number *)
Fixpoint numbers_ok (e : expr F) : Prop :=
  match e with
  | Num v => numlit (fprint v) /\ fread (fprint v) = v
  | Par _ | Var _ _ => True
  | Neg a | Expec a => numbers_ok a
  | Bin _ a b => numbers_ok a /\ numbers_ok b
  | Fun _ args => (fix all (l : list (expr F)) : Prop := match l with [] => True | x :: l' => numbers_ok x /\ all l' end) args
  end.
(* an equation whose printed form keeps its numbers and its grouping *)
Definition faithful_eqn (e : equation F) : Prop := numbers_ok (lhs e) /\ paren_safe (lhs e) = true /\ numbers_ok (rhs e) /\ paren_safe (rhs e) = true.
Definition faithful_args (l : list (chars * dval F)) : Prop := forall k v, In (k, VNum v) l -> number_ok fstr fread v.
Definition faithful_dist (d : dist F) : Prop :=
  faithful_args (d_args d) /\ faithful_args (d_wargs d) /\ match d_init d with Some v => number_ok fstr fread v | None => True end.
Definition faithful_item (i : item F) : Prop := match i with IDist d => faithful_dist d | IEqn e => faithful_eqn e /\ ~ mistakable fprint e end.
Definition faithful_block (b : block F) : Prop :=
  (forall e, In e (definitions b ++ objective b ++ constraints b ++ identities b) -> faithful_eqn e) /\ (forall i, In i (calibration b) -> faithful_item i).
Definition faithful (m : gmodel F) : Prop := (forall b, In b (blocks m) -> faithful_block b) /\ tryreduce m = [].

Lemma text_wf : (forall l e s, Text fread l e s -> numbers_ok e -> wf fprint fread e) /\
  (forall es s, Texts fread es s -> es <> [] /\ ((fix all (l : list (expr F)) : Prop := match l with [] => True | x :: l' => numbers_ok x /\ all l' end) es -> (fix all (l : list (expr F)) : Prop := match l with [] => True | x :: l' => wf fprint fread x /\ all l' end) es)).
Proof.
  apply Text_Texts_ind.
  - intros w t _ _ H. exact H.
  - intros w n _ H _. exact H.
  - intros w n w1 t ti _ H _ _ _. exact H.
  - intros w f w1 args s w2 _ Hf _ _ [H1 H2] _ H. cbn [numbers_ok wf] in *. split; [exact Hf|]. split; [exact H1|]. exact (H2 H).
  - intros w e s w2 _ _ IH _ H. exact (IH H).
  - intros w e s w2 _ _ IH _ H. exact (IH H).
  - intros w e s _ _ IH H. exact (IH H).
  - intros o a b s1 w t s2 _ IH1 _ _ _ IH2 [H1 H2]. split; auto.
  - intros l e s _ _ IH. exact IH.
  - intros e s _ IH. split; [discriminate|]. intros [H _]. split; [exact (IH H)|exact I].
  - intros e s w es ss _ IH _ _ [_ IH2]. split; [discriminate|]. intros [H1 H2]. split; [exact (IH H1)|exact (IH2 H2)].
Qed.
Lemma varref_ident v s : varref_text v s -> ident (fst v).
Proof. intros (w & w1 & ti & _ & _ & H & _). exact H. Qed.
Lemma commas_all {A} (P : A -> chars -> Prop) (Q : A -> Prop) : (forall a s, P a s -> Q a) -> forall l s, commas P l s -> forall a, In a l -> Q a.
Proof. intros H l s. induction 1 as [a s Ha|a s w l ss Ha Hw Hs IH]; intros x Hx; [destruct Hx as [<-|[]]; eauto|]. destruct Hx as [<-|Hx]; eauto. Qed.
Lemma sequence_all {A} (P : A -> chars -> Prop) (Q : A -> Prop) : (forall a s, P a s -> Q a) -> forall l s, sequence P l s -> forall a, In a l -> Q a.
Proof. intros H l s. induction 1 as [|a s l ss Ha Hs IH]; intros x Hx; [destruct Hx|]. destruct Hx as [<-|Hx]; eauto. Qed.
Lemma equation_printable e s : equation_text fread e s -> faithful_eqn e -> printable fprint fread e.
Proof.
  destruct 1 as [ts tt l lt w r rt m mt c ct w1 H1 _ H2 H3 H4 H5 H6 H7]. intros (A & B & C & D). cbn [lhs rhs] in *. unfold printable. cbn [lhs rhs multiplier calibrating].
  split; [eapply (proj1 text_wf); eassumption|]. split; [exact B|]. split; [eapply (proj1 text_wf); eassumption|]. split; [exact D|]. split.
  - destruct H5 as [|w0 n t s0 _ Hv]; [exact I|]. exact (varref_ident _ _ Hv).
  - destruct H6; [exact I|assumption].
Qed.
Lemma firsts_nd l : NoDup (firsts l).
Proof. apply firsts_NoDup. Qed.
Context (farith : dop -> F -> F -> result F).
Definition darg_ok (a : chars * darg) : Prop := ident (fst a) /\ match snd a with AName n => ident n /\ n <> str "None" | _ => True end.
Lemma darg_text_ok a s : darg_text a s -> darg_ok a.
Proof. intros (w & w1 & v & _ & _ & H & _ & Hv). split; [exact H|]. destruct Hv; auto. Qed.
Lemma args_ok raw d : (forall a, In a raw -> darg_ok a) -> args_meaning fread farith raw d -> faithful_args d -> kwargs_ok fstr fread d.
Proof.
  intros Hr (vs & H2 & [E H]) Hf. split; [rewrite E; apply firsts_nd|]. intros k v Hi. pose proof Hi as Hi'. apply H in Hi as (l1 & l2 & -> & _). apply Forall2_app_inv_r in H2 as (r1 & r2 & _ & H2 & ->).
  inversion H2 as [|a ? r ? Ha Hrest]; subst. destruct (Hr a) as [Hk Hn]; [apply in_or_app; right; now left|]. inversion Ha; subst; cbn [fst snd] in *; (split; [exact Hk|]); cbn [value_ok]; auto. eapply Hf; eassumption.
Qed.
Lemma call_ok c s : call_text c s -> In (fst c) preliz_dists /\ forall a, In a (snd c) -> darg_ok a.
Proof.
  intros (w & w1 & a & w2 & _ & _ & H & _ & Ha & _). split; [exact H|]. destruct Ha as [[-> _]|Ha]; [intros x []|]. eapply commas_all; [|exact Ha]. intros. eapply darg_text_ok; eassumption.
Qed.
Lemma dist_call_ok c x s : dist_call_text c x s -> (In (fst c) preliz_dists /\ forall a, In a (snd c) -> darg_ok a) /\
  match x with Some (w, l) => In w preliz_wrappers /\ forall a, In a l -> darg_ok a | None => True end.
Proof.
  destruct 1 as [c s H|w x w1 c s l a w2 _ Hx _ Hc Ha _]; [split; [eapply call_ok; eassumption|exact I]|]. split; [eapply call_ok; eassumption|]. split; [exact Hx|].
  destruct Ha as [[-> _]|(w3 & a' & _ & _ & Ha)]; [intros y []|]. eapply commas_all; [|exact Ha]. intros. eapply darg_text_ok; eassumption.
Qed.
Lemma distribution_ok r s d : distribution_text r s -> dist_of fread farith r d -> faithful_dist d -> dist_ok fstr fread d.
Proof.
  intros (w & w1 & c & i & w2 & _ & _ & Hp & _ & Hc & _) (E1 & E2 & Ha & Hw & Hi) (F1 & F2 & F3). apply dist_call_ok in Hc as [[Hn Hargs] Hwr]. cbn [fst snd] in *. unfold dist_ok. rewrite E1, E2.
  split; [exact Hp|]. split; [exact Hn|]. split; [eapply args_ok; eassumption|]. destruct (rd_wrapper r) as [[x l]|].
  - destruct Hwr as [Hx Hl]. destruct Hw as [-> Hw]. split; [eapply args_ok; eassumption|]. split; [exact Hx|exact F3].
  - destruct Hw as [-> ->]. split; [split; [constructor|intros k v []]|]. split; [reflexivity|exact F3].
Qed.
Lemma cal_item_ok r s i : cal_item_text fread r s -> item_of fread farith r i -> faithful_item i -> item_ok fprint fstr fread i.
Proof.
  destruct 1 as [r s H|e s H _]; intro M; inversion M; subst; cbn [faithful_item item_ok].
  - intro. eapply distribution_ok; eassumption.
  - intros [H1 H2]. split; [eapply equation_printable; eassumption|exact H2].
Qed.
Lemma last_is {A B} (f : A -> option B) l d a : is_last f l d a -> a = d \/ exists x, In x l /\ f x = Some a.
Proof. intros [(l1 & x & l2 & -> & H & _)|[_ H]]; [right; exists x; split; [apply in_or_app; right; now left|exact H]|now left]. Qed.
Lemma components_ok raw s b : block_text fread raw s -> block_of fread farith raw b -> faithful_block b -> block_ok fprint fstr fread b.
Proof.
  intros (w & k & w1 & w2 & body & w3 & w4 & _ & _ & _ & _ & _ & Hn & _ & Hb & _) (En & H1 & H2 & H3 & H4 & H5 & H6 & _ & (lc & H7 & H8)) [Fe Fi].
  assert (C : forall c, In c (snd raw) -> exists t, component_text fread c t) by (eapply sequence_all; [|exact Hb]; eauto).
  assert (E : forall l t, sequence (equation_text fread) l t -> forall e, In e l -> exists t', equation_text fread e t') by (intros l t Hs; eapply sequence_all; [|exact Hs]; eauto).
  assert (V : forall l t, opt_list_text l t -> forall v, In v l -> ident (fst v)) by (intros l t [[-> _]|(t' & w' & _ & Hc & _)]; [intros v []|]; eapply commas_all; [|exact Hc]; apply varref_ident).
  split; [now rewrite En|]. split; [|split].
  - intros e He. assert (X : exists t', equation_text fread e t').
    { assert (Q : forall (f : component F -> option (list (equation F))) l, is_last f (snd raw) [] l -> (forall c x t, f c = Some x -> component_text fread c t -> exists t', sequence (equation_text fread) x t') -> In e l -> exists t', equation_text fread e t').
      { intros f l Hl Hc Hi. apply last_is in Hl as [-> | (c & Hin & Ec)]; [destruct Hi|]. destruct (C c Hin) as [t Ht]. destruct (Hc c l t Ec Ht) as [t' Ht']. eapply E; eassumption. }
      rewrite !in_app_iff in He. destruct He as [He|[He|[He|He]]]; [eapply Q; [exact H1| |exact He]|eapply Q; [exact H3| |exact He]|eapply Q; [exact H4| |exact He]|eapply Q; [exact H5| |exact He]];
      intros c x t Ec Ht; destruct c; try discriminate; injection Ec as ->; inversion Ht; subst; eauto. }
    destruct X as [t Ht]. eapply equation_printable; [exact Ht|now apply Fe].
  - intros v Hv. apply in_app_or in Hv as [Hv|Hv].
    + apply last_is in H2 as [H2|(c & Hc & L)]; [rewrite H2 in Hv; destruct Hv|]. destruct (C c Hc) as [t Ht]. destruct c; try discriminate. injection L as L. subst. inversion Ht; subst. eauto.
    + apply last_is in H6 as [H6|(c & Hc & L)]; [injection H6 as H6 _; rewrite H6 in Hv; destruct Hv|]. destruct (C c Hc) as [t Ht]. destruct c; try discriminate. injection L as L _. subst. inversion Ht as [| | | | |l bb ss Hs Hbr Hx|]; subst.
      rewrite <- Hx in Hv. apply in_concat in Hv as (vs & Hi & Hv). apply in_map_iff in Hi as ([vs' ds] & Ex & Hi). cbn in Ex. subst vs'.
      assert (Y : exists t', shock_text (vs, ds) t') by (revert Hi; generalize (vs, ds); eapply sequence_all; [|exact Hs]; eauto). destruct Y as [t' Y]. inversion Y as [l0 s0 w0 Hc0 _|v0 s0 w0 c0 i0 w5 d0 Hv0]; subst.
      * exact (commas_all varref_text (fun v => ident (fst v)) varref_ident _ _ Hc0 v Hv).
      * destruct Hv as [<-|[]]. cbn. exact (varref_ident _ _ Hv0).
  - intros i Hi. apply in_split in Hi as (i1 & i2 & Ei). pose proof H8 as M. rewrite Ei in M. apply Forall2_app_inv_r in M as (r1 & r2 & _ & M & Er). inversion M as [|r ? r3 ? Hr _]; subst.
    apply last_is in H7 as [H7|(c & Hc & L)]; [destruct r1; discriminate|]. destruct (C c Hc) as [t Ht]. destruct c; try discriminate. injection L as L. subst. inversion Ht as [| | | | | |l0 bb ss Hs Hbr]; subst.
    assert (Y : exists t', cal_item_text fread r t') by (assert (Z : In r (r1 ++ r :: r3)) by (apply in_or_app; right; now left); revert Z; apply (sequence_all _ (fun x => exists t', cal_item_text fread x t') (fun a s0 Ha => ex_intro _ s0 Ha) _ _ Hs r)).
    destruct Y as [t' Y]. eapply cal_item_ok; [exact Y|exact Hr|]. apply Fi. rewrite Ei. apply in_or_app. right. now left.
Qed.
Lemma specials_ok raw s m : file_text fread raw s -> model_of fread farith raw m -> NoDup (map fst (options m)) /\ (forall kv, In kv (options m) -> option_ok kv) /\ assumptions_ok (assumptions m).
Proof using F farith fprint fread fstr.
  intros (t1 & t2 & w & _ & Hs & _) (_ & (lo & H1 & [Ho Ho']) & _ & (la & H2 & [Ha Ha'])).
  assert (C : forall c, In c (fst raw) -> exists t, special_text c t) by (eapply sequence_all; [|exact Hs]; eauto).
  split; [rewrite Ho; apply firsts_nd|]. split.
  - intros [k v] Hi. apply Ho' in Hi as (l1 & l2 & -> & _). apply last_is in H1 as [H1|(c & Hc & L)]; [destruct l1; discriminate|]. destruct (C c Hc) as [t Ht]. destruct c; try discriminate. injection L as L. subst. inversion Ht as [l0 bb ss Hq _ | |]; subst.
    assert (Y : exists t', option_text (k, v) t') by (assert (Z : In (k, v) (l1 ++ (k, v) :: l2)) by (apply in_or_app; right; now left); revert Z; apply (sequence_all _ (fun x => exists t', option_text x t') (fun a s0 Ha => ex_intro _ s0 Ha) _ _ Hq (k, v))).
    destruct Y as [t' (w0 & w1 & w2 & v' & w3 & _ & _ & Hk & _ & _ & Hv & _)]. split; [exact Hk|]. cbn [snd] in *. destruct Hv; auto.
  - assert (S : forall g, In g la -> In (fst g) gcn_assumptions /\ forall v, In v (snd g) -> ident v).
    { intros g Hg. apply last_is in H2 as [H2|(c & Hc & L)]; [rewrite H2 in Hg; destruct Hg|]. destruct (C c Hc) as [t Ht]. destruct c; try discriminate. injection L as L. subst. inversion Ht as [| |l0 bb ss Hq _]; subst.
      assert (Y : exists t', subblock_text g t') by (revert Hg; generalize g; eapply sequence_all; [|exact Hq]; eauto). destruct Y as [t' (w0 & k0 & w1 & tt & w2 & w3 & w4 & _ & _ & Hg0 & _ & _ & Hcm & _)]. split; [exact Hg0|].
      eapply commas_all; [|exact Hcm]. intros n s0 [[t0 Hv]|(w5 & _ & _ & Hv)]; [exact (varref_ident _ _ Hv)|exact Hv]. }
    assert (K : forall v k, In k (kinds la v) -> In k gcn_assumptions /\ (k = str "unit_interval" -> In (str "positive") (kinds la v))).
    { intros v k Hk. apply kinds_In in Hk as (g & Hg & Hv & Hk). destruct (S g Hg) as [Hin _]. apply (listing_self _ Hin) in Hk as [-> | [Eu ->]].
      - split; [exact Hin|]. intro Eu. apply kinds_In. exists g. split; [exact Hg|]. split; [exact Hv|]. apply listing_self; auto.
      - split; [vm_compute; tauto|]. intro X. discriminate X. }
    intros v k (a & Hi & Hk). pose proof (Ha' v a Hi) as E. assert (Z : forall k', In k' (str "real" :: kinds la v) -> assumed (assumptions m) v k').
    { intros k' Hk'. exists a. split; [exact Hi|]. rewrite E. apply in_map_iff. exists k'. split; [reflexivity|now apply firsts_In]. }
    rewrite E in Hk. apply in_map_iff in Hk as (k0 & X & Hk). injection X as ->. apply (proj1 (firsts_In _ _)) in Hk. split; [|split; [|split]].
    + assert (I0 : In v (map fst (assumptions m))) by (apply in_map_iff; exists (v, a); auto). rewrite Ha in I0. apply (proj1 (firsts_In _ _)) in I0. apply in_concat in I0 as (vs & Hvs & Hv). apply in_map_iff in Hvs as (g & <- & Hg). exact (proj2 (S g Hg) v Hv).
    + destruct Hk as [<-|Hk]; [vm_compute; tauto|]. exact (proj1 (K v k Hk)).
    + apply Z. now left.
    + intro Eu. apply Z. right. destruct Hk as [Hk|Hk]; [rewrite Eu in Hk; discriminate Hk|]. exact (proj2 (K v k Hk) Eu).
Qed.
Lemma parsed_ok raw s m : file_text fread raw s -> model_of fread farith raw m -> faithful m -> model_ok fprint fstr fread m.
Proof.
  intros Hf Hm [Fb Ft]. destruct (specials_ok raw s m Hf Hm) as (O1 & O2 & O3). destruct Hf as (t1 & t2 & w & _ & _ & Hs & Hne & _). destruct Hm as (Hb & _).
  split; [intro E; rewrite E in Hb; inversion Hb; congruence|]. split; [|split; [exact O1|]; split; [exact O2|]; split; [exact Ft|exact O3]].
  intros b Hi. apply in_split in Hi as (b1 & b2 & E). pose proof Hb as M. rewrite E in M. apply Forall2_app_inv_r in M as (r1 & r2 & _ & M & Er). inversion M as [|r ? r3 ? Hr _]; subst.
  assert (Y : exists t', block_text fread r t') by (assert (Z : In r (snd raw)) by (rewrite Er; apply in_or_app; right; now left); revert Z; apply (sequence_all _ (fun x => exists t', block_text fread x t') (fun a s0 Ha => ex_intro _ s0 Ha) _ _ Hs r)).
  destruct Y as [t' Y]. eapply components_ok; [exact Y|exact Hr|]. apply Fb. rewrite E. apply in_or_app. right. now left.
Qed.
End Faithful.
