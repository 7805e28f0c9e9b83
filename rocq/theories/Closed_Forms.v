From Verif Require Import Common Sym_Model Sym_Spec Sym_Proofs Sym_Diff Sym_Flatten SymDict_Model Block_Model Block_Spec Block_Foc Closed_Model Closed_Spec Closed_Proofs.
From Coq Require Import Permutation Reals Lra.
Local Open Scope list_scope.

(* ---------- counting occurrences ---------- *)
Section Cnt.
Variable x : sym.
Definition occ (e : sx) : nat := count_occ sym_eq_dec (atoms e) x.
Definition occs (l : list sx) : nat := fold_right (fun f acc => occ f + acc)%nat 0%nat l.
Lemma occs_app l l' : occs (l ++ l') = (occs l + occs l')%nat.
Proof. unfold occs. induction l as [|a l IH]; cbn; [reflexivity|]. rewrite IH. lia. Qed.
Lemma factors_occ e : occs (factors e) = occ e.
Proof.
  induction e as [z|s|a IHa b IHb|a IHa b IHb|a IH|h k a IH]; cbn [factors]; try (unfold occs; cbn [fold_right]; lia).
  - rewrite occs_app, IHa, IHb. unfold occ. cbn [atoms]. now rewrite count_occ_app.
  - change (occs (Cst (-1) :: factors a)) with (occs (factors a)). rewrite IH. reflexivity.
Qed.
Lemma occs_map_Ng l : occs (map Ng l) = occs l.
Proof. unfold occs. induction l as [|a l IH]; cbn; [reflexivity|]. rewrite IH. reflexivity. Qed.
Lemma addends_occ e : occs (addends e) = occ e.
Proof.
  induction e as [z|s|a IHa b IHb|a IHa b IHb|a IH|h k a IH]; cbn [addends]; try (unfold occs; cbn [fold_right]; lia).
  - rewrite occs_app, IHa, IHb. unfold occ. cbn [atoms]. now rewrite count_occ_app.
  - rewrite occs_map_Ng, IH. reflexivity.
Qed.
Lemma signed_occ e : forall pos, occs (map snd (signed pos e)) = occ e.
Proof.
  induction e as [z|s|a IHa b IHb|a IHa b IHb|a IH|h k a IH]; intro pos; cbn [signed]; try (unfold occs; cbn [map snd fold_right]; lia).
  - destruct z; unfold occs; cbn; reflexivity.
  - rewrite map_app, occs_app, IHa, IHb. unfold occ. cbn [atoms]. now rewrite count_occ_app.
  - rewrite IH. reflexivity.
Qed.
Lemma occ_in e : In x (atoms e) <-> (occ e > 0)%nat.
Proof. unfold occ. apply count_occ_In. Qed.
Lemma occ_out e : occ e = 0%nat -> ~ In x (atoms e).
Proof. intros H K. apply occ_in in K. lia. Qed.
Lemma occs_in f l : In f l -> (occ f <= occs l)%nat.
Proof. unfold occs. induction l as [|a l IH]; cbn; [intros []|]. intros [->|H]; [lia|]. specialize (IH H). lia. Qed.
Lemma occs_two f g l : In f l -> In g l -> f = g \/ (occ f + occ g <= occs l)%nat.
Proof.
  unfold occs. induction l as [|a l IH]; [intros []|]. intros [->|Hf] [->|Hg]; auto.
  - right. pose proof (occs_in g l Hg). cbn. unfold occs in *. lia.
  - right. pose proof (occs_in f l Hf). cbn. unfold occs in *. lia.
  - destruct (IH Hf Hg) as [|K]; auto. right. cbn. lia.
Qed.
Lemma occ_pw b a : occ (pw b a) = (occ a + occ b)%nat.
Proof. unfold occ, pw. cbn [atoms]. now rewrite count_occ_app. Qed.
Lemma occ_self : occ (Sy x) = 1%nat.
Proof. unfold occ. cbn. destruct (sym_eq_dec x x); congruence. Qed.
End Cnt.

(* ---------- shapes of accepted expressions ---------- *)
Lemma monomial_shape l : forall A ins A' ins', fold_left monomial_step l (Some (A, ins)) = Some (A', ins') ->
  forall y a, In (y, a) ins' -> In (y, a) ins \/ In (pw (Sy y) a) l.
Proof.
  induction l as [|f l IH]; intros A ins A' ins' H y a Hin.
  - cbn in H. injection H as <- <-. auto.
  - cbn [fold_left] in H. unfold monomial_step at 2 in H. destruct (as_pow f) as [[b c]|] eqn:Ep.
    + apply as_pow_spec in Ep. subst f. destruct b as [z|w|? ?|? ?|?|? ? ?]; try (rewrite monomial_none in H; discriminate).
      destruct (IH _ _ _ _ H y a Hin) as [K|K]; [|right; now right]. apply in_app_or in K as [K|[K|[]]]; [auto|].
      injection K as -> ->. right. now left.
    + destruct f as [z|s|? ?|? ?|?|? ? ?]; try (rewrite monomial_none in H; discriminate).
      destruct A as [s0|]; [rewrite monomial_none in H; discriminate|].
      destruct (IH _ _ _ _ H y a Hin) as [K|K]; [auto|right; now right].
Qed.
Lemma find_input_in x ins a : find_input x ins = Some a -> In (x, a) ins.
Proof.
  unfold find_input. destruct (find _ ins) as [[y b]|] eqn:E; [|discriminate]. intro H. injection H as <-.
  apply find_some in E as [H1 H2]. cbn in H2. apply sym_eqb_eq in H2. subst. exact H1.
Qed.
Lemma monomial_separate x e A ins a0 : decompose_monomial e = Some (A, ins) -> find_input x ins = Some a0 -> (occ x e <= 1)%nat ->
  forall y a, In (y, a) ins -> ~ In x (atoms a).
Proof.
  unfold decompose_monomial. destruct (fold_left monomial_step (factors e) (Some (None, []))) as [[A' ins']|] eqn:E; [|discriminate].
  intros H Hf Ho y a Hin Hx. assert (ins' = ins) by (destruct ins'; [discriminate|]; destruct (distinct _); [injection H as <- <-; reflexivity|discriminate]). subst ins'.
  apply find_input_in in Hf.
  destruct (monomial_shape _ _ _ _ _ E _ _ Hf) as [[]|F1]. destruct (monomial_shape _ _ _ _ _ E _ _ Hin) as [[]|F2].
  apply occ_in in Hx. rewrite <- factors_occ in Ho.
  pose proof (occs_in x _ _ F1) as L1. rewrite occ_pw, occ_self in L1.
  destruct (occs_two x _ _ _ F1 F2) as [Eq|L2].
  - unfold pw in Eq. injection Eq as -> _. lia.
  - rewrite !occ_pw, occ_self in L2. lia.
Qed.

Lemma outer_none l : fold_left outer_step l None = None.
Proof. induction l; cbn; auto. Qed.
Lemma outer_shape e A inner o : decompose_outer e = Some (A, inner, o) ->
  match A with None => factors e = [pw inner o] | Some s => factors e = [Sy s; pw inner o] \/ factors e = [pw inner o; Sy s] end.
Proof.
  unfold decompose_outer.
  assert (K : forall l A pf A' pf', fold_left outer_step l (Some (A, pf)) = Some (A', pf') ->
    match A, A', pf, pf' with
    | Some s, Some s', Some p, Some p' => s = s' /\ p = p' /\ l = []
    | Some s, Some s', None, Some p' => s = s' /\ l = [pw (fst p') (snd p')]
    | None, Some s', Some p, Some p' => p = p' /\ l = [Sy s']
    | None, None, Some p, Some p' => p = p' /\ l = []
    | None, None, None, Some p' => l = [pw (fst p') (snd p')]
    | None, Some s', None, Some p' => l = [Sy s'; pw (fst p') (snd p')] \/ l = [pw (fst p') (snd p'); Sy s']
    | Some _, None, _, _ => False
    | _, _, Some _, None => False
    | _, _, None, None => True
    end).
  { induction l as [|f l IH]; intros A0 pf A' pf' H.
    - cbn in H. injection H as <- <-. destruct A0, pf; auto.
    - cbn [fold_left] in H. unfold outer_step at 2 in H.
      assert (Kp : forall b c, as_pow f = Some (b, c) -> (forall s, f <> Sy s)) by (intros b c E s ->; discriminate).
      destruct (match f with Sy s => Some s | _ => None end) as [s|] eqn:Es.
      + assert (f = Sy s) by (destruct f; try discriminate; congruence). subst f.
        destruct A0 as [s0|]; [rewrite outer_none in H; discriminate|]. apply IH in H. destruct A' as [s'|]; [|contradiction].
        destruct pf as [p|], pf' as [p'|]; try contradiction; auto.
        * destruct H as (-> & -> & ->). auto.
        * destruct H as (-> & ->). auto.
      + assert (H2 : fold_left outer_step l match as_pow f with
               | Some (Ad u v, o0) => match pf with Some _ => None | None => Some (A0, Some (Ad u v, o0)) end
               | _ => None end = Some (A', pf')) by (destruct f; try discriminate; exact H). clear H Es.
        destruct (as_pow f) as [[b c]|] eqn:Ep; [|rewrite outer_none in H2; discriminate]. apply as_pow_spec in Ep.
        destruct b as [| |u v| | |]; try (rewrite outer_none in H2; discriminate).
        destruct pf as [p|]; [rewrite outer_none in H2; discriminate|]. apply IH in H2. subst f.
        destruct A0 as [s0|], A' as [s'|], pf' as [p'|]; try contradiction; auto.
        * destruct H2 as (-> & <- & ->). auto.
        * destruct H2 as (<- & ->). auto.
        * destruct H2 as (<- & ->). auto. }
  destruct (fold_left outer_step (factors e) (Some (None, None))) as [[A' pf']|] eqn:E; [|discriminate].
  apply K in E. destruct pf' as [[i' o']|]; [|discriminate]. intro H. injection H as <- <- <-. destruct A'; exact E.
Qed.

Section Z.
Variable zero : sx -> bool.
Lemma term_none s l : fold_left (term_step zero s) l None = None.
Proof. induction l; cbn; auto. Qed.
Lemma term_shape s l : forall xo share xo' share', fold_left (term_step zero s) l (Some (xo, share)) = Some (xo', share') ->
  match xo, xo' with
  | None, Some x => exists l1 a l2, l = l1 ++ pw (Sy x) a :: l2 /\ zero (minus a s) = true /\ share' = share ++ l1 ++ l2
  | Some x, Some x' => x = x' /\ share' = share ++ l
  | None, None => share' = share ++ l
  | Some _, None => False
  end.
Proof.
  induction l as [|f l IH]; intros xo share xo' share' H.
  - cbn in H. injection H as <- <-. destruct xo; rewrite app_nil_r; auto.
  - cbn [fold_left] in H. unfold term_step at 2 in H.
    assert (Skip : fold_left (term_step zero s) l (Some (xo, share ++ [f])) = Some (xo', share') ->
      match xo, xo' with
      | None, Some x => exists l1 a l2, f :: l = l1 ++ pw (Sy x) a :: l2 /\ zero (minus a s) = true /\ share' = share ++ l1 ++ l2
      | Some x, Some x' => x = x' /\ share' = share ++ f :: l
      | None, None => share' = share ++ f :: l
      | Some _, None => False
      end).
    { intro K. apply IH in K. destruct xo, xo'; rewrite <- ?app_assoc in K; auto. destruct K as (l1 & a & l2 & -> & Hz & ->).
      exists (f :: l1), a, l2. split; [reflexivity|]. split; [exact Hz|]. rewrite <- app_assoc. reflexivity. }
    destruct (as_pow f) as [[b a]|] eqn:Ep; [|exact (Skip H)].
    destruct (zero (minus a s)) eqn:Ez; [|exact (Skip H)]. clear Skip.
    destruct xo as [x0|]; [rewrite term_none in H; discriminate|].
    destruct b as [|y| | | |]; try (rewrite term_none in H; discriminate).
    apply as_pow_spec in Ep. subst f. apply IH in H. destruct xo' as [x'|]; [|contradiction]. destruct H as (<- & ->).
    exists [], a, l. auto.
Qed.
Lemma decompose_term_shape s t x share : decompose_term zero s t = Some (x, share) ->
  exists l1 a l2, factors t = l1 ++ pw (Sy x) a :: l2 /\ zero (minus a s) = true /\ share = product (l1 ++ l2).
Proof.
  unfold decompose_term. destruct (fold_left _ _ _) as [[xo' share']|] eqn:E; [|discriminate]. apply term_shape in E.
  destruct xo' as [x'|]; [|discriminate]. intro H. injection H as <- <-. destruct E as (l1 & a & l2 & -> & Hz & ->). exists l1, a, l2. auto.
Qed.
Lemma all_some_spec {A} (l : list (option A)) r : all_some l = Some r -> l = map Some r.
Proof.
  revert r. induction l as [|[y|] l IH]; intros r H; cbn in H.
  - injection H as <-. reflexivity.
  - destruct (all_some l) as [r'|]; [|discriminate]. injection H as <-. cbn. now rewrite (IH r' eq_refl).
  - discriminate.
Qed.
End Z.

Section W.
Variable G : smooth.
Hypothesis HG : power_world G.
Notation evr := (ev (Ralg G)).
Local Open Scope R_scope.

Definition sumv (v : sx -> R) (l : list sx) : R := fold_right (fun f acc => v f + acc) 0 l.
Lemma sumv_app v l l' : sumv v (l ++ l') = sumv v l + sumv v l'.
Proof. unfold sumv. induction l as [|a l IH]; cbn [app fold_right]; [lra|]. rewrite IH. lra. Qed.
Lemma sumv_Ng v l : (forall a, v (Ng a) = - v a) -> sumv v (map Ng l) = - sumv v l.
Proof. intro H. unfold sumv. induction l as [|a l IH]; cbn [map fold_right]; [lra|]. rewrite IH, H. lra. Qed.
Lemma addends_sum v e : (forall a, v (Ng a) = - v a) -> (forall a b, v (Ad a b) = v a + v b) -> sumv v (addends e) = v e.
Proof.
  intros HN HA. induction e as [z|s|a IHa b IHb|a IHa b IHb|a IH|h k a IH]; cbn [addends]; try (unfold sumv; cbn [fold_right]; lra).
  - rewrite sumv_app, IHa, IHb. symmetry. apply HA.
  - rewrite sumv_Ng, IH by exact HN. symmetry. apply HN.
Qed.
Lemma addends_defined env e t : defined G env e -> In t (addends e) -> defined G env t.
Proof.
  revert t. induction e as [z|s|a IHa b IHb|a IHa b IHb|a IH|h k a IH]; cbn [addends]; intros t Hd Ht; try (destruct Ht as [<-|[]]; exact Hd).
  - destruct Hd. apply in_app_or in Ht as [Ht|Ht]; auto.
  - apply in_map_iff in Ht as (u & <- & Hu). cbn. apply IH; auto.
Qed.
Lemma product_ev env l : evr env (product l) = pval G env l.
Proof. unfold product, pval. induction l as [|a l IH]; [reflexivity|]. cbn [fold_right]. rewrite evMu, IH. reflexivity. Qed.
Lemma sumv_zero v l : (forall t, In t l -> v t = 0) -> sumv v l = 0.
Proof. intro H. unfold sumv. induction l as [|a l IH]; [reflexivity|]. cbn [fold_right]. rewrite IH, (H a) by (intros; try apply H; cbn; auto). lra. Qed.

Section X.
Variable zero : sx -> bool.
Variable env : sym -> R.
Hypothesis Hz : forall e, zero e = true -> evr env e = 0.
Variable x : sym.
Lemma term_diff s t share : decompose_term zero s t = Some (x, share) -> (occ x t <= 1)%nat -> defined G env t ->
  0 < env x /\ evr env (diff x t) = evr env share * evr env s * / env x * Rpower (env x) (evr env s).
Proof.
  intros H Ho Hd. apply decompose_term_shape in H as (l1 & a & l2 & Hf & Hza & ->). apply Hz in Hza. unfold minus in Hza. rewrite evAd, evNg in Hza.
  assert (Ea : evr env a = evr env s) by lra.
  rewrite <- factors_occ, Hf, occs_app in Ho. cbn [occs fold_right] in Ho. fold (occs x l2) in Ho. rewrite occ_pw, occ_self in Ho.
  assert (Dp : defined G env (pw (Sy x) a)) by (apply (factors_defined G env t); [exact Hd|]; rewrite Hf; apply in_elt).
  destruct (pw_defined G HG env _ _ Dp) as (_ & _ & Hx). rewrite evSy in Hx. split; [exact Hx|].
  rewrite <- factors_diff, Hf, dprod_app. cbn [dprod]. 
  assert (Zl : forall l, (occs x l = 0)%nat -> dprod G env x l = 0).
  { induction l as [|f l IH]; intro K; [reflexivity|]. cbn [occs fold_right] in K. fold (occs x l) in K. cbn [dprod].
    rewrite (diff_free G env x f) by (apply occ_out; lia). rewrite IH by lia. ring. }
  rewrite (Zl l1), (Zl l2) by lia.
  rewrite (pw_diff G HG) by (first [rewrite evSy; exact Hx | apply occ_out; lia]).
  cbn [diff]. rewrite sym_eqb_refl. rewrite (pw_ev G HG) by (rewrite evSy; exact Hx). rewrite !evSy, Ea, product_ev, pval_app.
  change (evr env (Cst 1)) with 1. ring.
Qed.
Lemma inner_diff s l ins share : map (decompose_term zero s) l = map Some ins -> find_input x ins = Some share -> (occs x l <= 1)%nat ->
  (forall t, In t l -> defined G env t) ->
  0 < env x /\ sumv (fun t => evr env (diff x t)) l = evr env share * evr env s * / env x * Rpower (env x) (evr env s).
Proof.
  revert ins. induction l as [|t l IH]; intros ins Hm Hf Ho Hd; destruct ins as [|[y sh] ins]; try discriminate.
  cbn [map] in Hm. assert (Ht : decompose_term zero s t = Some (y, sh)) by congruence. assert (Hm' : map (decompose_term zero s) l = map Some ins) by congruence. clear Hm.
  cbn [occs fold_right] in Ho. fold (occs x l) in Ho. unfold sumv. cbn [fold_right]. fold (sumv (fun t => evr env (diff x t)) l).
  unfold find_input in Hf. cbn [find fst] in Hf. destruct (sym_eqb x y) eqn:E.
  - cbn in Hf. injection Hf as ->. apply sym_eqb_eq in E. subst y.
    destruct (term_diff s t share Ht ltac:(lia) (Hd t (or_introl eq_refl))) as [Hx ->]. split; [exact Hx|].
    apply decompose_term_shape in Ht as (l1 & a & l2 & Hfa & _). 
    assert (O1 : (1 <= occ x t)%nat). { rewrite <- factors_occ, Hfa, occs_app. cbn [occs fold_right]. rewrite occ_pw, occ_self. lia. }
    rewrite sumv_zero; [ring|]. intros u Hu. apply diff_free. apply occ_out. pose proof (occs_in x u l Hu). lia.
  - specialize (IH ins Hm' Hf ltac:(lia) (fun u Hu => Hd u (or_intror Hu))). destruct IH as [Hx IH]. split; [exact Hx|]. rewrite IH.
    rewrite diff_free; [ring|]. apply occ_out.
    assert (O1 : (1 <= occs x l)%nat).
    { clear -Hm' Hf. revert l Hm'. induction ins as [|[w sh'] ins IH2]; intros l Hm'; [discriminate|]. destruct l as [|u l]; [discriminate|]. cbn [map] in Hm'.
      assert (Hu : decompose_term zero s u = Some (w, sh')) by congruence. assert (Hm2 : map (decompose_term zero s) l = map Some ins) by congruence.
      cbn [find fst] in Hf. cbn [occs fold_right]. fold (occs x l). destruct (sym_eqb x w) eqn:E2.
      - apply sym_eqb_eq in E2. subst w. apply decompose_term_shape in Hu as (l1 & a & l2 & Hfa & _).
        rewrite <- (factors_occ x u), Hfa, occs_app. cbn [occs fold_right]. rewrite occ_pw, occ_self. lia.
      - specialize (IH2 Hf l Hm2). lia. }
    lia.
Qed.

(* the two closed forms against the derivative of the product *)
Definition Aval (A : option sym) : R := match A with Some s => env s | None => 1 end.
Lemma outer_ev e A inner o : decompose_outer e = Some (A, inner, o) -> evr env e = Aval A * evr env (pw inner o).
Proof.
  intro H. apply outer_shape in H. rewrite <- factors_ev. destruct A as [s|]; [destruct H as [-> | ->]|rewrite H]; unfold pval, Aval; cbn [fold_right]; rewrite ?evSy; ring.
Qed.
Lemma outer_diff e A inner o : decompose_outer e = Some (A, inner, o) -> ~ In x (olist A) -> evr env (diff x e) = Aval A * evr env (diff x (pw inner o)).
Proof.
  intros H Hn. apply outer_shape in H. rewrite <- factors_diff.
  destruct A as [s|]; [destruct H as [-> | ->]|rewrite H]; cbn [dprod]; unfold pval, Aval; cbn [fold_right]; rewrite ?evSy.
  - rewrite (diff_free G env x (Sy s)) by (cbn; intros [->|[]]; apply Hn; now left). ring.
  - rewrite (diff_free G env x (Sy s)) by (cbn; intros [->|[]]; apply Hn; now left). ring.
  - ring.
Qed.
Lemma outer_defined e A inner o : decompose_outer e = Some (A, inner, o) -> defined G env e -> defined G env (pw inner o).
Proof.
  intros H Hd. apply outer_shape in H. apply (factors_defined G env e _ Hd).
  destruct A as [s|]; [destruct H as [-> | ->]|rewrite H]; cbn; auto.
Qed.
Lemma outer_occ e A inner o : decompose_outer e = Some (A, inner, o) -> (occ x (pw inner o) <= occ x e)%nat.
Proof.
  intro H. apply outer_shape in H. rewrite <- (factors_occ x e).
  destruct A as [s|]; [destruct H as [-> | ->]|rewrite H]; cbn [occs fold_right]; lia.
Qed.

Lemma ces_diff prod A inner o s ins share Y :
  decompose_outer prod = Some (A, inner, o) -> decompose_inner zero inner o = Some (s, ins) -> find_input x ins = Some share ->
  ~ In x (olist A) -> (occ x prod <= 1)%nat -> defined G env prod -> evr env prod = Y -> 0 < Y ->
  evr env (diff x prod) = evr env share * (match A with Some a => Rpower (env a) (evr env s) | None => 1 end) * Rpower (Y * / env x) (1 - evr env s) /\
  0 < env x /\ (forall a, A = Some a -> 0 < env a).
Proof.
  intros Ho Hi Hf HA Hocc Hd HY HYpos.
  unfold decompose_inner in Hi. destruct (filter _ (candidates zero inner)) as [|s' [|]] eqn:Efil; try discriminate.
  assert (Hos : evr env o * evr env s' = 1).
  { assert (K : In s' (filter (fun c => zero (minus (Mu o c) (Cst 1))) (candidates zero inner))) by (rewrite Efil; now left).
    apply filter_In in K as [_ K]. apply Hz in K. unfold minus in K. rewrite evAd, evNg, evMu in K. change (evr env (Cst 1)) with 1 in K. lra. }
  clear Efil. destruct (all_some _) as [ins'|] eqn:Eall; [|discriminate]. destruct (distinct (map fst ins')); [|discriminate]. injection Hi as -> ->.
  apply all_some_spec in Eall.
  pose proof (outer_defined _ _ _ _ Ho Hd) as Dp. destruct (pw_defined G HG env _ _ Dp) as (_ & Din & Ipos).
  pose proof (outer_occ _ _ _ _ Ho) as Oo. rewrite occ_pw in Oo.
  destruct (inner_diff s (addends inner) ins share Eall Hf) as [Hx Hid].
  { rewrite addends_occ. lia. }
  { intros t Ht. eapply addends_defined; eassumption. }
  rewrite (addends_sum (fun t => evr env (diff x t))) in Hid by (intros; cbn [diff]; first [apply evNg | apply evAd]).
  assert (Hxi : (1 <= occ x inner)%nat).
  { destruct (occ x inner) eqn:E0; [|lia]. exfalso. apply find_input_in in Hf. 
    assert (K : exists t, In t (addends inner) /\ decompose_term zero s t = Some (x, share)).
    { assert (In (Some (x, share)) (map (decompose_term zero s) (addends inner))) by (rewrite Eall; now apply in_map).
      apply in_map_iff in H as (t & H1 & H2). eauto. }
    destruct K as (t & Ht & Hdt). apply decompose_term_shape in Hdt as (l1 & a & l2 & Hfa & _).
    assert (O1 : (1 <= occ x t)%nat). { rewrite <- factors_occ, Hfa, occs_app. cbn [occs fold_right]. rewrite occ_pw, occ_self. lia. }
    pose proof (occs_in x t _ Ht). rewrite addends_occ in H. lia. }
  assert (Oout : ~ In x (atoms o)) by (apply occ_out; lia).
  rewrite (outer_diff _ _ _ _ Ho HA), (pw_diff G HG) by assumption. rewrite (pw_ev G HG) by exact Ipos. rewrite Hid.
  assert (HYv : Y = Aval A * Rpower (evr env inner) (evr env o)). { rewrite <- HY, (outer_ev _ _ _ _ Ho), (pw_ev G HG) by exact Ipos. reflexivity. }
  set (I := evr env inner) in *. set (S := evr env s) in *. set (O := evr env o) in *. set (sh := evr env share).
  assert (RI : 0 < Rpower I O) by (unfold Rpower; apply exp_pos).
  assert (Apos : 0 < Aval A).
  { rewrite HYv in HYpos. apply Rmult_lt_reg_r with (Rpower I O); [exact RI|]. rewrite Rmult_0_l. exact HYpos. }
  split; [|split; [exact Hx|intros a ->; exact Apos]].
  assert (Y1 : Rpower (Y * / env x) (1 - S) = Rpower (Aval A) (1 - S) * Rpower I (O - 1) * Rpower (env x) (S - 1)).
  { unfold Rpower. rewrite !ln_mult by (try apply Rinv_0_lt_compat; assumption). rewrite ln_Rinv by exact Hx.
    rewrite HYv, ln_mult by assumption. unfold Rpower. rewrite ln_exp. rewrite <- !exp_plus. f_equal.
    transitivity ((1 - S) * ln (Aval A) + (O - O * S) * ln I + (S - 1) * ln (env x)); [ring|]. rewrite Hos. reflexivity. }
  rewrite Y1.
  assert (E1 : Rpower I (O - 1) = / I * Rpower I O).
  { unfold Rminus. rewrite Rpower_plus, Rpower_Ropp, Rpower_1 by exact Ipos. ring. }
  assert (E2 : Rpower (env x) (S - 1) = / env x * Rpower (env x) S).
  { unfold Rminus. rewrite Rpower_plus, Rpower_Ropp, Rpower_1 by exact Hx. ring. }
  assert (E3 : (match A with Some a => Rpower (env a) S | None => 1 end) * Rpower (Aval A) (1 - S) = Aval A).
  { destruct A as [a|]; unfold Aval in *.
    - rewrite <- Rpower_plus. replace (S + (1 - S)) with 1 by ring. apply Rpower_1. exact Apos.
    - unfold Rpower. rewrite ln_1, Rmult_0_r, exp_0. ring. }
  rewrite E1, E2.
  transitivity (sh * (Aval A) * (/ I * Rpower I O) * (/ env x * Rpower (env x) S)).
  - transitivity ((O * S) * (Aval A * (sh * / env x * Rpower (env x) S) * / I * Rpower I O)); [ring|]. rewrite Hos. ring.
  - rewrite <- E3 at 1. ring.
Qed.
End X.
End W.
