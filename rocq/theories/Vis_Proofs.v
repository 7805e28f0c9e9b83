(* Proofs for C142. *)
From Verif Require Import Common Vis_Model Vis_Spec.
From Coq Require Import Lia.
Local Open Scope list_scope.

Section V.
Context {V T L S : Type}.
Notation node := (node V T L).

Lemma node_parts (P : node -> Prop) : (forall n, (forall k, In k (kids n) -> P k) -> P n) -> forall n, P n.
Proof.
  intros H. fix IH 1. intros n. apply H. destruct n as [| | |i l a o b|i l o e|i l f args|i l e|i l a b lm cal tags]; cbn [kids].
  - intros k [].
  - intros k [].
  - intros k [].
  - intros k [<-|[<-|[]]]; apply IH.
  - intros k [<-|[]]; apply IH.
  - revert args. fix go 1. intros [|x t] k; [intros []|]. intros [<-|Hk]; [apply IH|exact (go t k Hk)].
  - intros k [<-|[]]; apply IH.
  - intros k [<-|[<-|[]]]; apply IH.
Qed.
Lemma lives_iff (w : world) (n : node) : lives w n <-> w (ident n) = Some n /\ forall k, In k (kids n) -> lives w k.
Proof.
  split.
  - intros H. split; [apply H; constructor|]. intros k Hk x Hx. apply H. econstructor; eauto.
  - intros [H1 H2] x Hx. inversion Hx as [|? k Hk Hs]; subst; [easy|]. now apply (H2 k Hk).
Qed.
Lemma lives_ext w w' (n : node) : extends w w' -> lives w n -> lives w' n.
Proof. intros E H x Hx. apply E. now apply H. Qed.
Lemma ext_trans (w w' w'' : world (V:=V) (T:=T) (L:=L)) : extends w w' -> extends w' w'' -> extends w w''.
Proof. intros A B i x H. now apply B, A. Qed.
Lemma is_true w (a b : node) : lives w a -> lives w b -> is a b = true <-> a = b.
Proof.
  intros Ha Hb. unfold is. rewrite Nat.eqb_eq. split; [|congruence]. intros E. apply lives_iff in Ha as [Ha _]. apply lives_iff in Hb as [Hb _]. congruence.
Qed.
Lemma rewritten_app handled old (a : list node) c1 a' b c2 b' :
  rewritten_all handled old a c1 a' -> rewritten_all handled old b c2 b' -> rewritten_all handled old (a ++ b) (c1 ++ c2) (a' ++ b').
Proof. induction 1; cbn [app]; intros R; [easy|]. rewrite <- app_assoc. constructor; auto. Qed.
Lemma ran_app (methods : cls -> option (method V T L S)) c1 : forall c2 s s1 s2, ran methods c1 s s1 -> ran methods c2 s1 s2 -> ran methods (c1 ++ c2) s s2.
Proof. induction c1 as [|[x y] t IH]; intros c2 s s1 s2 H1 H2; inversion H1; subst; cbn [app]; [easy|]. econstructor; eauto. Qed.

Variable methods : cls -> option (method V T L S).
Hypothesis all_sane : forall c f, methods c = Some f -> sane f.
Variable w0 : world (V:=V) (T:=T) (L:=L).
Definition handled (c : cls) : Prop := methods c <> None.
Definition old (x : node) : Prop := w0 (ident x) = Some x.

Definition good (n : node) (k : obj) (s : S) (w : world) (m : node) (k' : obj) (s' : S) : Prop :=
  exists calls w', rewritten handled old n calls m /\ ran methods calls s s' /\ extends w w' /\ below w' k' /\ lives w' m /\ k <= k'.
Definition visits (n : node) : Prop := forall w k s m k' s', extends w0 w -> below w k -> lives w n ->
  visit methods n (k, s) = (m, (k', s')) -> good n k s w m k' s'.

Lemma list_spec (l : list node) : (forall x, In x l -> visits x) -> forall w k s r k' s', extends w0 w -> below w k -> (forall x, In x l -> lives w x) ->
  visit_list (visit methods) l (k, s) = (r, (k', s')) ->
  exists calls w', rewritten_all handled old l calls r /\ ran methods calls s s' /\ extends w w' /\ below w' k' /\ (forall x, In x r -> lives w' x) /\ k <= k'.
Proof.
  induction l as [|x t IH]; intros Hv w k s r k' s' E0 B Li H; cbn [visit_list] in H.
  - injection H as <- <- <-. exists [], w. repeat split; auto; try constructor. now intros i y.
  - destruct (visit methods x (k, s)) as [y [k1 s1]] eqn:E1. destruct (visit_list (visit methods) t (k1, s1)) as [r' [k2 s2]] eqn:E2. injection H as <- <- <-.
    destruct (Hv x (or_introl eq_refl) w k s y k1 s1 E0 B (Li x (or_introl eq_refl)) E1) as (c1 & w1 & R1 & N1 & X1 & B1 & L1 & K1).
    destruct (IH (fun z Hz => Hv z (or_intror Hz)) w1 k1 s1 r' k2 s2) as (c2 & w2 & R2 & N2 & X2 & B2 & L2 & K2); auto.
    { eapply ext_trans; eauto. }
    { intros z Hz. eapply lives_ext; [exact X1|]. apply Li. now right. }
    exists (c1 ++ c2), w2. split; [now constructor|]. split; [eapply ran_app; eauto|]. split; [eapply ext_trans; eauto|]. split; [easy|]. split; [|lia].
    intros z [<-|Hz]; [eapply lives_ext; eauto|auto].
Qed.

Lemma finish (n : node) (mk : obj -> node) (b : bool) ks calls k s w w2 j s2 m k' s' :
  methods (class_of n) = None -> extends w0 w -> extends w w2 -> lives w n -> below w2 j -> k <= j -> (forall x, In x ks -> lives w2 x) ->
  rewritten_all handled old (kids n) calls ks -> ran methods calls s s2 ->
  (forall i, ident (mk i) = i /\ kids (mk i) = ks /\ fields n (mk i) /\ location n = location (mk i)) ->
  (b = true <-> ks = kids n) -> (fields n n) ->
  (if b then (n, (j, s2)) else fresh mk (j, s2)) = (m, (k', s')) -> good n k s w m k' s'.
Proof.
  intros Hm E0 E Ln B K Lk R N Hmk Hb Fn H. destruct b.
  - injection H as <- <- <-. destruct Hb as [Hb _]. specialize (Hb eq_refl). rewrite Hb in R. exists calls, w2. split; [|repeat split; auto; eapply lives_ext; eauto].
    apply by_parts; auto; try (unfold handled; congruence); try easy.
  - injection H as <- <- <-. cbn [fst snd] in *. destruct (Hmk j) as (I & Kk & F & Lo).
    assert (ks <> kids n) as Ne by (intros Q; apply Hb in Q; discriminate).
    assert (mk j <> n) as Nn by (intros Q; apply Ne; rewrite <- Kk; now f_equal).
    exists calls, (fun i => if Nat.eqb i j then Some (mk j) else w2 i). split; [|split; [easy|]].
    + apply by_parts; [unfold handled; congruence|easy|easy|now rewrite Kk| |].
      * split; [easy|]. rewrite Kk. easy.
      * intros _ x Hx Q. unfold old in Hx. apply E0, E in Hx. rewrite Q, I, (B j (Nat.le_refl j)) in Hx. discriminate.
    + assert (extends w2 (fun i => if Nat.eqb i j then Some (mk j) else w2 i)) as X.
      { intros i x Hx. destruct (Nat.eqb_spec i j) as [->|]; [|easy]. rewrite (B j (Nat.le_refl j)) in Hx. discriminate. }
      split; [eapply ext_trans; eauto|]. split; [|split; [|lia]].
      * intros i Hi. destruct (Nat.eqb_spec i j); [lia|]. apply B. lia.
      * apply lives_iff. rewrite I, Nat.eqb_refl. split; [easy|]. intros x Hx. rewrite Kk in Hx. eapply lives_ext; [exact X|]. auto.
Qed.

Lemma all_is w (l' l : list node) : length l' = length l -> (forall x, In x l' -> lives w x) -> (forall x, In x l -> lives w x) ->
  forallb (fun p => is (fst p) (snd p)) (combine l' l) = true <-> l' = l.
Proof.
  revert l. induction l' as [|x t IH]; intros [|y u] Hl H1 H2; cbn in Hl; try discriminate; [easy|]. cbn [combine forallb fst snd].
  rewrite Bool.andb_true_iff, (is_true w x y (H1 x (or_introl eq_refl)) (H2 y (or_introl eq_refl))). rewrite IH; [|lia|intros; apply H1; now right|intros; apply H2; now right].
  split; [intros [-> ->]; easy|intros Q; now injection Q].
Qed.
Lemma rewritten_len h o (l : list node) c r : rewritten_all h o l c r -> length r = length l.
Proof. induction 1; cbn; congruence. Qed.

Lemma visit_spec : forall n, visits n.
Proof.
  apply node_parts. intros n IH w k s m k' s' E0 B Ln H.
  destruct (methods (class_of n)) as [f|] eqn:Em.
  - assert (visit methods n (k, s) = f n (k, s)) as Hv by (destruct n; cbn [visit class_of] in *; now rewrite Em).
    rewrite Hv in H. destruct (all_sane _ _ Em w n k s B Ln) as (w' & X & B' & L' & K'). rewrite H in B', L', K'. cbn [fst snd] in *.
    exists [(n, m)], w'. split; [constructor; unfold handled; congruence|]. split; [econstructor; eauto; constructor|]. auto.
  - pose proof Ln as Ln'. apply lives_iff in Ln' as [_ Lk].
    destruct n as [i l v|i l v|i l v t|i l a o b|i l o e|i l f args|i l e|i l a b lm cal tags]; cbn [visit class_of kids] in *; rewrite Em in H.
    1-3: injection H as <- <- <-; exists [], w; (split; [apply by_parts; cbn; auto; try constructor; try (unfold handled; cbn; congruence); try easy|]);
         (split; [constructor|]); (split; [now intros ? ?|]); auto.
    + destruct (visit methods a (k, s)) as [a' [k1 s1]] eqn:E1. destruct (visit methods b (k1, s1)) as [b' [k2 s2]] eqn:E2.
      destruct (IH a (or_introl eq_refl) w k s a' k1 s1 E0 B (Lk a (or_introl eq_refl)) E1) as (c1 & w1 & R1 & N1 & X1 & B1 & L1 & K1).
      destruct (IH b (or_intror (or_introl eq_refl)) w1 k1 s1 b' k2 s2) as (c2 & w2 & R2 & N2 & X2 & B2 & L2 & K2); auto.
      { eapply ext_trans; eauto. } { eapply lives_ext; [exact X1|]. apply Lk. right; now left. }
      pose proof (ext_trans _ _ _ X1 X2) as X.
      eapply (finish (NBin i l a o b) (fun j => NBin j l a' o b') _ [a'; b'] (c1 ++ c2 ++ []) k s w w2 k2 s2); try exact H; auto; try lia.
      * intros x [<-|[<-|[]]]; [exact (lives_ext _ _ _ X2 L1)|easy].
      * cbn [kids]. constructor; [easy|]. constructor; [easy|constructor].
      * rewrite app_nil_r. eapply ran_app; eauto.
      * intros i'. cbn. auto.
      * cbn [kids]. rewrite Bool.andb_true_iff, (is_true w2), (is_true w2); auto.
        -- split; [intros [-> ->]; easy|intros Q; now injection Q].
        -- eapply lives_ext; [exact X|]. apply Lk. right; now left.
        -- exact (lives_ext _ _ _ X2 L1).
        -- eapply lives_ext; [exact X|]. apply Lk. now left.
      * cbn. reflexivity.
    + destruct (visit methods e (k, s)) as [a' [k1 s1]] eqn:E1.
      destruct (IH e (or_introl eq_refl) w k s a' k1 s1 E0 B (Lk e (or_introl eq_refl)) E1) as (c1 & w1 & R1 & N1 & X1 & B1 & L1 & K1).
      eapply (finish (NUn i l o e) (fun j => NUn j l o a') _ [a'] (c1 ++ []) k s w w1 k1 s1); try exact H; auto; try lia.
      * intros x [<-|[]]; easy.
      * cbn [kids]. constructor; [easy|constructor].
      * rewrite app_nil_r. easy.
      * intros i'. cbn. auto.
      * cbn [kids]. rewrite (is_true w1); auto.
        -- split; [intros ->; easy|intros Q; now injection Q].
        -- eapply lives_ext; [exact X1|]. apply Lk. now left.
      * cbn. reflexivity.
    + destruct (visit_list (visit methods) args (k, s)) as [args' [k1 s1]] eqn:E1.
      destruct (list_spec args IH w k s args' k1 s1 E0 B Lk E1) as (c1 & w1 & R1 & N1 & X1 & B1 & L1 & K1).
      eapply (finish (NCall i l f args) (fun j => NCall j l f args') _ args' c1 k s w w1 k1 s1); try exact H; auto; try lia.
      * intros i'. cbn. auto.
      * cbn [kids]. apply (all_is w1); auto; [eapply rewritten_len; eauto|]. intros x Hx. eapply lives_ext; [exact X1|auto].
      * cbn. reflexivity.
    + destruct (visit methods e (k, s)) as [a' [k1 s1]] eqn:E1.
      destruct (IH e (or_introl eq_refl) w k s a' k1 s1 E0 B (Lk e (or_introl eq_refl)) E1) as (c1 & w1 & R1 & N1 & X1 & B1 & L1 & K1).
      eapply (finish (NExp i l e) (fun j => NExp j l a') _ [a'] (c1 ++ []) k s w w1 k1 s1); try exact H; auto; try lia.
      * intros x [<-|[]]; easy.
      * cbn [kids]. constructor; [easy|constructor].
      * rewrite app_nil_r. easy.
      * intros i'. cbn. auto.
      * cbn [kids]. rewrite (is_true w1); auto.
        -- split; [intros ->; easy|intros Q; now injection Q].
        -- eapply lives_ext; [exact X1|]. apply Lk. now left.
      * cbn. exact I.
    + destruct (visit methods a (k, s)) as [a' [k1 s1]] eqn:E1. destruct (visit methods b (k1, s1)) as [b' [k2 s2]] eqn:E2.
      destruct (IH a (or_introl eq_refl) w k s a' k1 s1 E0 B (Lk a (or_introl eq_refl)) E1) as (c1 & w1 & R1 & N1 & X1 & B1 & L1 & K1).
      destruct (IH b (or_intror (or_introl eq_refl)) w1 k1 s1 b' k2 s2) as (c2 & w2 & R2 & N2 & X2 & B2 & L2 & K2); auto.
      { eapply ext_trans; eauto. } { eapply lives_ext; [exact X1|]. apply Lk. right; now left. }
      pose proof (ext_trans _ _ _ X1 X2) as X.
      eapply (finish (NEq i l a b lm cal tags) (fun j => NEq j l a' b' lm cal tags) _ [a'; b'] (c1 ++ c2 ++ []) k s w w2 k2 s2); try exact H; auto; try lia.
      * intros x [<-|[<-|[]]]; [exact (lives_ext _ _ _ X2 L1)|easy].
      * cbn [kids]. constructor; [easy|]. constructor; [easy|constructor].
      * rewrite app_nil_r. eapply ran_app; eauto.
      * intros i'. cbn. repeat split; auto.
      * cbn [kids]. rewrite Bool.andb_true_iff, (is_true w2), (is_true w2); auto.
        -- split; [intros [-> ->]; easy|intros Q; now injection Q].
        -- eapply lives_ext; [exact X|]. apply Lk. right; now left.
        -- exact (lives_ext _ _ _ X2 L1).
        -- eapply lives_ext; [exact X|]. apply Lk. now left.
      * cbn. repeat split; auto.
Qed.
End V.
