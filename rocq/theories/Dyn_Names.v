(* The names in a printed expression are those of its symbols and of functions. *)
From Coq Require Import QArith Qreals Reals.
From Verif Require Import Common Expr_Model Dyn_Model Dyn_Spec Dyn_Proofs Dyn_Print Dyn_Main.
Local Open Scope nat_scope.
Local Open Scope list_scope.

Lemma names_app a b : names_in (a ++ b) = names_in a ++ names_in b.
Proof. induction a as [|[] a IH]; cbn; auto. now rewrite IH. Qed.
Section Names.
Variables (lv : chars -> Q) (isf : chars -> bool) (minus : dx -> bool).
Hypothesis Hsqrt : isf (str "sqrt") = true.
Variable n : chars. Hypothesis Hn : isf n = false.
Notation has_n ts := (In n (names_in ts)).
Lemma has_app a b : has_n (a ++ b) <-> has_n a \/ has_n b.
Proof. rewrite names_app. apply in_app_iff. Qed.
Lemma has_parens e level t : has_n (parens minus e level t) <-> has_n t.
Proof. unfold parens. destruct (Nat.leb _ _); [|tauto]. rewrite !has_app. cbn. tauto. Qed.
Lemma has_num x : ~ has_n (num_toks x).
Proof. destruct x as [p q|neg l]; unfold num_toks; [|destruct neg; cbn; tauto]. destruct (Z.ltb p 0), (Pos.eqb q 1); cbn; tauto. Qed.
Lemma has_sqrt t : has_n (sqrt_toks t) <-> has_n t.
Proof. unfold sqrt_toks. rewrite !has_app. cbn [names_in In]. assert (str "sqrt" <> n) by (intros <-; congruence). tauto. Qed.
Lemma has_pow b tb e te : (match e with DNum _ => ~ has_n te | _ => True end) -> (has_n (pow_toks lv minus b tb e te) <-> has_n tb \/ has_n te).
Proof.
  intro He. unfold pow_toks.
  assert (forall x, equal_valued lv e x = true -> ~ has_n te) as Hv by (intros x; destruct e; cbn; try discriminate; auto).
  destruct (equal_valued lv e (1 # 2)) eqn:E1; [specialize (Hv _ E1); rewrite has_sqrt; tauto|].
  destruct (equal_valued lv e (- (1 # 2))) eqn:E2; [specialize (Hv _ E2); rewrite has_app, has_sqrt; cbn [names_in In]; tauto|].
  destruct (equal_valued lv e (- (1))) eqn:E3; [specialize (Hv _ E3); rewrite has_app, has_parens; cbn [names_in In]; tauto|].
  rewrite !has_app, !has_parens. cbn [names_in In]. tauto.
Qed.
Lemma has_join sep l : names_in [sep] = [] -> (has_n (join sep l) <-> exists t, In t l /\ has_n t).
Proof.
  intro Hs. induction l as [|t l IH]; [cbn; split; [tauto|intros (t & [] & _)]|]. destruct l as [|t' l].
  - cbn [join]. split; [intro H; exists t; now split; [left|]|]. intros (t0 & [-> |[]] & H). exact H.
  - cbn [join]. rewrite !has_app, Hs. rewrite IH. split.
    + intros [H|[[]|(t0 & Hi & H)]]; [exists t; split; [left; reflexivity|exact H]|exists t0; split; [right; exact Hi|exact H]].
    + intros (t0 & [-> |Hi] & H); [now left|right; right; now exists t0].
Qed.
(* what an item of a product contributes *)
Definition has_item (ad : list (list tok) * list (list tok)) : Prop := exists t, In t (fst ad ++ snd ad) /\ has_n t.
Lemma has_num_item level x : ~ has_item (num_item minus level x).
Proof.
  intros (t & Hi & Ht). destruct x as [p q|neg l]; cbn [num_item fst snd app] in Hi.
  - apply in_app_iff in Hi. destruct Hi as [Hi|Hi].
    + destruct (Z.eqb p 1); cbn in Hi; [exact Hi|]. destruct Hi as [<-|[]]. apply has_parens in Ht. unfold num_toks in Ht. destruct (p <? 0)%Z; cbn in Ht; exact Ht.
    + destruct (Pos.eqb q 1); cbn in Hi; [exact Hi|]. destruct Hi as [<-|[]]. cbn in Ht. exact Ht.
  - destruct Hi as [<-|[]]. apply has_parens in Ht. unfold num_toks in Ht. destruct neg; cbn in Ht; exact Ht.
Qed.
Lemma has_one t : has_item ([t], []) <-> has_n t.
Proof. unfold has_item. cbn. split; [intros (t0 & [<-|[]] & H); exact H|]. intro H. exists t. auto. Qed.
Lemma has_one' t : has_item ([], [t]) <-> has_n t.
Proof. unfold has_item. cbn. split; [intros (t0 & [<-|[]] & H); exact H|]. intro H. exists t. auto. Qed.
Lemma has_item_toks level item tb ti : (match item with DPow b ex => (has_n ti <-> has_n tb \/ has_n (print lv minus ex)) | DNum _ => ~ has_n ti | _ => True end) ->
  (has_item (item_toks lv minus level item tb ti) <-> has_n ti).
Proof.
  intro H. assert (has_item ([parens minus item level ti], []) <-> has_n ti) as Hp by (now rewrite has_one, has_parens).
  destruct item as [x|x|b t|l|c l|b ex|f l]; cbn [item_toks]; try exact Hp.
  - pose proof (has_num_item level x). tauto.
  - destruct ex as [[p q|neg l]|x|b' t|l|c l|b' ex|f l]; try exact Hp. destruct (Z.ltb p 0); [|exact Hp].
    cbn [print] in H. pose proof (has_num (Rat p q)) as N. destruct (Z.eqb p (-1) && Pos.eqb q 1)%bool.
    + rewrite has_one'. destruct (is_mul b); rewrite ?has_app, has_parens; cbn [names_in In]; tauto.
    + rewrite has_one', has_parens, has_pow; [|apply has_num]. pose proof (has_num (Rat (- p) q)). tauto.
Qed.
Lemma has_mul level c items : has_n (mul_toks minus level c items) <-> exists it, In it items /\ has_item it.
Proof.
  unfold mul_toks. set (first := match c with Some c => [num_item minus level (if is_neg c then opposite c else c)] | None => [] end).
  set (a := flat_map fst (first ++ items)). set (b := flat_map snd (first ++ items)).
  assert (forall it, In it first -> ~ has_item it) as Hf by (intros it Hi; unfold first in Hi; destruct c as [c|]; [destruct Hi as [<-|[]]; apply has_num_item|destruct Hi]).
  assert (has_n (match c with Some c => if is_neg c then [TkMinus] else [] | None => [] end) <-> False) as Es by (destruct c as [c|]; [destruct (is_neg c)|]; cbn; tauto).
  assert (has_n (join TkTimes (match a with [] => [[TkInt 1]] | _ => a end)) <-> exists t, In t a /\ has_n t) as Ea.
  { destruct a as [|x a']; [cbn; split; [tauto|intros (t & [] & _)]|apply has_join; reflexivity]. }
  assert (has_n (match b with [] => [] | [d] => [TkDiv] ++ d | _ => [TkDiv; TkLP] ++ join TkTimes b ++ [TkRP] end) <-> exists t, In t b /\ has_n t) as Eb.
  { destruct b as [|d [|d' b']]; [cbn; split; [tauto|intros (t & [] & _)]| |].
    - rewrite has_app. cbn [names_in In]. split; [intros [[]|H]; exists d; split; [left; reflexivity|exact H]|]. intros (t & [-> |[]] & H). now right.
    - rewrite !has_app, has_join; [|reflexivity]. cbn [names_in]. cbn [In]. tauto. }
  rewrite !has_app, Es, Ea, Eb. unfold a, b. split.
  - intros [[]|[(t & Hi & Ht)|(t & Hi & Ht)]]; apply in_flat_map in Hi; destruct Hi as (it & Hit & Hi); apply in_app_iff in Hit; exists it;
      (destruct Hit as [Hit|Hit]; [exfalso; apply (Hf it Hit); exists t; split; [apply in_app_iff; auto|exact Ht]|]; split; [exact Hit|exists t; split; [apply in_app_iff; auto|exact Ht]]).
  - intros (it & Hit & t & Hi & Ht). apply in_app_iff in Hi. destruct Hi as [Hi|Hi]; right; [left|right]; exists t; (split; [apply in_flat_map; exists it; split; [apply in_app_iff; auto|exact Hi]|exact Ht]).
Qed.
Lemma has_signed e t : has_n (snd (signed_term e t)) <-> has_n t.
Proof. unfold signed_term. destruct (is_add e); cbn [snd]; [rewrite !has_app; cbn; tauto|]. destruct t as [|[] t]; cbn [snd names_in]; tauto. Qed.
Lemma signed_op e t : fst (signed_term e t) = TkPlus \/ fst (signed_term e t) = TkMinus.
Proof. unfold signed_term. destruct (is_add e); [now left|]. destruct t as [|[] t]; auto. Qed.
Lemma has_add l : (forall st, In st l -> fst st = TkPlus \/ fst st = TkMinus) -> (has_n (add_toks l) <-> exists st, In st l /\ has_n (snd st)).
Proof.
  intro Hop. destruct l as [|[s t] rest]; [cbn; split; [tauto|intros (st & [] & _)]|]. cbn [add_toks]. rewrite !has_app.
  assert (has_n (match s with TkPlus => [] | _ => [s] end) <-> False) as ->. { destruct (Hop (s, t) (or_introl eq_refl)) as [E|E]; cbn in E; rewrite E; cbn; tauto. }
  assert (forall r, (forall st, In st r -> fst st = TkPlus \/ fst st = TkMinus) -> has_n (flat_map (fun st => fst st :: snd st) r) <-> exists st, In st r /\ has_n (snd st)) as Hr.
  { clear. induction r as [|[s t] r IH]; intro Hop; [cbn; split; [tauto|intros (st & [] & _)]|]. cbn [flat_map fst snd].
    assert (has_n (s :: t) <-> has_n t) as E by (destruct (Hop (s, t) (or_introl eq_refl)) as [E|E]; cbn in E; rewrite E; cbn; tauto).
    rewrite has_app, E, IH by (intros st Hi; apply Hop; now right). split.
    - intros [H|(st & Hi & H)]; [exists (s, t); split; [now left|exact H]|exists st; split; [now right|exact H]].
    - intros (st & [<-|Hi] & H); [now left|right; now exists st]. }
  rewrite Hr by (intros st Hi; apply Hop; now right). split.
  - intros [[]|[H|(st & Hi & H)]]; [exists (s, t); split; [now left|exact H]|exists st; split; [now right|exact H]].
  - intros (st & [<-|Hi] & H); right; [now left|right; now exists st].
Qed.
Lemma names_of_list l (f : dx -> list tok) : Forall (fun e => has_n (f e) <-> In n (map file_name (symbols e))) l ->
  ((exists e, In e l /\ has_n (f e)) <-> In n (map file_name (flat_map symbols l))).
Proof.
  intro H. rewrite Forall_forall in H. split.
  - intros (e & Hi & Hh). apply (H e Hi) in Hh. apply in_map_iff in Hh. destruct Hh as (s & Es & Hs). apply in_map_iff. exists s. split; [exact Es|]. apply in_flat_map. now exists e.
  - intro Hh. apply in_map_iff in Hh. destruct Hh as (s & Es & Hs). apply in_flat_map in Hs. destruct Hs as (e & Hi & Hs). exists e. split; [exact Hi|]. apply (H e Hi). apply in_map_iff. now exists s.
Qed.
Lemma names_print e : canonical isf e -> (has_n (print lv minus e) <-> In n (map file_name (symbols e))).
Proof.
  induction e as [x|x|b t|l IH|c l IH|b ex IHb IHe|f l IH] using dx_ind2; intro Hc.
  - cbn [print symbols map In]. pose proof (has_num x). tauto.
  - cbn. tauto.
  - destruct t as [t|]; cbn; [|tauto]. destruct (Z.eqb t 0); [cbn; tauto|]. destruct (Z.ltb 0 t); cbn; tauto.
  - cbn [print symbols]. cbn [canonical] in Hc. destruct Hc as [_ Hc]. apply all_forall in Hc.
    assert (Forall (fun e => has_n (print lv minus e) <-> In n (map file_name (symbols e))) l) as IH' by (rewrite Forall_forall in *; auto).
    rewrite has_add by (intros st Hi; apply in_map_iff in Hi; destruct Hi as (x & <- & _); apply signed_op).
    rewrite <- (names_of_list l _ IH'). split.
    + intros (st & Hi & H). apply in_map_iff in Hi. destruct Hi as (x & <- & Hx). exists x. split; [exact Hx|]. now apply has_signed in H.
    + intros (x & Hx & H). exists (signed_term x (print lv minus x)). split; [apply in_map_iff; now exists x|]. now apply has_signed.
  - cbn [symbols]. cbn [canonical] in Hc. apply all_forall in Hc.
    assert (Forall (fun e => has_n (print lv minus e) <-> In n (map file_name (symbols e))) l) as IH' by (rewrite Forall_forall in *; auto).
    assert (forall level x, canonical isf x -> has_item (item_toks lv minus level x (match x with DPow b _ => print lv minus b | _ => [] end) (print lv minus x)) <-> has_n (print lv minus x)) as Hit.
    { intros level x Hx. apply has_item_toks. destruct x as [y|y|b t|l'|c' l'|b ex|f l']; auto; [apply has_num|]. cbn [print]. apply has_pow. destruct ex; auto. apply has_num. }
    cbn [print]. rewrite has_mul, <- (names_of_list l _ IH'). rewrite Forall_forall in Hc. split.
    + intros (it & Hi & H). apply in_map_iff in Hi. destruct Hi as (x & <- & Hx). exists x. split; [exact Hx|]. now apply Hit in H; [|apply Hc].
    + intros (x & Hx & H). eexists. split; [apply in_map_iff; exists x; split; [reflexivity|exact Hx]|]. apply Hit; [now apply Hc|exact H].
  - cbn [print symbols]. cbn [canonical] in Hc. destruct Hc as (Hb & He & _). rewrite has_pow; [rewrite map_app, in_app_iff, (IHb Hb), (IHe He); tauto|]. destruct ex; auto. apply has_num.
  - cbn [print symbols]. cbn [canonical] in Hc. destruct Hc as (Hf & _ & Hc). apply all_forall in Hc.
    assert (Forall (fun e => has_n (print lv minus e) <-> In n (map file_name (symbols e))) l) as IH' by (rewrite Forall_forall in *; auto).
    rewrite !has_app, has_join by reflexivity. rewrite <- (names_of_list l _ IH'). cbn [names_in In]. assert (f <> n) by (intros ->; congruence). split.
    + intros [[E|[]]|[(t & Hi & H1)|[]]]; [now destruct H|]. apply in_map_iff in Hi. destruct Hi as (x & <- & Hx). now exists x.
    + intros (x & Hx & H1). right. left. exists (print lv minus x). split; [now apply in_map|exact H1].
Qed.
End Names.
