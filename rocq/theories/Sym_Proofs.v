From Verif Require Import Common Sym_Model Sym_Spec.
From Coq Require Import Permutation Reals Lra Sorted.
Local Open Scope list_scope.

Lemma sym_eqb_eq a b : sym_eqb a b = true <-> a = b.
Proof. unfold sym_eqb. destruct (sym_eq_dec a b); split; congruence. Qed.
Lemma sym_eqb_refl a : sym_eqb a a = true.
Proof. now apply sym_eqb_eq. Qed.
Lemma sym_eqb_neq a b : sym_eqb a b = false <-> a <> b.
Proof. unfold sym_eqb. destruct (sym_eq_dec a b); split; congruence. Qed.

Lemma smap_ext f g e : (forall s, In s (atoms e) -> f s = g s) -> smap f e = smap g e.
Proof.
  induction e as [z|s|a IHa b IHb|a IHa b IHb|a IH|h k a IH]; intro H; cbn [smap]; try reflexivity.
  - apply H. left. reflexivity.
  - rewrite IHa, IHb; [reflexivity| |]; intros s Hs; apply H; cbn; apply in_or_app; auto.
  - rewrite IHa, IHb; [reflexivity| |]; intros s Hs; apply H; cbn; apply in_or_app; auto.
  - rewrite IH; auto.
  - rewrite IH; auto.
Qed.
Lemma smap_id e : smap Sy e = e.
Proof. induction e; cbn [smap]; congruence. Qed.
Lemma smap_smap f g e : smap f (smap g e) = smap (fun s => smap f (g s)) e.
Proof. induction e; cbn [smap]; congruence. Qed.
Lemma subs1_smap x r e : subs1 x r e = smap (fun s => if sym_eqb s x then r else Sy s) e.
Proof. induction e; cbn [smap subs1]; congruence. Qed.
Lemma subs_fold_smap {A} (key : A -> sym) (val : A -> sx) l : forall e,
  fold_left (fun e a => subs1 (key a) (val a) e) l e =
  smap (fun s => fold_left (fun e a => subs1 (key a) (val a) e) l (Sy s)) e.
Proof.
  induction l as [|a l IH]; intro e; cbn [fold_left].
  - symmetry. apply smap_id.
  - rewrite IH. rewrite subs1_smap, smap_smap. apply smap_ext. intros s _.
    cbn [subs1]. destruct (sym_eqb s (key a)) eqn:E.
    + symmetry. apply IH.
    + reflexivity.
Qed.
Lemma subs_seq_smap d e : subs_seq d e = smap (fun s => subs_seq d (Sy s)) e.
Proof. apply (subs_fold_smap (A := sym * sx) fst snd). Qed.

Lemma atoms_smap f e s : In s (atoms (smap f e)) <-> exists s0, In s0 (atoms e) /\ In s (atoms (f s0)).
Proof.
  induction e as [z|s1|a IHa b IHb|a IHa b IHb|a IH|h k a IH]; cbn [smap atoms].
  - split; [easy|]. intros (? & [] & _).
  - split; [intro H; exists s1; split; [left; reflexivity|exact H]|]. intros (s0 & [<-|[]] & H). exact H.
  - rewrite in_app_iff, IHa, IHb. split.
    + intros [(s0 & H & H')|(s0 & H & H')]; exists s0; rewrite in_app_iff; auto.
    + intros (s0 & H & H'). apply in_app_or in H as [H|H]; [left|right]; eauto.
  - rewrite in_app_iff, IHa, IHb. split.
    + intros [(s0 & H & H')|(s0 & H & H')]; exists s0; rewrite in_app_iff; auto.
    + intros (s0 & H & H'). apply in_app_or in H as [H|H]; [left|right]; eauto.
  - exact IH.
  - exact IH.
Qed.

Lemma ev_smap {V} (A : alg V) env f e : ev A env (smap f e) = ev A (fun s => ev A env (f s)) e.
Proof. induction e; cbn [smap ev]; congruence. Qed.
Lemma ev_ext {V} (A : alg V) env env' e : (forall s, In s (atoms e) -> env s = env' s) -> ev A env e = ev A env' e.
Proof.
  induction e as [z|s|a IHa b IHb|a IHa b IHb|a IH|h k a IH]; intro H; cbn [ev]; try reflexivity.
  - apply H. left. reflexivity.
  - rewrite IHa, IHb; [reflexivity| |]; intros s Hs; apply H; cbn; apply in_or_app; auto.
  - rewrite IHa, IHb; [reflexivity| |]; intros s Hs; apply H; cbn; apply in_or_app; auto.
  - rewrite IH; auto.
  - rewrite IH; auto.
Qed.

Lemma ev_shift {V} (A : alg V) env k e : ev A env (shift k e) = ev A (later k env) e.
Proof. unfold shift. rewrite ev_smap. apply ev_ext. intros s _. destruct s; reflexivity. Qed.

(* ---------- step_equation ---------- *)
Lemma insert_in le s l x : In x (insert le s l) <-> x = s \/ In x l.
Proof.
  induction l as [|y l IH]; cbn [insert].
  - cbn. intuition auto.
  - destruct (le (date s) (date y)); cbn [In]; [|rewrite IH]; intuition auto.
Qed.
Lemma sort_in le l x : In x (sort_by le l) <-> In x l.
Proof. induction l as [|y l IH]; cbn; [easy|]. rewrite insert_in, IH. intuition auto. Qed.
Lemma insert_nodup le s l : NoDup l -> ~ In s l -> NoDup (insert le s l).
Proof.
  induction l as [|y l IH]; cbn; intros Hn Hs; [constructor; auto|].
  destruct (le (date s) (date y)); [constructor; auto|]. inversion Hn; subst. constructor.
  - rewrite insert_in. intuition auto.
  - apply IH; auto.
Qed.
Lemma sort_nodup le l : NoDup l -> NoDup (sort_by le l).
Proof.
  induction 1; cbn; [constructor|]. apply insert_nodup; [assumption|]. intro Hx. apply (sort_in le l x) in Hx. contradiction.
Qed.
Section Sort.
Variable le : Z -> Z -> bool.
Hypothesis le_total : forall a b, le a b = false -> le b a = true.
Hypothesis le_trans : forall a b c, le a b = true -> le b c = true -> le a c = true.
Fixpoint sorted (l : list sym) : Prop :=
  match l with [] => True | x :: l' => (forall y, In y l' -> le (date x) (date y) = true) /\ sorted l' end.
Lemma insert_sorted s l : sorted l -> sorted (insert le s l).
Proof.
  induction l as [|y l IH]; cbn; intro H; [split; [easy|exact I]|].
  destruct H as [H1 H2]. destruct (le (date s) (date y)) eqn:E; cbn.
  - split; [|auto]. intros z [<-|Hz]; [exact E|]. eapply le_trans; eauto.
  - split; [|auto]. intros z Hz. apply insert_in in Hz as [->|Hz]; auto.
Qed.
Lemma sort_sorted l : sorted (sort_by le l).
Proof. induction l; cbn; [exact I|]. now apply insert_sorted. Qed.
End Sort.

(* Sequential renaming along a list in which the new name of an element never reappears later. *)
Lemma run_rename (dt : Z) (le : Z -> Z -> bool) l :
  (forall t, le t (t + dt)%Z = false) -> sorted le l -> NoDup l ->
  (forall s, In s l -> exists b t, s = SDate b t) ->
  forall s, fold_left (fun e v => subs1 v (Sy (step_sym dt v)) e) l (Sy s) =
            if in_dec sym_eq_dec s l then Sy (step_sym dt s) else Sy s.
Proof.
  intros Hlt. induction l as [|v l IH]; intros Hs Hn Hd s; cbn [fold_left].
  - destruct (in_dec sym_eq_dec s []) as [[]|]; reflexivity.
  - destruct Hs as [Hv Hs]. inversion Hn; subst. cbn [subs1].
    destruct (sym_eqb s v) eqn:E.
    + apply sym_eqb_eq in E. subst v. rewrite IH; auto; [|intros; apply Hd; right; assumption].
      destruct (in_dec sym_eq_dec s (s :: l)) as [_|N]; [|exfalso; apply N; left; reflexivity].
      destruct (in_dec sym_eq_dec (step_sym dt s) l) as [Hin|_]; [|reflexivity].
      exfalso. specialize (Hv _ Hin). destruct (Hd s (or_introl eq_refl)) as (b & t & ->). cbn in Hv.
      rewrite Hlt in Hv. discriminate.
    + apply sym_eqb_neq in E. rewrite IH; auto; [|intros; apply Hd; right; assumption].
      destruct (in_dec sym_eq_dec s l) as [Hi|Hi]; destruct (in_dec sym_eq_dec s (v :: l)) as [Hj|Hj]; auto.
      * exfalso. apply Hj. right. exact Hi.
      * destruct Hj as [Hj|Hj]; [congruence|contradiction].
Qed.

Section OrdP.
Variable ord : set_order.
Hypothesis Hord : set_order_ok ord.

Lemma ord_in l x : In x (ord l) <-> In x l.
Proof.
  split; intro H.
  - apply (Permutation_in _ (Hord l)) in H. now apply nodup_In in H.
  - apply (Permutation_in _ (Permutation_sym (Hord l))). now apply nodup_In.
Qed.
Lemma ord_nodup l : NoDup (ord l).
Proof. apply (Permutation_NoDup (Permutation_sym (Hord l))), NoDup_nodup. Qed.

Definition step_gen (dt : Z) (le : Z -> Z -> bool) (eq : sx) : result sx :=
  let to_step := filter time_aware (ord (atoms eq)) in
  if existsb is_ss to_step then Err TypeError
  else Ok (fold_left (fun e v => subs1 v (Sy (step_sym dt v)) e) (sort_by le to_step) eq).

Lemma step_gen_spec dt le eq :
  (forall t, le t (t + dt)%Z = false) ->
  (forall a b, le a b = false -> le b a = true) -> (forall a b c, le a b = true -> le b c = true -> le a c = true) ->
  (no_ss eq -> step_gen dt le eq = Ok (shift dt eq)) /\ (~ no_ss eq -> step_gen dt le eq = Err TypeError).
Proof.
  intros Hlt Htot Htr. unfold step_gen. cbv zeta.
  assert (Hex : existsb is_ss (filter time_aware (ord (atoms eq))) = true <-> exists b, In (SSs b) (atoms eq)).
  { rewrite existsb_exists. split.
    - intros (s & Hs & E). apply filter_In in Hs as [Hs _]. apply (proj1 (ord_in _ _)) in Hs. destruct s; try discriminate. eauto.
    - intros (b & Hb). exists (SSs b). split; [|reflexivity]. apply filter_In. split; [|reflexivity]. now apply ord_in. }
  destruct (existsb is_ss (filter time_aware (ord (atoms eq)))) eqn:E.
  - split; intro H; [|reflexivity]. exfalso. destruct (proj1 Hex eq_refl) as (b & Hb). exact (H b Hb).
  - assert (Hno : forall b, ~ In (SSs b) (atoms eq)).
    { intros b Hb. assert (false = true) by (apply Hex; eauto). discriminate. }
    split; intro H; [|contradiction]. f_equal.
    rewrite (subs_fold_smap (fun v => v) (fun v => Sy (step_sym dt v))). unfold shift. apply smap_ext. intros s Hs.
    rewrite (run_rename dt le); [| exact Hlt | apply sort_sorted; assumption | apply sort_nodup, NoDup_filter, ord_nodup |].
    + destruct (in_dec sym_eq_dec s (sort_by le (filter time_aware (ord (atoms eq))))) as [Hin|Hin].
      * destruct s; reflexivity.
      * destruct s as [n|b t|b]; [reflexivity| |reflexivity]. exfalso. apply Hin. apply sort_in, filter_In.
        split; [now apply ord_in|reflexivity].
    + intros v Hv. apply sort_in, filter_In in Hv as [Hv Ht]. apply (proj1 (ord_in _ _)) in Hv. destruct v as [n|b t|b]; [discriminate|eauto|].
      exfalso. exact (Hno b Hv).
Qed.
Lemma forward_spec eq :
  (no_ss eq -> step_equation_forward ord eq = Ok (shift 1 eq)) /\
  (~ no_ss eq -> step_equation_forward ord eq = Err TypeError).
Proof.
  apply (step_gen_spec 1 (fun a b => Z.leb b a)).
  - intro t. apply Z.leb_gt. lia.
  - intros a b H. apply Z.leb_gt in H. apply Z.leb_le. lia.
  - intros a b c H1 H2. apply Z.leb_le in H1, H2. apply Z.leb_le. lia.
Qed.
Lemma backward_spec eq :
  (no_ss eq -> step_equation_backward ord eq = Ok (shift (-1) eq)) /\
  (~ no_ss eq -> step_equation_backward ord eq = Err TypeError).
Proof.
  apply (step_gen_spec (-1) Z.leb).
  - intro t. apply Z.leb_gt. lia.
  - intros a b H. apply Z.leb_gt in H. apply Z.leb_le. lia.
  - intros a b c H1 H2. apply Z.leb_le in H1, H2. apply Z.leb_le. lia.
Qed.
End OrdP.

Lemma no_ss_dec e : {no_ss e} + {~ no_ss e}.
Proof.
  destruct (existsb is_ss (atoms e)) eqn:E.
  - right. intro H. apply existsb_exists in E as (s & Hs & E). destruct s; try discriminate. exact (H b Hs).
  - left. intros b Hb. assert (existsb is_ss (atoms e) = true) by (apply existsb_exists; exists (SSs b); auto). congruence.
Qed.
Lemma shift_shift j k e : shift j (shift k e) = shift (k + j) e.
Proof.
  unfold shift. rewrite smap_smap. apply smap_ext. intros [n|b t|b] _; cbn; try reflexivity. do 2 f_equal. lia.
Qed.
Lemma shift_0 e : shift 0 e = e.
Proof.
  unfold shift. rewrite <- (smap_id e) at 2. apply smap_ext. intros [n|b t|b] _; cbn; try reflexivity. do 2 f_equal. lia.
Qed.
Lemma shift_no_ss k e : no_ss (shift k e) <-> no_ss e.
Proof.
  unfold no_ss, shift. split; intros H b Hb; apply (H b).
  - apply atoms_smap. exists (SSs b). split; [exact Hb|]. left. reflexivity.
  - apply atoms_smap in Hb as (s & Hs & Hb). destruct s; cbn in Hb; destruct Hb as [Hb|[]]; try discriminate.
    injection Hb as <-. exact Hs.
Qed.
Lemma shift_inj_back e e' : shift 1 e = shift 1 e' -> e = e'.
Proof. intro H. apply (f_equal (shift (-1))) in H. rewrite !shift_shift in H. now rewrite !shift_0 in H. Qed.

(* ---------- diff ---------- *)
Lemma diff_absent x e : ~ In x (atoms e) -> forall V (A : alg V) env,
  (forall v, a_add V A (a_cst V A 0) v = v) -> (forall v, a_mul V A v (a_cst V A 0) = a_cst V A 0) ->
  (forall v, a_mul V A (a_cst V A 0) v = a_cst V A 0) -> a_neg V A (a_cst V A 0) = a_cst V A 0 ->
  ev A env (diff x e) = a_cst V A 0.
Proof.
  intros Hx V A env H1 H2 H3 H4. induction e as [z|s|a IHa b IHb|a IHa b IHb|a IH|h k a IH]; cbn [diff ev atoms] in *.
  - reflexivity.
  - destruct (sym_eqb s x) eqn:E; [|reflexivity]. apply sym_eqb_eq in E. exfalso. apply Hx. left. exact E.
  - rewrite in_app_iff in Hx. rewrite IHa, IHb, H1; auto.
  - rewrite in_app_iff in Hx. rewrite IHa, IHb, H2, H3, H1; auto.
  - now rewrite IH.
  - now rewrite IH, H2.
Qed.

Local Open Scope R_scope.
Section Deriv.
Variable G : smooth.
Notation evr := (ev (Ralg G)).

Lemma derivable_diff env x e y0 : env x = y0 -> defined G env e ->
  derivable_pt_lim (fun y => evr (with_value env x y) e) y0 (evr env (diff x e)).
Proof.
  intros Hy. assert (Henv : forall s, with_value env x y0 s = env s).
  { intro s. unfold with_value. destruct (sym_eqb s x) eqn:E; [|reflexivity]. apply sym_eqb_eq in E. congruence. }
  assert (Hev : forall e, evr (with_value env x y0) e = evr env e).
  { intro e'. apply ev_ext. intros s _. apply Henv. }
  induction e as [z|s|a IHa b IHb|a IHa b IHb|a IH|h k a IH]; intro Hd; cbn [ev diff defined] in *.
  - apply derivable_pt_lim_const.
  - unfold with_value at 1. destruct (sym_eqb s x) eqn:E.
    + cbn. apply derivable_pt_lim_id.
    + cbn. apply derivable_pt_lim_const.
  - cbn [a_add Ralg]. apply (derivable_pt_lim_plus (fun y => evr (with_value env x y) a) (fun y => evr (with_value env x y) b)); tauto.
  - cbn [a_add a_mul Ralg]. rewrite <- (Hev a), <- (Hev b).
    apply (derivable_pt_lim_mult (fun y => evr (with_value env x y) a) (fun y => evr (with_value env x y) b)); tauto.
  - cbn [a_neg Ralg]. apply (derivable_pt_lim_opp (fun y => evr (with_value env x y) a)). auto.
  - destruct Hd as [Hd Hf]. cbn [a_fn a_mul Ralg].
    apply (derivable_pt_lim_comp (fun y => evr (with_value env x y) a) (s_fn G h k)); [auto|].
    rewrite Hev. apply s_der. exact Hf.
Qed.

(* sum of derivatives *)
Lemma derivable_sum (f : nat -> R -> R) (l : nat -> R) x n :
  (forall k, (k <= n)%nat -> derivable_pt_lim (f k) x (l k)) ->
  derivable_pt_lim (fun y => sum_f_R0 (fun k => f k y) n) x (sum_f_R0 l n).
Proof.
  induction n as [|n IH]; intro H; cbn [sum_f_R0].
  - apply H. lia.
  - apply (derivable_pt_lim_plus (fun y => sum_f_R0 (fun k => f k y) n) (f (S n))).
    + apply IH. intros k Hk. apply H. lia.
    + apply H. lia.
Qed.
End Deriv.
Local Close Scope R_scope.
