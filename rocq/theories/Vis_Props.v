(* C142.  Walking and rewriting a syntax tree.  Model: Vis_Model.v; vocabulary: Vis_Spec.v. *)
From Verif Require Import Common Vis_Model Vis_Spec Vis_Proofs.
From Coq Require Import Lia.
Local Open Scope list_scope.

(* A transformer calls its methods on the topmost nodes that have one, from left to right, each on the state the previous
   one left; all other nodes keep class, fields and location, and are new objects exactly when a part of them is. *)
Theorem C142_transform {V T L S} (methods : cls -> option (method V T L S)) (w : world) n k s m k' s' :
  (forall c f, methods c = Some f -> sane f) -> below w k -> lives w n -> visit methods n (k, s) = (m, (k', s')) ->
  exists calls, rewritten (fun c => methods c <> None) (fun x => w (ident x) = Some x) n calls m /\ ran methods calls s s'.
Proof.
  intros Sane B Ln H. destruct (visit_spec methods Sane w n w k s m k' s') as (calls & w' & R & N & _); auto; [now intros i x|]. exists calls. split; [exact R|exact N].
Qed.

Section R.
Context {V T L : Type}.
Variable h : cls -> Prop.
Variable o : node V T L -> Prop.
Scheme rew_ind := Induction for rewritten Sort Prop with rewall_ind := Induction for rewritten_all Sort Prop.
(* So the result is the very object given exactly when every method returned the object it got; in particular a
   transformer that replaces nothing returns its argument. *)
Theorem C142_unchanged n calls m : rewritten h o n calls m -> m = n <-> forall x y, In (x, y) calls -> y = x.
Proof.
  intros R. induction R using rew_ind with
    (P := fun n calls m _ => m = n <-> forall x y, In (x, y) calls -> y = x)
    (P0 := fun ns calls ms _ => ms = ns <-> forall x y, In (x, y) calls -> y = x).
  - split; [intros -> x y [Q|[]]; now injection Q as <- <-|]. intros H. apply H. now left.
  - rewrite i. exact IHR.
  - easy.
  - split.
    + intros Q. injection Q as Q1 Q2. intros x y Hin. apply in_app_iff in Hin as [Hin|Hin]; [now apply IHR|now apply IHR0].
    + intros H. f_equal; [apply IHR|apply IHR0]; intros x y Hin; apply H, in_app_iff; auto.
Qed.
(* every call was on a part of the tree whose class has a method, and below no other such part *)
Theorem C142_calls n calls m x y : rewritten h o n calls m -> In (x, y) calls -> h (class_of x) /\ sub x n.
Proof.
  intros R. revert x y. induction R using rew_ind with
    (P := fun n calls m _ => forall x y, In (x, y) calls -> h (class_of x) /\ sub x n)
    (P0 := fun ns calls ms _ => forall x y, In (x, y) calls -> h (class_of x) /\ exists k, In k ns /\ sub x k); intros x y Hin.
  - destruct Hin as [Q|[]]. injection Q as <- <-. split; [easy|constructor].
  - apply IHR in Hin as (H1 & k & Hk & Hs). split; [easy|]. econstructor; eauto.
  - destruct Hin.
  - apply in_app_iff in Hin as [Hin|Hin].
    + apply IHR in Hin as (H1 & H2). split; [easy|]. exists n. split; [now left|easy].
    + apply IHR0 in Hin as (H1 & k & Hk & Hs). split; [easy|]. exists k. split; [now right|easy].
Qed.
End R.

(* ---- collecting ---- *)
Section C.
Context {V T L : Type}.
Variable V_dec : forall a b : V, {a = b} + {a <> b}.
Variable T_eqb : list T -> list T -> bool.
Hypothesis T_eqb_iff : forall a b, T_eqb a b = true <-> (forall x, In x a <-> In x b).
Variable wanted : cls -> bool.
Notation node := (node V T L).
Notation eqb := (node_eqb V T L V_dec T_eqb).
Notation collect := (collect_nodes_of_type V T L V_dec T_eqb wanted).

Lemma op_eqb_iff a b : op_eqb a b = true <-> a = b.
Proof. destruct a, b; cbn; split; congruence. Qed.
Lemma opt_eqb_iff a b : opt_eqb a b = true <-> a = b.
Proof. destruct a, b; cbn; split; try congruence; intros H; [apply chars_eqb_eq in H; congruence|injection H as ->; apply chars_eqb_refl]. Qed.
Lemma time_eqb_iff a b : time_eqb a b = true <-> a = b.
Proof. destruct a, b; cbn; split; try congruence; intros H; [apply Z.eqb_eq in H; congruence|injection H as ->; apply Z.eqb_refl]. Qed.
Lemma list_eqb_iff (l : list node) : (forall x, In x l -> forall b, eqb x b = true <-> alike x b) -> forall r, list_eqb V T L eqb l r = true <-> Forall2 alike l r.
Proof.
  induction l as [|x t IH]; intros H [|y u]; cbn [list_eqb]; split; try discriminate; try (intros Q; now inversion Q); try constructor.
  - apply Bool.andb_true_iff in H0 as [H1 _]. apply H; [now left|easy].
  - apply Bool.andb_true_iff in H0 as [_ H2]. apply IH; [|easy]. intros z Hz. apply H. now right.
  - intros Q. inversion Q; subst. apply Bool.andb_true_iff. split; [apply H; [now left|easy]|apply IH; [intros z Hz; apply H; now right|easy]].
Qed.
Lemma alike_iff (a b : node) : alike a b <-> fields a b /\ Forall2 alike (kids a) (kids b).
Proof. split; [intros H; now inversion H|intros []; now constructor]. Qed.
Lemma F2_one {A} (R : A -> A -> Prop) x y : Forall2 R [x] [y] <-> R x y.
Proof. split; [intros H; now inversion H|intros; constructor; auto]. Qed.
Lemma F2_two {A} (R : A -> A -> Prop) x y x' y' : Forall2 R [x; x'] [y; y'] <-> R x y /\ R x' y'.
Proof. split; [intros H; inversion H as [|? ? ? ? H1 H2]; inversion H2; now subst|intros []; constructor; auto]. Qed.
Lemma eqb_iff : forall a b : node, eqb a b = true <-> alike a b.
Proof.
  apply (node_parts (fun a => forall b, eqb a b = true <-> alike a b)). intros a IH b. rewrite alike_iff.
  destruct a as [i l v|i l v|i l v t|i l x o y|i l o e|i l f args|i l e|i l x y lm cal tags],
           b as [i' l' v'|i' l' v'|i' l' v' t'|i' l' x' o' y'|i' l' o' e'|i' l' f' args'|i' l' e'|i' l' x' y' lm' cal' tags'];
    cbn [node_eqb fields kids] in *; try (split; [discriminate|now intros []]).
  - destruct (V_dec v v'); split; try congruence; [repeat constructor; auto|now intros []].
  - rewrite chars_eqb_eq. split; [intros ->; repeat constructor|now intros []].
  - rewrite Bool.andb_true_iff, chars_eqb_eq, time_eqb_iff. split; [intros [-> ->]; repeat constructor|now intros [[] _]].
  - rewrite !Bool.andb_true_iff, op_eqb_iff, F2_two, (IH x (or_introl eq_refl)), (IH y (or_intror (or_introl eq_refl))). tauto.
  - rewrite !Bool.andb_true_iff, op_eqb_iff, F2_one, (IH e (or_introl eq_refl)). tauto.
  - rewrite Bool.andb_true_iff, chars_eqb_eq, (list_eqb_iff args IH). tauto.
  - rewrite F2_one, (IH e (or_introl eq_refl)). tauto.
  - rewrite !Bool.andb_true_iff, !opt_eqb_iff, T_eqb_iff, F2_two, (IH x (or_introl eq_refl)), (IH y (or_intror (or_introl eq_refl))). tauto.
Qed.
Lemma alike_refl : forall a : node, alike a a.
Proof.
  apply node_parts. intros a IH. constructor; [destruct a; cbn; auto; repeat split; auto|]. induction (kids a) as [|x t IHt]; constructor; [apply IH; now left|apply IHt; intros; apply IH; now right].
Qed.
Lemma alike_sym : forall a b : node, alike a b -> alike b a.
Proof.
  apply (node_parts (fun a => forall b, alike a b -> alike b a)). intros a IH b H. inversion H as [? ? F K]; subst. constructor.
  - destruct a, b; cbn in *; try easy; firstorder congruence.
  - clear F H. induction K; constructor; [apply IH; [now left|easy]|apply IHK; intros; apply IH; [now right|easy]].
Qed.
Lemma alike_trans : forall a b c : node, alike a b -> alike b c -> alike a c.
Proof.
  apply (node_parts (fun a => forall b c, alike a b -> alike b c -> alike a c)). intros a IH b c H1 H2. inversion H1 as [? ? F1 K1]; inversion H2 as [? ? F2 K2]; subst. constructor.
  - destruct a, b, c; cbn in *; try easy; try congruence; try (destruct F1 as [F1 F1'], F2 as [F2 F2']; split; [congruence|]); try congruence. destruct F1' as [? E1], F2' as [? E2]. split; [congruence|]. intros z. rewrite E1. apply E2.
  - clear F1 F2 H1 H2. revert IH K1 K2. generalize (kids a) (kids b) (kids c). intros l1 l2 l3 IH K1. revert l3. induction K1; intros l3 K2; inversion K2; subst; constructor.
    + eapply IH; [now left|eassumption|easy].
    + apply IHK1; [intros; eapply IH; [now right|eassumption|easy]|easy].
Qed.

(* the parts of a tree in the order a reader meets them *)
Fixpoint preorder (n : node) : list node :=
  n :: match n with
       | NBin _ _ a _ b => preorder a ++ preorder b | NUn _ _ _ e => preorder e
       | NCall _ _ _ l => flat_map preorder l | NExp _ _ e => preorder e | NEq _ _ a b _ _ _ => preorder a ++ preorder b
       | _ => [] end.
Lemma preorder_kids (n : node) : preorder n = n :: flat_map preorder (kids n).
Proof. destruct n; cbn; rewrite ?app_nil_r; reflexivity. Qed.
Lemma preorder_sub : forall n x : node, In x (preorder n) <-> sub x n.
Proof.
  apply (node_parts (fun n => forall x, In x (preorder n) <-> sub x n)). intros n IH x. rewrite preorder_kids. cbn [In]. rewrite in_flat_map. split.
  - intros [->|(k & Hk & Hx)]; [constructor|]. apply (sub_kid _ _ k Hk). now apply IH.
  - intros H. inversion H as [|? k Hk Hs]; subst; [now left|]. right. exists k. split; [easy|]. now apply IH.
Qed.
Definition pick (s : list node) (x : node) : list node := if wanted (class_of x) then add V T L V_dec T_eqb x s else s.
Lemma visit_fold : forall (n : node) s, collect_visit V T L V_dec T_eqb wanted n s = fold_left pick (preorder n) s.
Proof.
  apply (node_parts (fun n => forall s, collect_visit V T L V_dec T_eqb wanted n s = fold_left pick (preorder n) s)). intros n IH s.
  rewrite preorder_kids. cbn [fold_left]. change (pick s n) with (if wanted (class_of n) then add V T L V_dec T_eqb n s else s).
  destruct n as [i l v|i l v|i l v t|i l a o b|i l o e|i l f args|i l e|i l a b lm cal tags]; cbn [collect_visit kids flat_map] in *; rewrite ?app_nil_r; try reflexivity.
  - rewrite fold_left_app, <- (IH a (or_introl eq_refl)), <- (IH b (or_intror (or_introl eq_refl))). reflexivity.
  - rewrite <- (IH e (or_introl eq_refl)). reflexivity.
  - generalize (if wanted (class_of (NCall i l f args)) then add V T L V_dec T_eqb (NCall i l f args) s else s). induction args as [|x t IHt]; intros s'; [reflexivity|].
    cbn [flat_map]. rewrite fold_left_app, <- (IH x) by now left. apply IHt. intros k Hk. apply IH. now right.
  - rewrite <- (IH e (or_introl eq_refl)). reflexivity.
  - rewrite fold_left_app, <- (IH a (or_introl eq_refl)), <- (IH b (or_intror (or_introl eq_refl))). reflexivity.
Qed.

(* [s] is what collecting the nodes [l] gives: the first of each, in order *)
Definition distinct (s : list node) : Prop := ForallOrdPairs (fun a b => ~ alike a b) s.
Lemma existsb_alike s (x : node) : existsb (fun y => eqb y x) s = true <-> exists y, In y s /\ alike y x.
Proof. rewrite existsb_exists. split; intros (y & Hy & E); exists y; (split; [easy|]); now apply eqb_iff. Qed.
Lemma fop_snoc (s : list node) x : distinct s -> (forall y, In y s -> ~ alike y x) -> distinct (s ++ [x]).
Proof.
  induction s as [|a t IH]; intros D H; cbn [app]; [repeat constructor|]. inversion D; subst. constructor.
  - apply Forall_app. split; [easy|]. constructor; [apply H; now left|constructor].
  - apply IH; [easy|]. intros y Hy. apply H. now right.
Qed.
Lemma fold_spec l : forall s, distinct s ->
  let r := fold_left pick l s in
  distinct r /\
  (forall x, In x r <-> In x s \/ exists a b, l = a ++ x :: b /\ wanted (class_of x) = true /\ (forall y, In y s -> ~ alike y x) /\
                                       forall y, In y a -> wanted (class_of y) = true -> ~ alike y x).
Proof.
  induction l as [|z l IH]; intros s D; cbn [fold_left].
  - split; [easy|]. intros x. split; [now left|]. intros [H|(a & b & E & _)]; [easy|]. destruct a; discriminate.
  - unfold pick at 2 4. destruct (wanted (class_of z)) eqn:W.
    + unfold add. destruct (existsb (fun y => eqb y z) s) eqn:Ex.
      * apply existsb_alike in Ex as (y0 & Hy0 & A0). destruct (IH s D) as (I1 & I2). split; [easy|]. intros x. rewrite I2. split; (intros [H|(a & b & E & Hw & Hs & Ha)]; [now left|right]).
        -- exists (z :: a), b. split; [cbn; now f_equal|]. split; [easy|]. split; [easy|]. intros y [<-|Hy]; [|auto]. intros _ Q. apply (Hs y0 Hy0). eapply alike_trans; eauto.
        -- destruct a as [|z' a]; cbn in E; injection E as -> E; [destruct (Hs y0 Hy0 A0)|]. exists a, b. split; [easy|]. split; [easy|]. split; [easy|]. intros y Hy. apply Ha. now right.
      * assert (forall y, In y s -> ~ alike y z) as Nz. { intros y Hy Q. assert (existsb (fun y => eqb y z) s = true) as C by (apply existsb_alike; eauto). congruence. }
        destruct (IH (s ++ [z]) (fop_snoc _ _ D Nz)) as (I1 & I2). split; [easy|]. intros x. rewrite I2, in_app_iff. split.
        -- intros [[H|[->|[]]]|(a & b & E & Hw & Hs & Ha)]; [now left|right|right].
           ++ exists [], l. repeat split; auto.
           ++ exists (z :: a), b. split; [cbn; now f_equal|]. split; [easy|]. split; [intros; apply Hs, in_app_iff; now left|]. intros y [<-|Hy]; [|auto]. intros _. apply Hs, in_app_iff. right. now left.
        -- intros [H|(a & b & E & Hw & Hs & Ha)]; [left; now left|]. destruct a as [|z' a]; cbn in E; injection E as -> E; [left; right; now left|right].
           exists a, b. split; [easy|]. split; [easy|]. split; [|intros y Hy; apply Ha; now right]. intros y Hy. apply in_app_iff in Hy as [Hy|[<-|[]]]; [auto|]. apply Ha; [now left|easy].
    + destruct (IH s D) as (I1 & I2). split; [easy|]. intros x. rewrite I2. split; (intros [H|(a & b & E & Hw & Hs & Ha)]; [now left|right]).
      * exists (z :: a), b. split; [cbn; now f_equal|]. split; [easy|]. split; [easy|]. intros y [<-|Hy]; [congruence|auto].
      * destruct a as [|z' a]; cbn in E; injection E as -> E; [congruence|]. exists a, b. split; [easy|]. split; [easy|]. split; [easy|]. intros y Hy. apply Ha. now right.
Qed.
(* What is collected: of all parts of the wanted class that are equal as syntax, exactly the one written first (so the
   location of the first); nothing else. *)
Theorem C142_collect n : distinct (collect n) /\
  (forall x, In x (collect n) <-> exists a b, preorder n = a ++ x :: b /\ wanted (class_of x) = true /\
                                       forall y, In y a -> wanted (class_of y) = true -> ~ alike y x) /\
  (forall x, sub x n -> wanted (class_of x) = true -> exists y, In y (collect n) /\ alike y x) /\
  (forall x, In x (collect n) -> sub x n /\ wanted (class_of x) = true).
Proof.
  unfold collect_nodes_of_type. rewrite visit_fold. destruct (fold_spec (preorder n) [] ltac:(constructor)) as (D & I). set (r := fold_left pick (preorder n) []) in *. clearbody r.
  assert (forall x, In x r <-> exists a b, preorder n = a ++ x :: b /\ wanted (class_of x) = true /\ forall y, In y a -> wanted (class_of y) = true -> ~ alike y x) as I'.
  { intros x. rewrite I. split; [intros [[]|(a & b & E & Hw & _ & Ha)]; eauto|]. intros (a & b & E & Hw & Ha). right. exists a, b. repeat split; auto. }
  split; [easy|]. split; [easy|]. split.
  - intros x Hx Hw. apply preorder_sub in Hx. apply in_split in Hx as (a & b & E). clear I.
    (* the first part alike to x in a ++ [x] *)
    assert (exists a1 y b1, a ++ [x] = a1 ++ y :: b1 /\ wanted (class_of y) = true /\ alike y x /\ forall z, In z a1 -> wanted (class_of z) = true -> ~ alike z x) as (a1 & y & b1 & E1 & Wy & Ay & F).
    { clear E. induction a as [|z a IH]; [exists [], x, []; refine (conj eq_refl (conj Hw (conj (alike_refl x) _))); intros ? []|].
      destruct (wanted (class_of z)) eqn:Wz; [destruct (eqb z x) eqn:Ez|].
      - apply eqb_iff in Ez. exists [], z, (a ++ [x]). refine (conj eq_refl (conj Wz (conj Ez _))). intros ? [].
      - destruct IH as (a1 & y & b1 & E1 & Wy & Ay & F). exists (z :: a1), y, b1. split; [cbn; now f_equal|]. split; [easy|]. split; [easy|]. intros z' [<-|Hz] W' Q; [apply eqb_iff in Q; congruence|now apply (F z')].
      - destruct IH as (a1 & y & b1 & E1 & Wy & Ay & F). exists (z :: a1), y, b1. split; [cbn; now f_equal|]. split; [easy|]. split; [easy|]. intros z' [<-|Hz] W' Q; [congruence|now apply (F z')]. }
    exists y. split; [|easy]. apply I'. exists a1, (b1 ++ b). split; [|split; [easy|]].
    + rewrite E. change (a ++ x :: b) with (a ++ ([x] ++ b)). rewrite app_assoc, E1, <- app_assoc. reflexivity.
    + intros z Hz Wz Q. apply (F z Hz Wz). eapply alike_trans; eauto.
  - intros x Hx. apply I' in Hx as (a & b & E & Hw & _). split; [|easy]. apply preorder_sub. rewrite E. apply in_app_iff. right. now left.
Qed.
End C.

(* ---- a concrete transformer: the renamer of the documentation, with a counter of the variables it met ---- *)
Definition renamer (c : cls) : option (method nat nat nat nat) :=
  match c with
  | CVariable => Some (fun n st => match n with
                     | NVar i l v t => if chars_eqb v (str "x") then (NVar (fst st) l (str "z") t, (S (fst st), S (snd st))) else (n, (fst st, S (snd st)))
                     | _ => (n, st) end)
  | _ => None
  end.
Definition tree : node nat nat nat :=
  NEq 7 (Some 1) (NVar 0 None (str "y") (Some 0%Z))
      (NBin 6 (Some 2) (NCall 3 None (str "log") [NVar 1 None (str "x") (Some 1%Z); NPar 2 None (str "a")]) ADD
            (NUn 5 None NEG (NVar 4 (Some 9) (str "y") (Some 0%Z)))) None None [].
Theorem C142_case : (forall c f, renamer c = Some f -> sane f) /\
  (let '(m, (k, s)) := visit renamer tree (8, 0) in
   k = 12 /\ s = 3 /\
   m = NEq 11 (Some 1) (NVar 0 None (str "y") (Some 0%Z))
         (NBin 10 (Some 2) (NCall 9 None (str "log") [NVar 8 None (str "z") (Some 1%Z); NPar 2 None (str "a")]) ADD
            (NUn 5 None NEG (NVar 4 (Some 9) (str "y") (Some 0%Z)))) None None []) /\
  (exists w : world (V:=nat) (T:=nat) (L:=nat), below w 8 /\ lives w tree) /\
  collect_nodes_of_type nat nat nat Nat.eq_dec (fun a b => true) (fun c => cls_eqb c CVariable) tree =
    [NVar 0 None (str "y") (Some 0%Z); NVar 1 None (str "x") (Some 1%Z)].
Proof.
  split; [|split; [vm_compute; auto|split; [|reflexivity]]].
  - intros [] f H; cbn in H; try discriminate. injection H as <-. intros w n k s B Ln.
    assert (exists w', extends w w' /\ below w' k /\ lives w' n /\ k <= k) as Same by (exists w; repeat split; auto; now intros i x).
    destruct n as [| |i l v t| | | | |]; cbn [fst snd]; try exact Same. match goal with |- context [if ?b then _ else _] => destruct b end; cbn [fst snd]; [|exact Same].
    exists (fun j => if Nat.eqb j k then Some (NVar k l (str "z") t) else w j). split; [|split; [|split; [|lia]]].
    + intros j x Hx. destruct (Nat.eqb_spec j k) as [->|]; [|easy]. rewrite (B k (Nat.le_refl k)) in Hx. discriminate.
    + intros j Hj. destruct (Nat.eqb_spec j k); [lia|]. apply B. lia.
    + apply lives_iff. cbn [ident kids]. rewrite Nat.eqb_refl. split; [easy|]. intros ? [].
  - exists (fun i => find (fun x => Nat.eqb (ident x) i) (preorder tree)). split.
    + intros i Hi. do 8 (destruct i as [|i]; [lia|]). reflexivity.
    + intros x Hx. apply preorder_sub in Hx. cbn in Hx. repeat (destruct Hx as [<-|Hx]; [reflexivity|]). destruct Hx.
Qed.
