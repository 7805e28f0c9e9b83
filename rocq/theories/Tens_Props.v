(* C144.  The PyTensor view of a model.  Model: Tens_Model.v; vocabulary: Tens_Spec.v. *)
From Verif Require Import Common Conv_Model Conv_Spec Conv_Proofs Conv_Runs Conv_Props Tens_Model Tens_Spec Tens_Proofs.
From Coq Require Import Lia ZArith.

(* In every session of queries, in any order and number, there is one input for every symbol and every answer is right:
   the inputs asked for, and graphs of the equations asked for. *)
Theorem C144_session : forall (V Op : Type) (sem : Op -> list V -> V) cse deriv is_number zero (m : model V Op) h,
  cse_ok sem cse -> wf m (m_sol m) -> Forall (fine_query deriv m) h ->
  exists input : key -> nat,
    (forall k k', ~ is_temp k -> ~ is_temp k' -> input k = input k' -> k = k') /\
    Forall2 (right_reply sem deriv m input) h (fst (session cse deriv is_number zero m h fresh_model)).
Proof.
  intros V Op sem cse deriv is_number zero m h CSE W Q.
  destruct (session_ok sem cse deriv is_number zero CSE m W h fresh_model (linv_fresh sem cse CSE m W) Q) as ((I & _) & _ & R).
  exists (number (ensure_cache cse m (snd (session cse deriv is_number zero m h fresh_model)))). split; [intros; eapply number_inj; eauto|].
  apply R; [exact I|apply kept_refl].
Qed.
Lemma picks_unique {A} (P : A -> Prop) l a b : picks P l a -> picks P l b -> a = b.
Proof. intros H. revert b. induction H; intros c H'; inversion H'; subst; try tauto; f_equal; auto. Qed.
(* the same question gets the same answer, whatever happened in between *)
Theorem C144_repeat : forall (V Op : Type) (sem : Op -> list V -> V) cse deriv is_number zero (m : model V Op) h q i j a b,
  cse_ok sem cse -> wf m (m_sol m) -> Forall (fine_query deriv m) h ->
  match q with SsTensors _ | ParamTensors _ _ _ | EquationTensors _ => True | _ => False end ->
  nth_error h i = Some q -> nth_error h j = Some q ->
  nth_error (fst (session cse deriv is_number zero m h fresh_model)) i = Some a ->
  nth_error (fst (session cse deriv is_number zero m h fresh_model)) j = Some b -> a = b.
Proof.
  intros V Op sem cse deriv is_number zero m h q i j a b CSE W Q Hq Hi Hj Ha Hb.
  destruct (C144_session V Op sem cse deriv is_number zero m h CSE W Q) as (input & _ & R).
  assert (forall i x, nth_error h i = Some q -> nth_error (fst (session cse deriv is_number zero m h fresh_model)) i = Some x -> right_reply sem deriv m input q x) as G.
  { clear - R. induction R; intros [|i] x' E1 E2; cbn in *; try discriminate; [congruence|eauto]. }
  pose proof (G i a Hi Ha) as Ra. pose proof (G j b Hj Hb) as Rb. destruct q as [f|x y z|f|fv|c]; try (destruct Hq; fail).
  - destruct a as [l| |], b as [l'| |]; try (destruct Ra; fail); try (destruct Rb; fail). destruct Ra as (vs & P1 & ->), Rb as (vs' & P2 & ->). now rewrite (picks_unique _ _ _ _ P1 P2).
  - destruct a as [l| |], b as [l'| |]; try (destruct Ra; fail); try (destruct Rb; fail). cbn in Ra, Rb. congruence.
  - destruct (Nat.lt_total i j) as [Lt|[->|Lt]]; [|congruence|].
    + exact (memo_twice cse deriv is_number zero m h f _ i j a b Lt Hi Hj Ha Hb).
    + symmetry. exact (memo_twice cse deriv is_number zero m h f _ j i b a Lt Hj Hi Hb Ha).
Qed.
(* The graphs handed to a solver are closed: when equations speak of variables and parameters, and known values of
   parameters and unknown variables, every input of every equation is one of the unknowns' or of the parameters'. *)
Theorem C144_closed : forall (V Op : Type) (sem : Op -> list V -> V) (m : model V Op) (input : key -> nat) sol l n i,
  (forall o k, In o (equations m) -> mentions o k -> In k (map key_of (all_vars m ++ m_free m ++ map fst (m_det m)))) ->
  (forall s o k, In (s, o) sol -> mentions o k -> (exists v, unknown m sol v /\ key_of v = k) \/ In k (map key_of (m_free m ++ map fst (m_det m)))) ->
  right_equations sem m input sol l -> In n l -> depends i n ->
  exists s, i = input (key_of s) /\ (unknown m sol s \/ In s (m_free m ++ map fst (m_det m))).
Proof.
  intros V Op sem m input sol l n i He Hs R Hn Hd.
  assert (forall o k, In o (equations m) -> speaks (all_vars m) sol o k -> exists s, k = key_of s /\ (unknown m sol s \/ In s (m_free m ++ map fst (m_det m)))) as G.
  { intros o k Ho [[Hk No]|(s & so & Hso & _ & _ & Hk)].
    - apply He in Hk; [|easy]. rewrite map_app in Hk. apply in_app_iff in Hk as [Hk|Hk]; apply in_map_iff in Hk as (s & <- & Hk'); exists s; (split; [easy|]); [|now right]. left. split; [easy|]. intros Q. exact (No s Q Hk' eq_refl).
    - destruct (Hs s so k Hso Hk) as [(v & Hv & <-)|Hp]; [eauto|]. apply in_map_iff in Hp as (p & <- & Hp). eauto. }
  destruct R as [R1 R2]. assert (exists o, In o (equations m) /\ (forall i, depends i n <-> exists k, speaks (all_vars m) sol o k /\ i = input k)) as (o & Ho & D).
  { assert (forall es, Forall2 (computes sem input (all_vars m) sol) l es -> (forall o, In o es -> In o (equations m)) -> exists o, In o (equations m) /\ (forall i, depends i n <-> exists k, speaks (all_vars m) sol o k /\ i = input k)) as X.
    { clear R1 R2. intros es HF. induction HF as [|a b l' es' [_ Hab] HF IH]; intros Hin; [destruct Hn|]. destruct Hn as [->|Hn]; [exists b; split; [apply Hin; now left|exact Hab]|]. apply IH; [easy|]. intros; apply Hin; now right. }
    destruct (existsb (fun p => smem (fst p) (all_vars m)) sol) eqn:Ex.
    - apply existsb_exists in Ex as (p & Hp & E). apply smem_iff in E. destruct R1 as (es & Pk & HF); [exists (fst p); split; [now apply in_map|easy]|]. apply (X es HF). intros o Ho. now apply (picks_in _ _ _ Pk) in Ho.
    - assert (forall k, In k (map fst sol) -> ~ In k (all_vars m)) as No.
      { intros k Hk Ha. apply in_map_iff in Hk as (p & <- & Hp). assert (existsb (fun p => smem (fst p) (all_vars m)) sol = true) as C; [|congruence]. apply existsb_exists. exists p. split; [easy|]. now apply smem_iff. }
      specialize (R2 No). clear R1 X. revert R2. generalize (equations m). intros es HF. induction HF as [|a b l' es' [_ Hab] HF IH]; [destruct Hn|]. destruct Hn as [->|Hn].
      + exists b. split; [now left|]. intros j. rewrite (Hab j). split; intros (k & Hk & ->); exists k; (split; [|easy]).
        * destruct Hk as [[Hk _]|(? & ? & [] & _)]. left. split; [easy|]. intros s Hss Ha. destruct (No s Hss Ha).
        * destruct Hk as [[Hk _]|(s & so & Hso & Ha & _)]; [left; split; [easy|]; intros ? []|]. destruct (No s); [apply in_map_iff; now exists (s, so)|easy].
      + destruct (IH Hn) as (o & Ho & D). exists o. split; [now right|easy]. }
  apply D in Hd as (k & Hk & ->). destruct (G o k Ho Hk) as (s & -> & Q). eauto.
Qed.

(* What is known when values are fixed: the fixed values, and the model's own solutions for all other symbols. *)
Section Merged.
Context {V Op : Type}.
Lemma assign_keys k (v : output V Op) d : NoDup (map fst d) -> NoDup (map fst (assign k v d)) /\ (forall s, In s (map fst (assign k v d)) <-> s = k \/ In s (map fst d)).
Proof.
  induction d as [|[a b] t IH]; cbn [assign map fst In]; intros N; [split; [repeat constructor; easy|intros s; split; [intros [<-|[]]; now left|intros [->|[]]; now left]]|].
  inversion_clear N as [|? ? N1 N2]. destruct (sym_dec k a) as [->|Ne]; cbn [map fst In].
  - split; [constructor; auto|]. intros s. split; [intros [<-|H]; auto|intros [->|[<-|H]]; auto].
  - destruct (IH N2) as [I1 I2]. split; [constructor; [|easy]|].
    + intros Q. apply I2 in Q as [->|Q]; auto.
    + intros s. rewrite I2. split; [intros [<-|[->|H]]; auto|intros [->|[<-|H]]; auto].
Qed.
Lemma assign_in k (v : output V Op) d s o : NoDup (map fst d) -> In (s, o) (assign k v d) <-> (s = k /\ o = v) \/ (s <> k /\ In (s, o) d).
Proof.
  induction d as [|[a b] t IH]; cbn [assign map fst In]; intros N.
  - split; [intros [Q|[]]; injection Q as <- <-; auto|intros [[-> ->]|[_ []]]; auto].
  - inversion_clear N as [|? ? N1 N2]. assert (forall o', ~ In (a, o') t) as Na by (intros o' Q; apply N1, in_map_iff; now exists (a, o')). destruct (sym_dec k a) as [->|Ne]; cbn [In].
    + split.
      * intros [Q|Q]; [injection Q as <- <-; auto|]. right. split; [intros ->; exact (Na o Q)|auto].
      * intros [[-> ->]|[Hn [Q|Q]]]; [auto|injection Q as <- <-; easy|auto].
    + rewrite (IH N2). split.
      * intros [Q|[Q|[Hn Q]]]; [injection Q as <- <-; right; split; [congruence|auto]|auto|auto].
      * intros [[-> ->]|[Hn [Q|Q]]]; auto.
Qed.
End Merged.
Theorem C144_fixed_values : forall (V Op : Type) (m : model V Op) fv k o, NoDup (map fst (m_sol m)) -> NoDup (map fst fv) ->
  NoDup (map fst (merged m fv)) /\
  (In (k, o) (merged m fv) <-> (exists v, In (k, v) fv /\ o = inl v) \/ (~ In k (map fst fv) /\ In (k, o) (m_sol m))).
Proof.
  intros V Op m fv k o N Nf. unfold merged. generalize dependent (m_sol m). induction fv as [|[a b] t IH]; intros d N; cbn [fold_left fst snd].
  - split; [easy|]. split; [intros H; right; split; [intros []|easy]|intros [(v & [] & _)|[_ H]]; easy].
  - cbn [map fst] in Nf. inversion_clear Nf as [|? ? N1 N2]. destruct (assign_keys a (inl b) d N) as [Na _]. destruct (IH N2 _ Na) as [I1 I2]. split; [exact I1|]. rewrite I2, (assign_in a (inl b) d k o N). cbn [map fst In]. split.
    + intros [(v & H & ->)|[H [[-> ->]|[Hn H']]]]; [left; eauto|left; eauto|right; split; [intros [->|]; easy|easy]].
    + intros [(v & [Q|H] & ->)|[H H']].
      * injection Q as -> ->. right. split; [easy|auto].
      * left. eauto.
      * right. split; [tauto|]. right. split; [intros ->; apply H; auto|easy].
Qed.

(* ---- concrete models over the integers ---- *)
Definition Y_ss : sym := Sym (str "Y_ss") CTime 0.
Definition C_ss : sym := Sym (str "C_ss") CTime 0.
Notation plus a b := (App false [a; b]).
Notation times a b := (App true [a; b]).
Definition small : model Z bool :=
  Model [alpha] [(beta, inr (times (Num 2%Z) (Sy alpha)))] [] [Y_ss; C_ss]
    [inr (plus (Sy Y_ss) (plus (Sy C_ss) (Sy beta))); inr (plus (Sy Y_ss) (times (Num (-1)%Z) (Sy alpha)))]
    [(Y_ss, inr (Sy alpha))].
Definition pair_model : model Z bool :=
  Model [alpha] [] [] [Y_ss; C_ss] [inr (plus (Sy Y_ss) (Sy C_ss)); inr (plus (Sy Y_ss) (times (Num (-1)%Z) (Sy C_ss)))] [(Y_ss, inl 0%Z)].
Ltac inv_occ := repeat match goal with
  | H : occurs _ (App _ _) |- _ => inversion H; clear H; subst
  | H : In _ (_ :: _) |- _ => destruct H; subst
  | H : In _ [] |- _ => destruct H
  | H : occurs _ (Sy _) |- _ => inversion H; clear H; subst
  | H : occurs _ (Num _) |- _ => inversion H end.
Lemma alpha_clean : ~ is_temp (key_of alpha). Proof. intros [n H]. discriminate. Qed.
Lemma beta_clean : ~ is_temp (key_of beta). Proof. intros [n H]. discriminate. Qed.
Lemma Y_clean : ~ is_temp (key_of Y_ss). Proof. intros [n H]. discriminate. Qed.
Lemma C_clean : ~ is_temp (key_of C_ss). Proof. intros [n H]. discriminate. Qed.
Lemma small_wf : wf small (m_sol small).
Proof.
  split.
  - intros s [<-|[<-|[]]]; (split; [reflexivity|]); [exact alpha_clean|exact beta_clean].
  - intros s [<-|[<-|[]]]; reflexivity.
  - intros o e Ho ->. cbn in Ho. destruct Ho as [Q|[Q|[Q|[Q|[]]]]]; injection Q as <-; intros x Hx; inv_occ; auto using alpha_clean, beta_clean, Y_clean, C_clean.
  - split; [repeat constructor; easy|]. intros s v [<-|[]] [<-|[<-|[]]] E; [easy|discriminate].
Qed.
Lemma pair_wf : wf pair_model (m_sol pair_model).
Proof.
  split.
  - intros s [<-|[]]; (split; [reflexivity|]); exact alpha_clean.
  - intros s [<-|[<-|[]]]; reflexivity.
  - intros o e Ho ->. cbn in Ho. destruct Ho as [Q|[Q|[Q|[]]]]; try discriminate; injection Q as <-; intros x Hx; inv_occ; auto using alpha_clean, beta_clean, Y_clean, C_clean.
  - split; [repeat constructor; easy|]. intros s v [<-|[]] [<-|[<-|[]]] E; [easy|discriminate].
Qed.
(* The docstring's "keeps the system square" is false: a known value used in two equations leaves both. *)
Theorem C144_square_refuted : ~ (forall m : model Z bool, wf m (m_sol m) -> length (equations m) = length (all_vars m) ->
  forall es vs, fst (session zcse zderiv znum 0%Z m [EquationTensors true; SsTensors true] fresh_model) = [Nodes es; Nodes vs] -> length es = length vs).
Proof.
  intros H. assert (fst (session zcse zderiv znum 0%Z pair_model [EquationTensors true; SsTensors true] fresh_model) =
    [Nodes [Ap false [Const 0%Z; Inp 2 (str "C_ss")]; Ap false [Const 0%Z; Ap true [Const (-1)%Z; Inp 2 (str "C_ss")]]]; Nodes [Inp 2 (str "C_ss")]]) as E by (vm_compute; reflexivity).
  specialize (H pair_model pair_wf eq_refl _ _ E). clear E. discriminate H.
Qed.
Theorem C144_case : wf small (m_sol small) /\ cse_ok zsem zcse /\ wf small (merged small [(C_ss, 5%Z)]) /\
  fst (session zcse zderiv znum 0%Z small [EquationTensors true; ParamTensors true true false; SsTensors true; SsTensors false; EquationTensors true; WithFixed [(C_ss, 5%Z)]] fresh_model) =
  let a := Inp 0 (str "alpha") in let b := Inp 1 (str "beta") in let y := Inp 2 (str "Y_ss") in let c := Inp 3 (str "C_ss") in
  [Nodes [Ap false [a; Ap false [c; b]]]; Nodes [a; b]; Nodes [c]; Nodes [y; c]; Nodes [Ap false [a; Ap false [c; b]]]; Problem [] []].
Proof.
  split; [exact small_wf|]. split; [exact zcse_ok|]. split; [|vm_compute; reflexivity].
  destruct small_wf as [a b c [d' e]]. split; [exact a|exact b| |].
  - intros o e' Ho ->. cbn in Ho. destruct Ho as [Q|[Q|[Q|[Q|[Q|[]]]]]]; try discriminate; injection Q as <-; intros x Hx; inv_occ; auto using alpha_clean, beta_clean, Y_clean, C_clean.
  - split; [repeat constructor; cbn; intuition discriminate|]. intros s v [<-|[<-|[]]] [<-|[<-|[]]] E; (easy || discriminate).
Qed.
