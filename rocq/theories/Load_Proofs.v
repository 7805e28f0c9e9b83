From Verif Require Import Common Expr_Model Expr_RoundTrip Sym_Model Sym_Spec Sym_Proofs SymDict_Model SymDict_More ExpandTime_Spec ExpandTime_Proofs
  Load_Model Load_Spec.
From Verif Require Gcn_Model ExpandTime_Model Block_Model Block_Spec Block_Proofs Block_Solve.
From Coq Require Import Reals Lra Permutation.
Local Open Scope list_scope.

Section P.
Context {F : Type}.
Variables (whole : F -> result (option Z)) (lit : F -> chars).
Notation convert := (convert whole lit).

Definition conv_all : list (expr F) -> result (list sx) :=
  fix all (l : list (expr F)) : result (list sx) :=
    match l with [] => Ok [] | a :: l' => x <- convert a ;; xs <- all l' ;; Ok (x :: xs) end.
Lemma conv_all_map l : conv_all l = map_ok convert l.
Proof. induction l as [|a l IH]; [reflexivity|]. cbn [conv_all map_ok]. now rewrite <- IH. Qed.
Lemma map_ok_F2 {A B} (f : A -> result B) l r : map_ok f l = Ok r <-> Forall2 (fun a b => f a = Ok b) l r.
Proof.
  revert r. induction l as [|a l IH]; intro r; cbn [map_ok].
  - split; [intro H; injection H as <-; constructor|intro H; inversion H; reflexivity].
  - split.
    + destruct (f a) as [x|] eqn:E; [|discriminate]. cbn [bind]. destruct (map_ok f l) as [xs|] eqn:E2; [|discriminate].
      cbn [bind]. intro H. injection H as <-. constructor; [exact E|]. now apply IH.
    + intro H. inversion H; subst. rewrite H2. cbn [bind]. rewrite (proj2 (IH _) H4). reflexivity.
Qed.
Lemma convert_fun f args : convert (Fun f args) = if existsb (chars_eqb f) sympy_functions then xs <- map_ok convert args ;; call f xs else Err ValueError.
Proof. rewrite <- conv_all_map. reflexivity. Qed.
Lemma known_iff f : existsb (chars_eqb f) sympy_functions = true <-> In f sympy_functions.
Proof.
  rewrite existsb_exists. split.
  - intros (g & H & E). apply chars_eqb_eq in E. now subst.
  - intro H. exists f. split; [exact H|apply chars_eqb_refl].
Qed.
Lemma all_Forall (P : expr F -> Prop) args :
  (fix all (l : list (expr F)) : Prop := match l with [] => True | x :: l' => P x /\ all l' end) args <-> Forall P args.
Proof.
  induction args as [|a l IH]; [split; constructor|]. rewrite IH. split; [intros [? ?]; now constructor|intro H; inversion H; auto].
Qed.
Lemma F2_len {A B} (R : A -> B -> Prop) l r : Forall2 R l r -> length l = length r.
Proof. induction 1; cbn; congruence. Qed.

(* ---- acceptance ---- *)
Lemma call_ok f xs : (exists x, call f xs = Ok x) <-> lax_arity f (length xs).
Proof.
  unfold call, lax_arity, arity. destruct xs as [|a [|b [|c xs]]]; cbn [length].
  - split; [intros (x & H); discriminate|intros [[H|[H _]]|[H _]]; discriminate].
  - split; [auto|eauto].
  - destruct (chars_eqb f (str "log")) eqn:E1; [apply chars_eqb_eq in E1; subst; split; eauto|].
    destruct (chars_eqb f (str "sqrt")) eqn:E2; [apply chars_eqb_eq in E2; subst; split; eauto|].
    apply chars_eqb_neq in E1, E2. split; [intros (x & H); discriminate|intros [[H|[_ H]]|[_ H]]; congruence].
  - split; [intros (x & H); discriminate|intros [[H|[H _]]|[H _]]; discriminate].
Qed.
Theorem convert_accepts e : (exists x, convert e = Ok x) <-> usable whole lax_arity e.
Proof.
  induction e as [v|n|n t|a IH|o a b IHa IHb|f args IH|a IH] using expr_ind'.
  - cbn. unfold number. split.
    + intros (x & H). destruct (whole v) as [w|]; [eauto|discriminate].
    + intros (w & H). rewrite H. cbn. eauto.
  - cbn. split; eauto.
  - cbn. destruct t; split; eauto.
  - cbn [Load_Model.convert usable]. rewrite <- IH. split.
    + intros (x & H). destruct (convert a); [eauto|discriminate].
    + intros (x & H). rewrite H. cbn. eauto.
  - cbn [Load_Model.convert usable]. rewrite <- IHa, <- IHb. split.
    + intros (x & H). destruct (convert a); [|discriminate]. cbn [bind] in H. destruct (convert b); [eauto|discriminate].
    + intros ((x & H) & (y & H')). rewrite H, H'. cbn. eauto.
  - rewrite convert_fun. cbn [usable]. rewrite all_Forall, <- known_iff. destruct (existsb (chars_eqb f) sympy_functions).
    2:{ split; [intros (x & H); discriminate|intros [H _]; discriminate]. }
    split.
    + intros (x & H). destruct (map_ok convert args) as [xs|] eqn:E; [|discriminate]. cbn [bind] in H. apply map_ok_F2 in E.
      split; [reflexivity|]. rewrite (F2_len _ _ _ E). split; [apply call_ok; eauto|].
      clear H. induction E as [|a y l r Ha E IHE]; constructor; inversion IH; subst; [apply H1; eauto|auto].
    + intros (_ & Ha & Hu). assert (K : exists xs, map_ok convert args = Ok xs).
      { clear Ha. induction args as [|a l IHl]; [eexists; reflexivity|]. inversion IH; inversion Hu; subst. apply H1 in H5 as (x & Hx).
        destruct (IHl H2 H6) as (xs & Hxs). cbn [map_ok]. rewrite Hx, Hxs. cbn. eauto. }
      destruct K as (xs & E). rewrite E. cbn [bind]. apply call_ok. apply map_ok_F2 in E. now rewrite <- (F2_len _ _ _ E).
  - exact IH.
Qed.
Lemma usable_mono (ar ar' : chars -> nat -> Prop) e : (forall f n, ar f n -> ar' f n) -> usable whole ar e -> usable whole ar' e.
Proof.
  intro Hm. induction e as [v|n|n t|a IH|o a b IHa IHb|f args IH|a IH] using expr_ind'; cbn [usable]; auto.
  - tauto.
  - rewrite !all_Forall. intros (H1 & H2 & H3). split; [exact H1|]. split; [auto|]. clear H2. induction H3; constructor; inversion IH; auto.
Qed.

(* the error of an expression that is refused *)
Theorem convert_errors e x : convert e = Err x -> x = ValueError \/ x = TypeError \/ exists v, whole v = Err x.
Proof.
  induction e as [v|n|n t|a IH|o a b IHa IHb|f args IH|a IH] using expr_ind'.
  - cbn. unfold number. destruct (whole v) eqn:E; [discriminate|]. cbn. intro H. injection H as <-. eauto.
  - discriminate.
  - cbn. destruct t; discriminate.
  - cbn. destruct (convert a); [discriminate|]. cbn. exact IH.
  - cbn [Load_Model.convert]. destruct (convert a); [|exact IHa]. cbn [bind]. destruct (convert b); [discriminate|exact IHb].
  - rewrite convert_fun. destruct (existsb _ _); [|intro H; injection H as <-; auto].
    destruct (map_ok convert args) as [xs|er] eqn:E; cbn [bind].
    + unfold call. destruct xs as [|a [|b [|c xs]]]; try (intro H; try discriminate; injection H as <-; auto; fail).
      destruct (chars_eqb f _); [discriminate|]. destruct (chars_eqb f _); [discriminate|]. intro H; injection H as <-; auto.
    + intro H. injection H as <-. revert E. induction args as [|a l IHl]; [discriminate|]. inversion IH; subst. cbn [map_ok].
      destruct (convert a) as [y|ea] eqn:Ea; cbn [bind]; [|intro H; injection H as ->; auto].
      destruct (map_ok convert l); [discriminate|]. cbn [bind]. intro H. injection H as ->. auto.
  - exact IH.
Qed.

(* ---- atoms ---- *)
Lemma atoms_op o x y s : In s (atoms (apply_op o x y)) <-> In s (atoms x ++ atoms y).
Proof.
  destruct o; cbn [apply_op atoms inv]; try reflexivity. unfold spow.
  destruct (integer_of y) as [z|] eqn:E; [|cbn [atoms]; rewrite !in_app_iff; tauto].
  destruct y as [c| | | |y|]; try discriminate; [|destruct y; try discriminate]; cbn [atoms]; now rewrite app_nil_r.
Qed.
Theorem convert_atoms e x : convert e = Ok x -> usable whole arity e -> forall s, In s (atoms x) <-> In s (written_symbols e).
Proof.
  revert x. induction e as [v|n|n t|a IH|o a b IHa IHb|f args IH|a IH] using expr_ind'; intros x.
  - cbn. unfold number. destruct (whole v) as [[z|]|]; cbn; [| |discriminate]; intro H; injection H as <-; cbn; tauto.
  - cbn. intro H. injection H as <-. cbn. tauto.
  - cbn. destruct t; intro H; injection H as <-; cbn; tauto.
  - cbn [Load_Model.convert usable written_symbols]. destruct (convert a); [|discriminate]. cbn. intro H. injection H as <-. cbn. intro Hu. now apply IH.
  - cbn [Load_Model.convert usable written_symbols]. destruct (convert a) as [xa|]; [|discriminate]. cbn [bind].
    destruct (convert b) as [xb|]; [|discriminate]. cbn [bind]. intro H. injection H as <-. intros [Ha Hb] s.
    rewrite atoms_op, !in_app_iff. rewrite (IHa xa eq_refl Ha s), (IHb xb eq_refl Hb s). tauto.
  - rewrite convert_fun. cbn [usable written_symbols]. rewrite all_Forall. destruct (existsb _ _); [|discriminate].
    destruct (map_ok convert args) as [xs|] eqn:E; [|discriminate]. cbn [bind]. intros Hc (_ & Har & Hu) s.
    apply map_ok_F2 in E. rewrite (F2_len _ _ _ E) in Har.
    assert (K : In s (flat_map atoms xs) <-> In s (flat_map written_symbols args)).
    { clear Hc Har. induction E as [|a y l r Ha E IHE]; [reflexivity|]. inversion IH; inversion Hu; subst. cbn [flat_map].
      rewrite !in_app_iff, (H1 y Ha H5 s), (IHE H2 H6). tauto. }
    rewrite <- K. clear -Hc Har. destruct Har as [Hl|[Hl ->]].
    + destruct xs as [|a [|]]; try discriminate. injection Hc as <-. cbn. now rewrite app_nil_r.
    + destruct xs as [|a [|b [|]]]; try discriminate. injection Hc as <-. cbn. now rewrite app_nil_r.
  - exact (IH x).
Qed.

(* ---- value ---- *)
Local Open Scope R_scope.
Theorem convert_value G I p t e x : usual whole lit G I -> convert e = Ok x -> bases_ok whole I p t e ->
  ev (Ralg G) (at_date I p t) x = den I p t e.
Proof.
  intro HU. revert x. induction e as [v|n|n u|a IH|o a b IHa IHb|f args IH|a IH] using expr_ind'; intros x.
  - cbn. unfold number. destruct (whole v) as [[z|]|] eqn:E; cbn; [| |discriminate]; intro H; injection H as <-; intros _; cbn.
    + symmetry. exact (u_whole _ _ _ _ HU v z E).
    + exact (u_float _ _ _ _ HU v _ E).
  - cbn. intro H. injection H as <-. reflexivity.
  - cbn. destruct u; intro H; injection H as <-; reflexivity.
  - cbn [Load_Model.convert bases_ok]. destruct (convert a) as [y|]; [|discriminate]. cbn [bind]. intro H. injection H as <-. intro Hb.
    cbn [ev Ralg a_neg den]. rewrite (u_neg _ _ _ _ HU). f_equal. now apply IH.
  - cbn [Load_Model.convert bases_ok]. destruct (convert a) as [xa|] eqn:Ea; [|discriminate]. cbn [bind].
    destruct (convert b) as [xb|] eqn:Eb; [|discriminate]. cbn [bind]. intro H. injection H as <-. intros (Ha & Hb & Hp).
    specialize (IHa xa eq_refl Ha). specialize (IHb xb eq_refl Hb). cbn [den]. rewrite <- IHa, <- IHb.
    destruct o; cbn [apply_op ev Ralg a_add a_mul a_neg].
    + now rewrite (u_add _ _ _ _ HU).
    + rewrite (u_sub _ _ _ _ HU). unfold Rminus. reflexivity.
    + now rewrite (u_mul _ _ _ _ HU).
    + rewrite (u_div _ _ _ _ HU). unfold Rdiv. f_equal. cbn [inv ev Ralg a_fn]. exact (u_inv _ _ _ _ HU _).
    + unfold spow. destruct (integer_of xb) as [z|] eqn:Ei.
      * assert (Hz : ev (Ralg G) (at_date I p t) xb = IZR z).
        { destruct xb as [c| | | |y|]; try discriminate.
          - injection Ei as <-. reflexivity.
          - destruct y; try discriminate. injection Ei as <-. cbn. now rewrite opp_IZR. }
        rewrite Hz, (u_int_pow _ _ _ _ HU). reflexivity.
      * destruct (Hp eq_refl) as [Hw|Hpos].
        { exfalso. destruct b as [v| | |y| | |]; try easy.
          - destruct Hw as (z & Hz). cbn in Eb. unfold number in Eb. rewrite Hz in Eb. cbn in Eb. injection Eb as <-. discriminate.
          - destruct y as [v| | | | | |]; try easy. destruct Hw as (z & Hz). cbn in Eb. unfold number in Eb. rewrite Hz in Eb. cbn in Eb.
            injection Eb as <-. discriminate. }
        rewrite <- IHa in Hpos. rewrite (u_pow _ _ _ _ HU _ _ Hpos). reflexivity.
  - rewrite convert_fun. cbn [bases_ok]. rewrite all_Forall. destruct (existsb (chars_eqb f) sympy_functions) eqn:Ek; [|discriminate].
    apply known_iff in Ek. destruct (map_ok convert args) as [xs|] eqn:E; [|discriminate]. cbn [bind]. intros Hc (Hs & Hu).
    apply map_ok_F2 in E. cbn [den].
    assert (K : map (den I p t) args = map (ev (Ralg G) (at_date I p t)) xs).
    { clear Hc Hs. induction E as [|a y l r Ha E IHE]; [reflexivity|]. inversion IH; inversion Hu; subst. cbn [map].
      rewrite (H1 y Ha H5), (IHE H2 H6). reflexivity. }
    rewrite K. rewrite (F2_len _ _ _ E) in Hs. clear -Hc Hs HU Ek. unfold call in Hc. destruct xs as [|a [|b [|]]]; try discriminate.
    + injection Hc as <-. cbn [map]. rewrite (u_fun _ _ _ _ HU f _ Ek). reflexivity.
    + destruct (chars_eqb f (str "log")) eqn:E1.
      * apply chars_eqb_eq in E1. subst f. injection Hc as <-. cbn [map]. rewrite (u_log _ _ _ _ HU).
        cbn [ev Ralg a_mul a_fn inv]. unfold Rdiv. f_equal. exact (u_inv _ _ _ _ HU _).
      * destruct (chars_eqb f (str "sqrt")) eqn:E2; [|discriminate]. apply chars_eqb_eq in E2. now specialize (Hs E2).
  - cbn [Load_Model.convert bases_ok den]. intros Hc Hb. rewrite (u_E _ _ _ _ HU). now apply IH.
Qed.
Lemma at_date_later I p t k s : later k (at_date (F:=F) I p t) s = at_date I p (t + k)%Z s.
Proof. destruct s as [n z|n|n]; cbn; try reflexivity. f_equal. lia. Qed.
Local Close Scope R_scope.
End P.
