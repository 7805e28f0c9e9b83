(* Correctness of the expression parser against the declarative grammar, and the print/parse round trip. *)
From Verif Require Import Common Expr_Model Expr_Spec Expr_Lex.
Local Open Scope list_scope.

Section Parser.
Context {F : Type} (fread : chars -> F).
Notation p_expr := (p_expr fread). Notation p_loop := (p_loop fread). Notation p_args := (p_args fread).
Notation Text := (Text fread). Notation Texts := (Texts fread).

Lemma p_expr_S fuel l s : p_expr (S fuel) l s =

    match l with
    | LAdd | LMul | LPow =>
        match p_expr fuel (tighter l) s with
        | POk a r => p_loop fuel l a r
        | x => x
        end
    | LUn =>
        match lit "-" s with
        | Some r =>
            match p_expr fuel LUn r with
            | POk a r' => POk (Neg a) r'
            | PFail => p_expr fuel LAtom s
            | x => x
            end
        | None => p_expr fuel LAtom s
        end
    | LAtom =>
        match p_expectation_open s with
        | Some r =>
            match p_expr fuel LAdd r with
            | POk a r' => match lit "]" r' with Some r'' => POk (Expec a) r'' | None => PFatal end
            | PFail => PFatal
            | x => x
            end
        | None =>
        match p_func_open s with
        | Some (f, r) =>
            match lit ")" r with
            | Some _ => PFatal                     
            | None =>
              match p_args fuel r with
              | POk args r' => match lit ")" r' with Some r'' => POk (Fun f args) r'' | None => PFatal end
              | PFail => PFatal
              | PFatal => PFatal
              | POut => POut
              end
            end
        | None =>
        match p_variable s with
        | Some (e, r) => POk e r
        | None =>
        if p_invalid_time_index s then PFatal else
        match p_number s with
        | Some (t, r) => POk (Num (fread t)) r
        | None =>
        match p_parameter s with
        | Some (e, r) => POk e r
        | None =>
        match lit "(" s with
        | Some r =>
            match p_expr fuel LAdd r with
            | POk a r' => match lit ")" r' with Some r'' => POk a r'' | None => PFatal end
            | PFail => PFatal
            | x => x
            end
        | None => PFail
        end end end end end end
    end.
Proof. reflexivity. Qed.
Lemma p_loop_S fuel l acc s : p_loop (S fuel) l acc s =

    match p_op l s with
    | Some (o, r) =>
        match p_expr fuel (match l with LPow => LPow | _ => tighter l end) r with
        | POk b r' => p_loop fuel l (Bin o acc b) r'
        | PFail => POk acc s
        | x => x
        end
    | None => POk acc s
    end.
Proof. reflexivity. Qed.
Lemma p_args_S fuel s : p_args (S fuel) s =

    match p_expr fuel LAdd s with
    | POk a r =>
        match lit "," r with
        | Some r' =>
            match p_args fuel r' with
            | POk l r'' => POk (a :: l) r''
            | PFail => POk [a] r
            | PFatal => PFatal
            | POut => POut
            end
        | None => POk [a] r
        end
    | PFail => PFail
    | PFatal => PFatal
    | POut => POut
    end.
Proof. reflexivity. Qed.
(* ---- more fuel never changes an answer ---- *)
Lemma fuel_mono_all f :
  (forall l s x, p_expr f l s = x -> x <> POut -> p_expr (S f) l s = x) /\
  (forall l a s x, p_loop f l a s = x -> x <> POut -> p_loop (S f) l a s = x) /\
  (forall s x, p_args f s = x -> x <> POut -> p_args (S f) s = x).
Proof.
  induction f as [|f (IHe & IHl & IHa)]; [repeat split; intros; cbn in *; congruence|].
  remember (S f) as g eqn:Eg.
  repeat split.
  - intros l s x H Hx. rewrite Eg in H. destruct l; rewrite ?p_expr_S, ?p_loop_S, ?p_args_S in H |- *; cbn [tighter] in H |- *.
    + destruct (p_expr f LMul s) eqn:E; try congruence; rewrite (IHe _ _ _ E) by congruence; try exact H; apply IHl; assumption.
    + destruct (p_expr f LPow s) eqn:E; try congruence; rewrite (IHe _ _ _ E) by congruence; try exact H; apply IHl; assumption.
    + destruct (p_expr f LUn s) eqn:E; try congruence; rewrite (IHe _ _ _ E) by congruence; try exact H; apply IHl; assumption.
    + destruct (lit "-" s) as [r|].
      * destruct (p_expr f LUn r) eqn:E; try congruence; rewrite (IHe _ _ _ E) by congruence; try exact H.
        apply IHe; assumption.
      * apply IHe; assumption.
    + destruct (p_expectation_open s) as [r|].
      { destruct (p_expr f LAdd r) eqn:E; try congruence; rewrite (IHe _ _ _ E) by congruence; exact H. }
      destruct (p_func_open s) as [[n r]|].
      { destruct (lit ")" r); [exact H|].
        destruct (p_args f r) eqn:E; try congruence; rewrite (IHa _ _ E) by congruence; exact H. }
      destruct (p_variable s) as [[e r]|]; [exact H|].
      destruct (p_invalid_time_index s); [exact H|].
      destruct (p_number s) as [[e r]|]; [exact H|].
      destruct (p_parameter s) as [[e r]|]; [exact H|].
      destruct (lit "(" s) as [r|]; [|exact H].
      destruct (p_expr f LAdd r) eqn:E; try congruence; rewrite (IHe _ _ _ E) by congruence; exact H.
  - intros l a s x H Hx. rewrite Eg in H. rewrite ?p_expr_S, ?p_loop_S, ?p_args_S in H |- *.
    destruct (p_op l s) as [[o r]|]; [|exact H].
    match type of H with context [p_expr f ?l r] => destruct (p_expr f l r) eqn:E end; try congruence;
      rewrite (IHe _ _ _ E) by congruence; try exact H.
    apply IHl; assumption.
  - intros s x H Hx. rewrite Eg in H. rewrite ?p_expr_S, ?p_loop_S, ?p_args_S in H |- *.
    destruct (p_expr f LAdd s) eqn:E; try congruence; rewrite (IHe _ _ _ E) by congruence; try exact H.
    destruct (lit "," rest) as [r'|]; [|exact H].
    destruct (p_args f r') eqn:E2; try congruence; rewrite (IHa _ _ E2) by congruence; exact H.
Qed.
Lemma fuel_mono f g l s : f <= g -> p_expr f l s <> POut -> p_expr g l s = p_expr f l s.
Proof.
  intros Hle H. induction Hle as [|g Hle IH]; [reflexivity|].
  apply (fuel_mono_all g); [exact IH|exact H].
Qed.
Lemma fuel_mono_loop f g l a s : f <= g -> p_loop f l a s <> POut -> p_loop g l a s = p_loop f l a s.
Proof.
  intros Hle H. induction Hle as [|g Hle IH]; [reflexivity|].
  apply (fuel_mono_all g); [exact IH|exact H].
Qed.
Lemma fuel_mono_args f g s : f <= g -> p_args f s <> POut -> p_args g s = p_args f s.
Proof.
  intros Hle H. induction Hle as [|g Hle IH]; [reflexivity|].
  apply (fuel_mono_all g); [exact IH|exact H].
Qed.

(* ---- a power level consumes the whole chain ---- *)
Lemma loop_stops : forall f l a s e r, p_loop f l a s = POk e r ->
  p_op l r = None \/
  exists o r1 f1, f1 < f /\ p_op l r = Some (o, r1) /\
     p_expr f1 (match l with LPow => LPow | _ => tighter l end) r1 = PFail.
Proof.
  induction f as [|f IH]; [discriminate|]. intros l a s e r H. rewrite ?p_expr_S, ?p_loop_S, ?p_args_S in H.
  destruct (p_op l s) as [[o r0]|] eqn:Eo.
  - match type of H with context [p_expr f ?l r0] => destruct (p_expr f l r0) eqn:E end; try discriminate.
    + apply IH in H as [H|(o' & r1 & f1 & Hlt & H)]; [left; exact H|]. right. exists o', r1, f1. split; [lia|exact H].
    + injection H as <- <-. right. exists o, r0, f. auto.
  - injection H as <- <-. left. exact Eo.
Qed.
Lemma pow_stops f s e r g a x : p_expr f LPow s = POk e r -> f <= g ->
  p_loop (S g) LPow a r = x -> x = POk a r.
Proof.
  intros H Hle Hx. destruct f as [|f]; [discriminate|]. rewrite ?p_expr_S, ?p_loop_S, ?p_args_S in H; cbn [tighter] in H.
  destruct (p_expr f LUn s) eqn:E; try discriminate.
  apply loop_stops in H as [H|(o & r1 & f1 & Hlt & Ho & H)]; rewrite ?p_expr_S, ?p_loop_S, ?p_args_S in Hx.
  - rewrite H in Hx. congruence.
  - rewrite Ho in Hx. rewrite (fuel_mono f1 g) in Hx by (try lia; rewrite H; discriminate). rewrite H in Hx. congruence.
Qed.

Lemma p_op_sound l s o r : p_op l s = Some (o, r) -> exists w t, s = w ++ t ++ r /\ ws w /\ op_text o t /\ op_lvl o = l.
Proof.
  destruct l; cbn [p_op]; try discriminate.
  - destruct (lit "+" s) as [r0|] eqn:E.
    + intro H; injection H as <- <-. apply lit_sound in E as (w & -> & Hw). exists w, (str "+"). repeat split; auto. constructor.
    + destruct (lit "-" s) as [r0|] eqn:E2; [|discriminate]. intro H; injection H as <- <-.
      apply lit_sound in E2 as (w & -> & Hw). exists w, (str "-"). repeat split; auto. constructor.
  - destruct (lit "*" s) as [r0|] eqn:E.
    + intro H; injection H as <- <-. apply lit_sound in E as (w & -> & Hw). exists w, (str "*"). repeat split; auto. constructor.
    + destruct (lit "/" s) as [r0|] eqn:E2; [|discriminate]. intro H; injection H as <- <-.
      apply lit_sound in E2 as (w & -> & Hw). exists w, (str "/"). repeat split; auto. constructor.
  - destruct (lit "**" s) as [r0|] eqn:E.
    + intro H; injection H as <- <-. apply lit_sound in E as (w & -> & Hw). exists w, (str "**"). repeat split; auto. constructor.
    + destruct (lit "^" s) as [r0|] eqn:E2; [|discriminate]. intro H; injection H as <- <-.
      apply lit_sound in E2 as (w & -> & Hw). exists w, (str "^"). repeat split; auto. constructor.
Qed.

(* ---- soundness: whatever is accepted is a text of the result ---- *)
Lemma sound_all f :
  (forall l s e r, p_expr f l s = POk e r -> exists s1, s = s1 ++ r /\ Text l e s1) /\
  (forall l a s e r s0, p_loop f l a s = POk e r ->
      match l with
      | LAdd | LMul => Text l a s0 -> exists s1, s = s1 ++ r /\ Text l e (s0 ++ s1)
      | LPow => Text LUn a s0 -> exists s1, s = s1 ++ r /\ Text LPow e (s0 ++ s1)
      | _ => True
      end) /\
  (forall s l r, p_args f s = POk l r -> exists s1, s = s1 ++ r /\ Texts l s1).
Proof.
  induction f as [|f (IHe & IHl & IHa)]; [repeat split; intros; discriminate|].
  repeat split.
  - intros l s e r H. destruct l; rewrite ?p_expr_S, ?p_loop_S, ?p_args_S in H; cbn [tighter] in H.
    + destruct (p_expr f LMul s) eqn:E; try discriminate. apply IHe in E as (s1 & -> & Ht).
      apply (IHl _ _ _ _ _ s1) in H. cbn in H. destruct H as (s2 & -> & H2); [apply T_up; [discriminate|exact Ht]|].
      exists (s1 ++ s2). rewrite app_assoc. auto.
    + destruct (p_expr f LPow s) eqn:E; try discriminate. apply IHe in E as (s1 & -> & Ht).
      apply (IHl _ _ _ _ _ s1) in H. cbn in H. destruct H as (s2 & -> & H2); [apply T_up; [discriminate|exact Ht]|].
      exists (s1 ++ s2). rewrite app_assoc. auto.
    + destruct (p_expr f LUn s) eqn:E; try discriminate. apply IHe in E as (s1 & -> & Ht).
      apply (IHl _ _ _ _ _ s1) in H. cbn in H. destruct H as (s2 & -> & H2); [exact Ht|].
      exists (s1 ++ s2). rewrite app_assoc. auto.
    + destruct (lit "-" s) as [r0|] eqn:El.
      * destruct (p_expr f LUn r0) eqn:E; try discriminate.
        -- injection H as <- <-. apply lit_sound in El as (w & -> & Hw). apply IHe in E as (s1 & -> & Ht).
           exists (w ++ str "-" ++ s1). split; [rewrite <- !app_assoc; reflexivity|]. apply T_neg; assumption.
        -- apply IHe in H as (s1 & -> & Ht). exists s1. split; [reflexivity|]. apply T_up; [discriminate|exact Ht].
      * apply IHe in H as (s1 & -> & Ht). exists s1. split; [reflexivity|]. apply T_up; [discriminate|exact Ht].
    + destruct (p_expectation_open s) as [r0|] eqn:Ex.
      { destruct (p_expr f LAdd r0) as [a r1| | |] eqn:E; try discriminate.
        destruct (lit "]" r1) as [r2|] eqn:El; [|discriminate]. injection H as <- <-.
        apply lit_sound in Ex as (w & -> & Hw). apply IHe in E as (s1 & -> & Ht).
        apply lit_sound in El as (w2 & -> & Hw2).
        exists (w ++ str "E[][" ++ s1 ++ w2 ++ str "]"). split; [rewrite <- !app_assoc; reflexivity|].
        apply T_expec; assumption. }
      destruct (p_func_open s) as [[n r0]|] eqn:Ef.
      { destruct (lit ")" r0); [discriminate|].
        destruct (p_args f r0) as [a r1| | |] eqn:E; try discriminate.
        destruct (lit ")" r1) as [r2|] eqn:El; [|discriminate]. injection H as <- <-.
        unfold p_func_open in Ef. destruct (p_ident s) as [[n' r']|] eqn:Ei; [|discriminate].
        destruct (lit "(" r') as [r''|] eqn:Elp; [|discriminate]. injection Ef as -> ->.
        apply p_ident_sound in Ei as (w & -> & Hw & Hn & _). apply lit_sound in Elp as (w1 & -> & Hw1).
        apply IHa in E as (s1 & -> & Ht). apply lit_sound in El as (w2 & -> & Hw2).
        exists (w ++ n ++ w1 ++ str "(" ++ s1 ++ w2 ++ str ")"). split; [rewrite <- !app_assoc; reflexivity|].
        apply T_fun; assumption. }
      destruct (p_variable s) as [[e0 r0]|] eqn:Ev.
      { injection H as <- <-. unfold p_variable in Ev. destruct (p_ident s) as [[n' r']|] eqn:Ei; [|discriminate].
        destruct (p_time_index r') as [[t r'']|] eqn:Et; [|discriminate]. injection Ev as <- ->.
        apply p_ident_sound in Ei as (w & -> & Hw & Hn & _). apply p_time_index_sound in Et as (w1 & ti & -> & Hw1 & Ht).
        exists (w ++ n' ++ w1 ++ str "[" ++ ti ++ str "]"). split; [rewrite <- !app_assoc; reflexivity|].
        apply T_var; assumption. }
      destruct (p_invalid_time_index s); [discriminate|].
      destruct (p_number s) as [[t r0]|] eqn:En.
      { injection H as <- <-. apply p_number_sound in En as (w & -> & Hw & Ht). exists (w ++ t).
        split; [rewrite <- !app_assoc; reflexivity|]. apply T_num; assumption. }
      destruct (p_parameter s) as [[e0 r0]|] eqn:Ep.
      { injection H as <- <-. unfold p_parameter in Ep. destruct (p_ident s) as [[n' r']|] eqn:Ei; [|discriminate].
        destruct (lit "[" r'); [discriminate|]. destruct (lit "(" r'); [discriminate|]. injection Ep as <- ->.
        apply p_ident_sound in Ei as (w & -> & Hw & Hn & _). exists (w ++ n'). split; [rewrite <- !app_assoc; reflexivity|].
        apply T_par; assumption. }
      destruct (lit "(" s) as [r0|] eqn:Elp; [|discriminate].
      destruct (p_expr f LAdd r0) as [a r1| | |] eqn:E; try discriminate.
      destruct (lit ")" r1) as [r2|] eqn:El; [|discriminate]. injection H as <- <-.
      apply lit_sound in Elp as (w & -> & Hw). apply IHe in E as (s1 & -> & Ht). apply lit_sound in El as (w2 & -> & Hw2).
      exists (w ++ str "(" ++ s1 ++ w2 ++ str ")"). split; [rewrite <- !app_assoc; reflexivity|].
      apply T_paren; assumption.
  - intros l a s e r s0 H. destruct l; try exact I; intro Ht; rewrite ?p_expr_S, ?p_loop_S, ?p_args_S in H.
    1,2: destruct (p_op _ s) as [[o r0]|] eqn:Eo;
      [|injection H as <- <-; exists []; rewrite app_nil_r; auto];
      cbn [tighter] in H;
      match type of H with context [Expr_Model.p_expr _ ?f0 ?l0 ?x0] => destruct (p_expr f0 l0 x0) eqn:E end; try discriminate;
      [|injection H as <- <-; exists []; rewrite app_nil_r; auto];
      apply p_op_sound in Eo as (w & t & -> & Hw & Hot & Hol);
      apply IHe in E as (s1 & -> & Hb);
      apply (IHl _ _ _ _ _ (s0 ++ w ++ t ++ s1)) in H; cbn in H;
      (destruct H as (s2 & -> & H2);
       [rewrite <- Hol; apply T_bin; try assumption; destruct o; try discriminate Hol; assumption|]);
      exists (w ++ t ++ s1 ++ s2); split; [rewrite <- !app_assoc; reflexivity|];
      rewrite <- !app_assoc in H2; exact H2.
    destruct (p_op LPow s) as [[o r0]|] eqn:Eo;
      [|injection H as <- <-; exists []; rewrite app_nil_r; split; [reflexivity|apply T_up; [discriminate|exact Ht]]].
    destruct (p_expr f LPow r0) eqn:E; try discriminate;
      [|injection H as <- <-; exists []; rewrite app_nil_r; split; [reflexivity|apply T_up; [discriminate|exact Ht]]].
    assert (Hst : p_loop f LPow (Bin o a a0) rest = POk (Bin o a a0) rest).
    { rewrite <- (fuel_mono_loop f (S f)) by (try lia; rewrite H; discriminate).
      eapply pow_stops; [exact E| |reflexivity]. lia. }
    rewrite Hst in H. injection H as <- <-.
    apply p_op_sound in Eo as (w & t & -> & Hw & Hot & Hol). apply IHe in E as (s1 & -> & Hb).
    exists (w ++ t ++ s1). split; [rewrite <- !app_assoc; reflexivity|].
    destruct o; try discriminate Hol. apply (T_bin fread POW); assumption.
  - intros s l r H. rewrite ?p_expr_S, ?p_loop_S, ?p_args_S in H. destruct (p_expr f LAdd s) as [a r1| | |] eqn:E; try discriminate.
    apply IHe in E as (s1 & -> & Ht).
    destruct (lit "," r1) as [r2|] eqn:El.
    + destruct (p_args f r2) as [l2 r3| | |] eqn:E2; try discriminate; injection H as <- <-.
      * apply IHa in E2 as (s2 & -> & Ht2). apply lit_sound in El as (w & -> & Hw).
        exists (s1 ++ w ++ str "," ++ s2). split; [rewrite <- !app_assoc; reflexivity|]. apply Ts_cons; assumption.
      * exists s1. split; [reflexivity|]. apply Ts_one; exact Ht.
    + injection H as <- <-. exists s1. split; [reflexivity|]. apply Ts_one; exact Ht.
Qed.

(* ---- what a text starts with ---- *)
Definition start_char (c : ascii) : Prop :=
  is_idc c = true \/ c = "."%char \/ c = "("%char \/ c = "-"%char.
Definition starts (l : lvl) (s : chars) : Prop :=
  exists w c r, s = w ++ c :: r /\ ws w /\ start_char c /\ (l = LAtom -> c <> "-"%char).
Lemma starts_app l s t : starts l s -> starts l (s ++ t).
Proof. intros (w & c & r & -> & H). exists w, c, (r ++ t). split; [rewrite <- app_assoc; reflexivity|exact H]. Qed.
Lemma ident_head n : ident n -> exists c r, n = c :: r /\ is_id0 c = true.
Proof. destruct n as [|c r]; cbn; [tauto|]. intros [H _]. eauto. Qed.
Lemma start_ident w n s l : ws w -> ident n -> starts l (w ++ n ++ s).
Proof.
  intros Hw Hn. destruct (ident_head n Hn) as (c & r & -> & Hc). exists w, c, (r ++ s).
  split; [reflexivity|]. split; [exact Hw|]. split; [left; apply id0_idc, Hc|].
  intros _ ->. discriminate Hc.
Qed.
Lemma starts_weaken s : starts LAtom s -> forall l, starts l s.
Proof. intros (w & c & r & -> & Hw & Hc & Hn) l. exists w, c, r. repeat split; auto. Qed.
Lemma text_starts : (forall l e s, Text l e s -> starts l s) /\ (forall es s, Texts es s -> starts LAdd s).
Proof.
  apply Text_Texts_ind.
  - intros w t Hw Ht. destruct (numlit_head t Ht) as (c & r & -> & Hc). exists w, c, r.
    split; [reflexivity|]. split; [exact Hw|]. split.
    + destruct Hc as [Hc| ->]; [left; apply digit_idc, Hc|right; left; reflexivity].
    + intros _ ->. destruct Hc as [Hc|Hc]; discriminate Hc.
  - intros w n Hw Hn. rewrite <- (app_nil_r n). apply start_ident; assumption.
  - intros. apply start_ident; assumption.
  - intros. apply start_ident; assumption.
  - intros w e s w2 Hw _ _ _. exists w, "E"%char, (str "[][" ++ s ++ w2 ++ str "]").
    split; [reflexivity|]. split; [exact Hw|]. split; [left; reflexivity|discriminate].
  - intros w e s w2 Hw _ _ _. exists w, "("%char, (s ++ w2 ++ str ")").
    split; [reflexivity|]. split; [exact Hw|]. split; [right; right; left; reflexivity|discriminate].
  - intros w e s Hw _ _. exists w, "-"%char, s.
    split; [reflexivity|]. split; [exact Hw|]. split; [right; right; right; reflexivity|discriminate].
  - intros o a b s1 w t s2 _ IH1 _ _ _ _. apply starts_app with (t := w ++ t ++ s2) in IH1.
    destruct IH1 as (v & c & r & -> & Hv & Hc & Hn). exists v, c, r. repeat split; auto; destruct o; discriminate.
  - intros l e s Hl _ IH. destruct IH as (v & c & r & -> & Hv & Hc & Hn). exists v, c, r. repeat split; auto; congruence.
  - intros e s _ IH. exact IH.
  - intros e s w es ss _ IH _ _ _. apply starts_app. exact IH.
Qed.
Lemma text_nonempty l e s : Text l e s -> s <> [].
Proof. intros H. apply (proj1 text_starts) in H as (w & c & r & -> & _). destruct w; discriminate. Qed.
Lemma texts_nonempty es s : Texts es s -> s <> [].
Proof. intros H. apply (proj2 text_starts) in H as (w & c & r & -> & _). destruct w; discriminate. Qed.

(* ---- termination: the fuel used by parse_expression always suffices ---- *)
Definition rank (l : lvl) : nat := match l with LAdd => 4 | LMul => 3 | LPow => 2 | LUn => 1 | LAtom => 0 end.
Lemma p_expr_consumes f l s e r : p_expr f l s = POk e r -> length r < length s.
Proof.
  intro H. apply (proj1 (sound_all f)) in H as (s1 & -> & Ht). apply text_nonempty in Ht.
  rewrite app_length. destruct s1; [congruence|cbn; lia].
Qed.
Lemma lit_consumes w0 s r : tok w0 -> lit w0 s = Some r -> length r < length s.
Proof.
  intros Ht H. apply lit_sound in H as (v & -> & _). rewrite !app_length. unfold tok in Ht.
  destruct (str w0); [contradiction|cbn; lia].
Qed.
Lemma p_op_consumes l s o r : p_op l s = Some (o, r) -> length r < length s.
Proof.
  intro H. apply p_op_sound in H as (w & t & -> & _ & Ht & _). rewrite !app_length. destruct Ht; cbn; lia.
Qed.
Lemma p_func_open_consumes s n r : p_func_open s = Some (n, r) -> length r < length s.
Proof.
  unfold p_func_open. destruct (p_ident s) as [[n' r']|] eqn:Ei; [|discriminate].
  destruct (lit "(" r') as [r''|] eqn:El; [|discriminate]. intro H; injection H as <- <-.
  apply p_ident_sound in Ei as (w & -> & _ & Hn & _). apply lit_consumes in El; [|reflexivity].
  rewrite !app_length. lia.
Qed.
Lemma no_out f :
  (forall l s, 8 * length s + rank l + 1 <= f -> p_expr f l s <> POut) /\
  (forall l a s, 8 * length s + 1 <= f -> p_loop f l a s <> POut) /\
  (forall s, 8 * length s + 6 <= f -> p_args f s <> POut).
Proof.
  induction f as [|f (IHe & IHl & IHa)]; [repeat split; intros; lia|].
  assert (IHe' : forall l (r s : chars), length r < length s -> 8 * length s <= f -> p_expr f l r <> POut).
  { intros l r s Hlt Hle. apply IHe. assert (rank l <= 4) by (destruct l; cbn; lia). lia. }
  repeat split.
  - intros l s H. destruct l; rewrite ?p_expr_S, ?p_loop_S, ?p_args_S.
    1,2,3: cbn [tighter rank] in *;
      match goal with |- context [Expr_Model.p_expr _ ?f0 ?l0 ?s0] =>
        pose proof (IHe l0 s0 ltac:(cbn [rank]; lia)) as Hne; destruct (p_expr f0 l0 s0) eqn:E; try congruence;
        apply p_expr_consumes in E; apply IHl; lia end.
    + cbn [rank] in H. destruct (lit "-" s) as [r|] eqn:El.
      * apply lit_consumes in El; [|reflexivity].
        pose proof (IHe' LUn r s El ltac:(lia)) as Hne.
        destruct (p_expr f LUn r); try congruence. apply IHe. cbn. lia.
      * apply IHe. cbn. lia.
    + cbn [rank] in H. destruct (p_expectation_open s) as [r|] eqn:Ex.
      { apply lit_consumes in Ex; [|reflexivity]. pose proof (IHe' LAdd r s Ex ltac:(lia)) as Hne.
        destruct (p_expr f LAdd r); try congruence. destruct (lit "]" rest); congruence. }
      destruct (p_func_open s) as [[n r]|] eqn:Ef.
      { apply p_func_open_consumes in Ef. destruct (lit ")" r); [congruence|].
        pose proof (IHa r ltac:(lia)) as Hne. destruct (p_args f r); try congruence. destruct (lit ")" rest); congruence. }
      destruct (p_variable s) as [[e r]|]; [congruence|].
      destruct (p_invalid_time_index s); [congruence|].
      destruct (p_number s) as [[e r]|]; [congruence|].
      destruct (p_parameter s) as [[e r]|]; [congruence|].
      destruct (lit "(" s) as [r|] eqn:El; [|congruence].
      apply lit_consumes in El; [|reflexivity]. pose proof (IHe' LAdd r s El ltac:(lia)) as Hne.
      destruct (p_expr f LAdd r); try congruence. destruct (lit ")" rest); congruence.
  - intros l a s H. rewrite ?p_expr_S, ?p_loop_S, ?p_args_S. destruct (p_op l s) as [[o r]|] eqn:Eo; [|congruence].
    apply p_op_consumes in Eo.
    match goal with |- context [p_expr f ?l r] => pose proof (IHe' l r s Eo ltac:(lia)) as Hne; destruct (p_expr f l r) eqn:E end; try congruence.
    apply p_expr_consumes in E. apply IHl. lia.
  - intros s H. rewrite ?p_expr_S, ?p_loop_S, ?p_args_S. pose proof (IHe LAdd s ltac:(cbn; lia)) as Hne.
    destruct (p_expr f LAdd s) eqn:E; try congruence. apply p_expr_consumes in E.
    destruct (lit "," rest) as [r'|] eqn:El; [|congruence]. apply lit_consumes in El; [|reflexivity].
    pose proof (IHa r' ltac:(lia)) as Hne2. destruct (p_args f r'); congruence.
Qed.
Lemma parse_total s : parse_expression fread s <> Err RecursionError.
Proof.
  unfold parse_expression. pose proof (proj1 (no_out (enough_fuel s)) LAdd s) as H.
  destruct (p_expr (enough_fuel s) LAdd s) as [e r| | |]; try discriminate.
  - destruct (skip r); discriminate.
  - exfalso. apply H; [unfold enough_fuel; cbn [rank]; lia|reflexivity].
Qed.

(* ---- completeness ---- *)
Definition ev (l : lvl) (s : chars) (x : pres (expr F)) : Prop :=
  x <> POut /\ exists f0, forall f, f0 <= f -> p_expr f l s = x.
Definition ev_loop (l : lvl) (a : expr F) (s : chars) (x : pres (expr F)) : Prop :=
  x <> POut /\ exists f0, forall f, f0 <= f -> p_loop f l a s = x.
Definition ev_args (s : chars) (x : pres (list (expr F))) : Prop :=
  x <> POut /\ exists f0, forall f, f0 <= f -> p_args f s = x.

(* Which characters may follow a text of level l (after blanks). *)
Definition follow_ok (l : lvl) (s : chars) : bool :=
  match skip s with
  | [] => true
  | c :: r =>
      (negb (is_idc c) && negb (Ascii.eqb c ".") && negb (Ascii.eqb c "[") && negb (Ascii.eqb c "(") &&
       match l with
       | LAtom | LUn => true
       | LPow => negb (Ascii.eqb c "^") && negb (Ascii.eqb c "*" && match r with d :: _ => Ascii.eqb d "*" | [] => false end)
       | LMul => negb (Ascii.eqb c "^") && negb (Ascii.eqb c "*") && negb (Ascii.eqb c "/")
       | LAdd => negb (Ascii.eqb c "^") && negb (Ascii.eqb c "*") && negb (Ascii.eqb c "/")
                 && negb (Ascii.eqb c "+") && negb (Ascii.eqb c "-")
       end)%bool
  end.
Lemma follow_tighter l s : follow_ok l s = true -> follow_ok (tighter l) s = true.
Proof.
  unfold follow_ok. destruct (skip s) as [|c r]; [reflexivity|]. 
  destruct (negb (is_idc c)), (negb (c =? ".")%char), (negb (c =? "[")%char), (negb (c =? "(")%char); try discriminate; cbn [andb].
  destruct l; cbn; try reflexivity; try tauto.
  - intro H. repeat (apply andb_true_iff in H as [H ?]). rewrite H. 
    repeat match goal with E : negb _ = true |- _ => rewrite E; clear E end. reflexivity.
  - intro H. repeat (apply andb_true_iff in H as [H ?]). rewrite H. 
    repeat match goal with E : negb _ = true |- _ => apply negb_true_iff in E; rewrite ?E; clear E end. reflexivity.
Qed.
Lemma follow_base l s c r : follow_ok l s = true -> skip s = c :: r ->
  is_idc c = false /\ c <> "."%char /\ c <> "["%char /\ c <> "("%char.
Proof.
  unfold follow_ok. intros H E. rewrite E in H. repeat (apply andb_true_iff in H as [H ?]).
  repeat match goal with E : negb _ = true |- _ => apply negb_true_iff in E end.
  repeat split; auto; intros ->; cbn in *; discriminate.
Qed.
Lemma follow_head_nidc l s : follow_ok l s = true -> head_not_idc s.
Proof.
  intros H c r ->. destruct (is_ws c) eqn:E.
  - destruct (is_idc c) eqn:Ei; [|reflexivity]. apply idc_not_ws in Ei. congruence.
  - eapply (follow_base l (c :: r)); [exact H|]. cbn. rewrite E. reflexivity.
Qed.
Lemma follow_wod l s : follow_ok l s = true -> word_or_dot s = false.
Proof.
  intros H. destruct s as [|c r]; [reflexivity|]. cbn. pose proof (follow_head_nidc _ _ H c r eq_refl) as Hc. rewrite Hc. cbn.
  destruct (Ascii.eqb_spec c ".") as [->|]; [|reflexivity].
  exfalso. destruct (follow_base l ("."%char :: r) _ _ H eq_refl) as (_ & Hx & _). congruence.
Qed.
Lemma follow_lit l s (w0 : string) c0 w1 : follow_ok l s = true -> str w0 = c0 :: w1 ->
  c0 = "["%char \/ c0 = "("%char -> lit w0 s = None.
Proof.
  intros H E Hc. destruct (skip s) as [|c r] eqn:Es.
  - eapply lit_nil; eauto.
  - destruct (follow_base l s c r H Es) as (_ & _ & H1 & H2).
    eapply lit_head_neq; eauto. destruct Hc; congruence.
Qed.
Lemma follow_no_op l s : (l = LAdd \/ l = LMul \/ l = LPow) -> follow_ok l s = true -> p_op l s = None.
Proof.
  intros Hl H. unfold p_op, lit. unfold follow_ok in H. destruct (skip s) as [|c r] eqn:E.
  - destruct Hl as [->|[->| ->]]; reflexivity.
  - apply andb_true_iff in H as [_ H].
    destruct Hl as [->|[->| ->]]; cbn [str list_ascii_of_string eat].
    + repeat (apply andb_true_iff in H as [H ?]). repeat match goal with E : negb _ = true |- _ => apply negb_true_iff in E end.
      rewrite (Ascii.eqb_sym "+" c), (Ascii.eqb_sym "-" c). repeat match goal with E : _ = false |- _ => rewrite E; clear E end. reflexivity.
    + repeat (apply andb_true_iff in H as [H ?]). repeat match goal with E : negb _ = true |- _ => apply negb_true_iff in E end.
      rewrite (Ascii.eqb_sym "*" c), (Ascii.eqb_sym "/" c). repeat match goal with E : _ = false |- _ => rewrite E; clear E end. reflexivity.
    + apply andb_true_iff in H as [H1 H2]. apply negb_true_iff in H1, H2.
      rewrite (Ascii.eqb_sym "^" c), H1. rewrite (Ascii.eqb_sym "*" c).
      destruct (c =? "*")%char; [|reflexivity]. cbn in H2. destruct r as [|d r]; [reflexivity|].
      rewrite (Ascii.eqb_sym "*" d), H2. reflexivity.
Qed.
Lemma ev_loop_follow l a s : (l = LAdd \/ l = LMul \/ l = LPow) -> follow_ok l s = true -> ev_loop l a s (POk a s).
Proof.
  intros Hl H. split; [discriminate|]. exists 1. intros f Hf. destruct f as [|f]; [lia|].
  rewrite ?p_expr_S, ?p_loop_S, ?p_args_S. rewrite follow_no_op by assumption. reflexivity.
Qed.

(* follow after an operator text *)
Lemma op_skip w t s : ws w -> (exists o, op_text o t) -> skip (w ++ t ++ s) = t ++ s.
Proof. intros Hw [o Ht]. rewrite skip_ws by exact Hw. destruct Ht; reflexivity. Qed.
Lemma starts_skip l s rest : starts l s -> exists c r, skip (s ++ rest) = c :: r /\ start_char c /\ (l = LAtom -> c <> "-"%char).
Proof.
  intros (w & c & r & -> & Hw & Hc & Hn). exists c, (r ++ rest). split; [|auto].
  rewrite <- app_assoc. rewrite skip_ws by exact Hw. cbn [app]. apply skip_nonws.
  destruct Hc as [Hc|[->|[->| ->]]]; try reflexivity. apply idc_not_ws, Hc.
Qed.
Lemma starts_not_star l s r : starts l s -> s = "*"%char :: r -> False.
Proof.
  intros H ->. destruct (starts_skip _ _ [] H) as (c & r' & E & Hc & _). cbn in E. injection E as <- _.
  destruct Hc as [Hc|[Hc|[Hc|Hc]]]; discriminate Hc.
Qed.
Lemma follow_op o w t s rest : ws w -> op_text o t -> starts (right_lvl o) s ->
  follow_ok (tighter (op_lvl o)) (w ++ t ++ s ++ rest) = true.
Proof.
  intros Hw Ht Hs. unfold follow_ok. rewrite op_skip by eauto.
  destruct Ht; cbn; try reflexivity.
  destruct (s ++ rest) as [|c r] eqn:E; [reflexivity|].
  destruct s as [|c' s']; [destruct Hs as (w' & c'' & r' & Hs & _); destruct w'; discriminate Hs|].
  cbn in E. injection E as -> <-. destruct (Ascii.eqb_spec c "*") as [->|]; [|reflexivity].
  exfalso. eapply starts_not_star; eauto.
Qed.
Lemma p_op_complete o w t s l rest : ws w -> op_text o t -> starts l s ->
  p_op (op_lvl o) (w ++ t ++ s ++ rest) = Some (o, s ++ rest).
Proof.
  intros Hw Ht Hs. unfold p_op, lit. rewrite op_skip by eauto.
  destruct Ht; reflexivity.
Qed.

Lemma p_ident_start_none s c r : skip s = c :: r -> is_id0 c = false -> p_ident s = None.
Proof. intros E H. apply p_ident_none. intros c' r' E'. rewrite E in E'. injection E' as <- <-. exact H. Qed.

Lemma lit_E_ident w n s : ws w -> ident n -> (forall c r, skip s = c :: r -> is_idc c = false) -> 
  (forall s', n = str "E" -> s <> str "[][" ++ s') -> lit "E[][" (w ++ n ++ s) = None.
Proof.
  intros Hw Hn Hs HE. unfold lit. rewrite skip_ws by exact Hw. destruct n as [|c n]; [contradiction|].
  destruct Hn as [Hc Hn]. cbn [app]. rewrite skip_nonws by (apply id0_not_ws, Hc).
  destruct (eat (str "E[][") (c :: n ++ s)) as [r|] eqn:E; [|reflexivity]. exfalso.
  apply eat_sound in E. cbn in E. injection E as -> E.
  destruct n as [|d n].
  - cbn in E. apply (HE r); [reflexivity|]. exact E.
  - cbn in E. injection E as -> _. cbn in Hn. discriminate Hn.
Qed.

Lemma p_variable_none_of_lit w n s : ws w -> ident n -> head_not_idc s -> lit "[" s = None ->
  p_variable (F := F) (w ++ n ++ s) = None.
Proof. intros Hw Hn Hs Hl. unfold p_variable. rewrite p_ident_complete by assumption. unfold p_time_index. rewrite Hl. reflexivity. Qed.

Lemma ws_head_nidc w t : ws w -> head_not_idc t -> head_not_idc (w ++ t).
Proof.
  intros Hw Ht. destruct w as [|c w]; [exact Ht|]. intros d r E. cbn in E. injection E as -> _.
  unfold ws in Hw. cbn in Hw. apply andb_true_iff in Hw as [Hc _].
  destruct (is_idc d) eqn:Ed; [|reflexivity]. apply idc_not_ws in Ed. congruence.
Qed.

Lemma follow_close l w c s : ws w -> c = ")"%char \/ c = "]"%char \/ c = ","%char -> follow_ok l (w ++ c :: s) = true.
Proof.
  intros Hw Hc. unfold follow_ok. rewrite skip_ws by exact Hw.
  destruct Hc as [->|[->| ->]]; destruct l; reflexivity.
Qed.

Definition goal_text (l : lvl) (e : expr F) (s : chars) : Prop :=
  match l with
  | LAdd | LMul => forall rest x, follow_ok (tighter l) rest = true -> ev_loop l e rest x -> ev l (s ++ rest) x
  | _ => forall rest, follow_ok l rest = true -> ev l (s ++ rest) (POk e rest)
  end.
Lemma goal_ev l e s rest : goal_text l e s -> follow_ok l rest = true -> ev l (s ++ rest) (POk e rest).
Proof.
  destruct l; cbn; auto; intros H Hf; apply H.
  - apply (follow_tighter LAdd); exact Hf.
  - apply ev_loop_follow; auto.
  - apply (follow_tighter LMul); exact Hf.
  - apply ev_loop_follow; auto.
Qed.
Lemma ev_S l s x f0 : x <> POut -> (forall f, f0 <= f -> p_expr (S f) l s = x) -> ev l s x.
Proof. intros Hx H. split; [exact Hx|]. exists (S f0). intros f Hf. destruct f as [|f]; [lia|]. apply H. lia. Qed.

Lemma complete_all : (forall l e s, Text l e s -> goal_text l e s) /\
  (forall es s, Texts es s -> forall rest, follow_ok LAdd rest = true -> lit "," rest = None ->
     ev_args (s ++ rest) (POk es rest)).
Proof.
  apply Text_Texts_ind.
  - (* number *)
    intros w t Hw Ht rest Hf. apply (ev_S _ _ _ 0); [discriminate|]. intros f _. rewrite ?p_expr_S, ?p_loop_S, ?p_args_S.
    rewrite <- app_assoc.
    destruct (numlit_head t Ht) as (c & r & E & Hc).
    assert (Hsk : skip (w ++ t ++ rest) = c :: r ++ rest).
    { rewrite skip_ws by exact Hw. rewrite E. cbn [app]. apply skip_nonws, numhead_not_ws, Hc. }
    assert (Hid : is_id0 c = false).
    { destruct (is_id0 c) eqn:Ei; [|reflexivity]. destruct Hc as [Hc| ->]; [|discriminate Ei]. apply id0_not_digit in Ei. congruence. }
    assert (Hpi : p_ident (w ++ t ++ rest) = None) by (eapply p_ident_start_none; eauto).
    unfold p_expectation_open. rewrite (lit_head_neq "E[][" "E"%char (str "[][") _ c (r ++ rest)); [|reflexivity|exact Hsk|intros ->; discriminate Hid].
    unfold p_func_open, p_variable, p_invalid_time_index. rewrite Hpi.
    rewrite p_number_complete; [reflexivity|exact Hw|exact Ht|eapply follow_wod; eauto].
  - (* parameter *)
    intros w n Hw Hn rest Hf. apply (ev_S _ _ _ 0); [discriminate|]. intros f _. rewrite ?p_expr_S, ?p_loop_S, ?p_args_S.
    rewrite <- app_assoc.
    pose proof (follow_head_nidc _ _ Hf) as Hh.
    assert (Hlb : lit "[" rest = None) by (eapply (follow_lit LAtom _ "[" "["%char []); [exact Hf|reflexivity|auto]).
    assert (Hlp : lit "(" rest = None) by (eapply (follow_lit LAtom _ "(" "("%char []); [exact Hf|reflexivity|auto]).
    unfold p_expectation_open. rewrite lit_E_ident; try assumption.
    2:{ intros c r E. eapply follow_base; eauto. }
    2:{ intros s' _ ->. cbn in Hlb. discriminate Hlb. }
    unfold p_func_open. rewrite p_ident_complete by assumption. rewrite Hlp.
    rewrite p_variable_none_of_lit by assumption.
    unfold p_invalid_time_index. rewrite p_ident_complete by assumption.
    unfold lit in Hlb. rewrite Hlb.
    rewrite p_number_none.
    2:{ intros c r E. rewrite skip_ws in E by exact Hw. destruct n as [|d n]; [contradiction|]. destruct Hn as [Hd Hn].
        cbn [app] in E. rewrite skip_nonws in E by (apply id0_not_ws, Hd). injection E as <- _.
        split; [apply id0_not_digit, Hd|intros ->; discriminate Hd]. }
    unfold p_parameter. rewrite p_ident_complete by assumption. unfold lit. rewrite Hlb. unfold lit in Hlp. rewrite Hlp. reflexivity.
  - (* variable *)
    intros w n w1 t ti Hw Hn Hw1 Ht rest Hf. apply (ev_S _ _ _ 0); [discriminate|]. intros f _. rewrite ?p_expr_S, ?p_loop_S, ?p_args_S.
    rewrite <- !app_assoc.
    assert (Hh : head_not_idc (w1 ++ str "[" ++ ti ++ str "]" ++ rest)).
    { apply ws_head_nidc; [exact Hw1|]. intros c r E. cbn in E. injection E as <- _. reflexivity. }
    unfold p_expectation_open. rewrite lit_E_ident; try assumption.
    2:{ intros c r E. rewrite skip_ws in E by exact Hw1. cbn in E. injection E as <- _. reflexivity. }
    2:{ intros s' _ E.
        (* "E[][" would require ti = "" and rest to start with "[" *)
        destruct w1 as [|c w1].
        - cbn in E. injection E as E. destruct ti as [|c ti].
          + cbn in E. injection E as E. 
            assert (Hsk : skip rest = "["%char :: s') by (rewrite E; reflexivity).
            destruct (follow_base _ _ _ _ Hf Hsk) as (_ & _ & Hbad & _). congruence.
          + cbn in E. injection E as -> E. exfalso.
            clear - Ht. inversion Ht; subst.
            * unfold ws in *. cbn in *. discriminate.
            * destruct w1; cbn in *; [discriminate|]. injection H as -> H. unfold ws in H0. cbn in H0. discriminate.
            * destruct w1; cbn in *.
              -- destruct d; [destruct H2; congruence|]. cbn in H. injection H as -> H. destruct H2 as [_ H2]. unfold digits in H2. cbn in H2. discriminate.
              -- injection H as -> H. unfold ws in H0. cbn in H0. discriminate.
            * destruct w1; cbn in *; [discriminate|]. injection H as -> H. unfold ws in H0. cbn in H0. discriminate.
        - cbn in E. injection E as -> _. unfold ws in Hw1. cbn in Hw1. discriminate Hw1. }
    unfold p_func_open. rewrite p_ident_complete by assumption.
    rewrite (lit_head_neq "(" "("%char [] _ "["%char (ti ++ str "]" ++ rest)); [|reflexivity|rewrite skip_ws by exact Hw1; reflexivity|discriminate].
    unfold p_variable. rewrite p_ident_complete by assumption.
    rewrite (p_time_index_complete w1 t ti rest Hw1 Ht). reflexivity.
  - (* function call *)
    intros w fn w1 args s w2 Hw Hn Hw1 Hts IH Hw2 rest Hf.
    assert (Hcl : lit ")" (w2 ++ str ")" ++ rest) = Some rest) by (apply lit_complete; [reflexivity|exact Hw2]).
    destruct (IH (w2 ++ str ")" ++ rest)) as [_ [f0 H0]].
    { apply follow_close; auto. }
    { apply (lit_head_neq "," ","%char [] _ ")"%char rest); [reflexivity|rewrite skip_ws by exact Hw2; reflexivity|discriminate]. }
    apply (ev_S _ _ _ f0); [discriminate|]. intros f Hle. rewrite ?p_expr_S, ?p_loop_S, ?p_args_S.
    rewrite <- !app_assoc.
    assert (Hh : head_not_idc (w1 ++ str "(" ++ s ++ w2 ++ str ")" ++ rest)).
    { apply ws_head_nidc; [exact Hw1|]. intros c r E. cbn in E. injection E as <- _. reflexivity. }
    unfold p_expectation_open. rewrite lit_E_ident; try assumption.
    2:{ intros c r E. rewrite skip_ws in E by exact Hw1. cbn in E. injection E as <- _. reflexivity. }
    2:{ intros s' _ E. destruct w1 as [|c w1]; [discriminate E|]. cbn in E. injection E as -> _.
        unfold ws in Hw1. cbn in Hw1. discriminate Hw1. }
    unfold p_func_open. rewrite p_ident_complete by assumption.
    rewrite lit_complete by (assumption || reflexivity).
    assert (lit ")" (s ++ w2 ++ str ")" ++ rest) = None) as ->.
    { apply (proj2 text_starts) in Hts. destruct (starts_skip _ _ (w2 ++ str ")" ++ rest) Hts) as (c & r & E & Hc & _).
      eapply lit_head_neq; [reflexivity|exact E|]. intros ->. destruct Hc as [Hc|[Hc|[Hc|Hc]]]; discriminate Hc. }
    rewrite H0 by exact Hle. rewrite Hcl. reflexivity.
  - (* expectation *)
    intros w e s w2 Hw Ht IH Hw2 rest Hf.
    destruct (goal_ev _ _ _ (w2 ++ str "]" ++ rest) IH) as [_ [f0 H0]].
    { apply follow_close; auto. }
    apply (ev_S _ _ _ f0); [discriminate|]. intros f Hle. rewrite ?p_expr_S, ?p_loop_S, ?p_args_S.
    rewrite <- !app_assoc.
    unfold p_expectation_open. rewrite lit_complete by (assumption || reflexivity).
    rewrite H0 by exact Hle. rewrite lit_complete by (assumption || reflexivity). reflexivity.
  - (* parentheses *)
    intros w e s w2 Hw Ht IH Hw2 rest Hf.
    destruct (goal_ev _ _ _ (w2 ++ str ")" ++ rest) IH) as [_ [f0 H0]].
    { apply follow_close; auto. }
    apply (ev_S _ _ _ f0); [discriminate|]. intros f Hle. rewrite ?p_expr_S, ?p_loop_S, ?p_args_S.
    rewrite <- !app_assoc.
    assert (Hsk : skip (w ++ str "(" ++ s ++ w2 ++ str ")" ++ rest) = "("%char :: s ++ w2 ++ str ")" ++ rest).
    { rewrite skip_ws by exact Hw. reflexivity. }
    assert (Hpi : p_ident (w ++ str "(" ++ s ++ w2 ++ str ")" ++ rest) = None) by (eapply p_ident_start_none; [exact Hsk|reflexivity]).
    unfold p_expectation_open. rewrite (lit_head_neq "E[][" "E"%char (str "[][") _ _ _ eq_refl Hsk) by discriminate.
    unfold p_func_open, p_variable, p_invalid_time_index, p_parameter. rewrite Hpi.
    rewrite p_number_none by (intros c r E; rewrite Hsk in E; injection E as <- _; split; [reflexivity|discriminate]).
    rewrite lit_complete by (assumption || reflexivity).
    rewrite H0 by exact Hle. rewrite lit_complete by (assumption || reflexivity). reflexivity.
  - (* negation *)
    intros w e s Hw Ht IH rest Hf. destruct (IH rest Hf) as [_ [f0 H0]].
    apply (ev_S _ _ _ f0); [discriminate|]. intros f Hle. rewrite ?p_expr_S, ?p_loop_S, ?p_args_S.
    rewrite <- !app_assoc. rewrite lit_complete by (assumption || reflexivity).
    rewrite H0 by exact Hle. reflexivity.
  - (* binary *)
    intros o a b s1 w t s2 Ha IHa Hw Ht Hb IHb.
    pose proof (proj1 text_starts _ _ _ Hb) as Hst.
    assert (Hop : forall rest, p_op (op_lvl o) (w ++ t ++ s2 ++ rest) = Some (o, s2 ++ rest)).
    { intro rest. eapply p_op_complete; eassumption. }
    assert (Hfo : forall rest, follow_ok (tighter (op_lvl o)) (w ++ t ++ s2 ++ rest) = true).
    { intro rest. apply follow_op; assumption. }
    destruct o; cbn [op_lvl left_lvl right_lvl tighter] in *.
    1,2,3,4: intros rest x Hf Hx; rewrite <- !app_assoc; apply IHa; [apply Hfo|];
      destruct (goal_ev _ _ _ rest IHb Hf) as [_ [f0 H0]];
      destruct Hx as [Hx [f1 H1]];
      (split; [exact Hx|]); exists (S (f0 + f1)); intros f Hle; (destruct f as [|f]; [lia|]);
      rewrite ?p_expr_S, ?p_loop_S, ?p_args_S; rewrite Hop; cbn [tighter]; rewrite H0 by lia; apply H1; lia.
    intros rest Hf. rewrite <- !app_assoc.
    destruct (IHa (w ++ t ++ s2 ++ rest) (Hfo rest)) as [_ [f0 H0]].
    destruct (IHb rest Hf) as [_ [f1 H1]].
    apply (ev_S _ _ _ (S (S (f0 + f1)))); [discriminate|]. intros f Hle. rewrite ?p_expr_S, ?p_loop_S, ?p_args_S; cbn [tighter].
    rewrite H0 by lia. destruct f as [|f]; [lia|]. rewrite ?p_expr_S, ?p_loop_S, ?p_args_S. rewrite Hop. rewrite H1 by lia.
    destruct f as [|f]; [lia|]. rewrite ?p_expr_S, ?p_loop_S, ?p_args_S. rewrite follow_no_op by auto. reflexivity.
  - (* level inclusion *)
    intros l e s Hl Ht IH. destruct l; [| | | |congruence]; cbn [tighter] in *.
    + intros rest x Hf [Hx [f1 H1]]. destruct (goal_ev _ _ _ rest IH Hf) as [_ [f0 H0]].
      apply (ev_S _ _ _ (f0 + f1)); [exact Hx|]. intros f Hle. rewrite ?p_expr_S, ?p_loop_S, ?p_args_S; cbn [tighter]. rewrite H0 by lia. apply H1. lia.
    + intros rest x Hf [Hx [f1 H1]]. destruct (goal_ev _ _ _ rest IH Hf) as [_ [f0 H0]].
      apply (ev_S _ _ _ (f0 + f1)); [exact Hx|]. intros f Hle. rewrite ?p_expr_S, ?p_loop_S, ?p_args_S; cbn [tighter]. rewrite H0 by lia. apply H1. lia.
    + intros rest Hf. destruct (IH rest (follow_tighter LPow _ Hf)) as [_ [f0 H0]].
      apply (ev_S _ _ _ (S f0)); [discriminate|]. intros f Hle. rewrite ?p_expr_S, ?p_loop_S, ?p_args_S; cbn [tighter]. rewrite H0 by lia.
      destruct f as [|f]; [lia|]. rewrite ?p_expr_S, ?p_loop_S, ?p_args_S. rewrite follow_no_op by auto. reflexivity.
    + intros rest Hf. destruct (IH rest (follow_tighter LUn _ Hf)) as [_ [f0 H0]].
      apply (ev_S _ _ _ f0); [discriminate|]. intros f Hle. rewrite ?p_expr_S, ?p_loop_S, ?p_args_S.
      assert (lit "-" (s ++ rest) = None) as ->.
      { apply (proj1 text_starts) in Ht. destruct (starts_skip _ _ rest Ht) as (c & r & E & _ & Hn).
        eapply lit_head_neq; [reflexivity|exact E|]. apply Hn. reflexivity. }
      apply H0. lia.
  - (* last argument *)
    intros e s Ht IH rest Hf Hl. destruct (goal_ev _ _ _ rest IH Hf) as [_ [f0 H0]].
    split; [discriminate|]. exists (S f0). intros f Hle. destruct f as [|f]; [lia|]. rewrite ?p_expr_S, ?p_loop_S, ?p_args_S.
    rewrite H0 by lia. rewrite Hl. reflexivity.
  - (* argument list *)
    intros e s w es ss Ht IH Hw Hts IHs rest Hf Hl.
    destruct (goal_ev _ _ _ (w ++ str "," ++ ss ++ rest) IH) as [_ [f0 H0]]; [apply follow_close; auto|].
    destruct (IHs rest Hf Hl) as [_ [f1 H1]].
    split; [discriminate|]. exists (S (f0 + f1)). intros f Hle. destruct f as [|f]; [lia|]. rewrite ?p_expr_S, ?p_loop_S, ?p_args_S.
    rewrite <- !app_assoc. rewrite H0 by lia. rewrite lit_complete by (assumption || reflexivity). rewrite H1 by lia. reflexivity.
Qed.

Lemma parse_sound s e : parse_expression fread s = Ok e -> exists t w, s = t ++ w /\ Text LAdd e t /\ ws w.
Proof.
  unfold parse_expression. destruct (p_expr (enough_fuel s) LAdd s) as [e' r| | |] eqn:E; try discriminate.
  destruct (skip r) eqn:Er; [|discriminate]. intro H; injection H as <-.
  apply (proj1 (sound_all _)) in E as (t & -> & Ht). exists t, r. split; [reflexivity|]. split; [exact Ht|].
  destruct (skip_split r) as [w [Ew Hw]]. rewrite Er, app_nil_r in Ew. congruence.
Qed.
Lemma parse_complete e t w : Text LAdd e t -> ws w -> parse_expression fread (t ++ w) = Ok e.
Proof.
  intros Ht Hw. pose proof (proj1 complete_all _ _ _ Ht) as G.
  assert (Hsk : skip w = []) by (rewrite <- (app_nil_r w), skip_ws by exact Hw; reflexivity).
  destruct (goal_ev _ _ _ w G) as [_ [f0 H0]]; [unfold follow_ok; rewrite Hsk; reflexivity|].
  unfold parse_expression.
  assert (Hn : p_expr (enough_fuel (t ++ w)) LAdd (t ++ w) <> POut).
  { apply (proj1 (no_out _)). unfold enough_fuel. cbn [rank]. lia. }
  rewrite <- (fuel_mono (enough_fuel (t ++ w)) (f0 + enough_fuel (t ++ w)) LAdd (t ++ w) (Nat.le_add_l _ _) Hn).
  rewrite H0 by lia. rewrite Hsk. reflexivity.
Qed.
Lemma parse_iff s e : parse_expression fread s = Ok e <-> exists t w, s = t ++ w /\ Text LAdd e t /\ ws w.
Proof. split; [apply parse_sound|]. intros (t & w & -> & Ht & Hw). apply parse_complete; assumption. Qed.
Lemma text_unambiguous e1 e2 t : Text LAdd e1 t -> Text LAdd e2 t -> e1 = e2.
Proof.
  intros H1 H2. apply (parse_complete e1 t []) in H1; [|reflexivity]. apply (parse_complete e2 t []) in H2; [|reflexivity]. congruence.
Qed.
End Parser.
