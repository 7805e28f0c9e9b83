(* Consumption, totality and fuel monotonicity of the parsers, for any skip function that returns a shorter text. *)
From Verif Require Import Common Expr_Model Expr_Spec Expr_Lex SymDict_Model Gcn_Lex Gcn_Model.
Local Open Scope list_scope.
Local Open Scope parser_scope.

(* ---- lengths ---- *)
Create HintDb gcn.
Definition lens {A} (b : bool) (p : parser A) : Prop :=
  forall s a r, p s = POk a r -> if b then length r < length s else length r <= length s.
Definition nout {A} (p : parser A) : Prop := forall s, p s <> POut.
Lemma lens_weak {A} (p : parser A) : lens true p -> lens false p.
Proof. intros H s a r E. specialize (H s a r E). cbn in *. lia. Qed.
Lemma lens_ret {A} (a : A) : lens false (ret a). Proof. intros s b r H. injection H as <- <-. cbn. lia. Qed.
Lemma lens_fatal {A} b : lens b (@fatal A). Proof. intros s a r H. discriminate. Qed.
Lemma lens_fail {A} b : lens b (@fail A). Proof. intros s a r H. discriminate. Qed.
Lemma lens_seq {A B} (p : parser A) (k : A -> parser B) : lens false p -> (forall a, lens false (k a)) -> lens false (seq p k).
Proof.
  intros Hp Hk s a r H. unfold seq in H. destruct (p s) as [x r'| | |] eqn:E; try discriminate.
  specialize (Hp s x r' E). specialize (Hk x r' a r H). cbn in *. lia.
Qed.
Lemma lens_seq_l {A B} (p : parser A) (k : A -> parser B) : lens true p -> (forall a, lens false (k a)) -> lens true (seq p k).
Proof.
  intros Hp Hk s a r H. unfold seq in H. destruct (p s) as [x r'| | |] eqn:E; try discriminate.
  specialize (Hp s x r' E). specialize (Hk x r' a r H). cbn in *. lia.
Qed.
Lemma lens_seq_r {A B} (p : parser A) (k : A -> parser B) : lens false p -> (forall a, lens true (k a)) -> lens true (seq p k).
Proof.
  intros Hp Hk s a r H. unfold seq in H. destruct (p s) as [x r'| | |] eqn:E; try discriminate.
  specialize (Hp s x r' E). specialize (Hk x r' a r H). cbn in *. lia.
Qed.
Lemma lens_cut {A} b (p : parser A) : lens b p -> lens b (cut p).
Proof. intros H s a r E. apply (H s a r). unfold cut in E. destruct (p s); congruence. Qed.
Lemma lens_alt {A} b (p q : parser A) : lens b p -> lens b q -> lens b (alt p q).
Proof.
  intros Hp Hq s a r E. unfold alt in E. destruct (p s) as [x y| | |] eqn:Ep; try discriminate.
  - injection E as <- <-. exact (Hp _ _ _ Ep).
  - exact (Hq _ _ _ E).
Qed.
Lemma lens_many_f {A} (p : parser A) n : lens false p -> lens false (many_f n p).
Proof.
  intro Hp. induction n as [|n IH]; intros s a r E; cbn [many_f] in E; [discriminate|].
  destruct (p s) as [x r'| | |] eqn:Ep; try discriminate.
  - destruct (many_f n p r') as [l r''| | |] eqn:Em; try discriminate. injection E as <- <-.
    specialize (Hp _ _ _ Ep). specialize (IH _ _ _ Em). cbn in *. lia.
  - injection E as <- <-. cbn. lia.
Qed.
Lemma lens_many {A} (p : parser A) : lens false p -> lens false (many p).
Proof. intros H s. unfold many. apply (lens_many_f p (S (length s)) H s). Qed.
Lemma lens_opt {A} (p : parser A) : lens false p -> lens false (opt p).
Proof. intros H s a r E. unfold opt in E. destruct (p s) eqn:Ep; try discriminate; injection E as <- <-; [eapply H; eauto|cbn; lia]. Qed.
Lemma lens_peek {A} (p : parser A) : lens false (peek p).
Proof. intros s a r E. unfold peek in E. destruct (p s); try discriminate. injection E as <- <-. cbn. lia. Qed.
Lemma lens_nota {A} (p : parser A) : lens false (nota p).
Proof. intros s a r E. unfold nota in E. destruct (p s); try discriminate; injection E as <- <-; cbn; lia. Qed.
Lemma lens_of_opt {A} (b : bool) (f : chars -> option (A * chars)) :
  (forall s a r, f s = Some (a, r) -> if b then length r < length s else length r <= length s) -> lens b (of_opt f).
Proof. intros H s a r E. unfold of_opt in E. destruct (f s) as [[x r']|] eqn:Ef; [|discriminate]. injection E as <- <-. exact (H _ _ _ Ef). Qed.

(* ---- totality ---- *)
Lemma nout_ret {A} (a : A) : nout (ret a). Proof. discriminate. Qed.
Lemma nout_fatal {A} : nout (@fatal A). Proof. discriminate. Qed.
Lemma nout_fail {A} : nout (@fail A). Proof. discriminate. Qed.
Lemma nout_seq {A B} (p : parser A) (k : A -> parser B) : nout p -> (forall a, nout (k a)) -> nout (seq p k).
Proof. intros Hp Hk s. unfold seq. specialize (Hp s). destruct (p s); try discriminate; [apply Hk|contradiction]. Qed.
Lemma nout_cut {A} (p : parser A) : nout p -> nout (cut p).
Proof. intros H s. unfold cut. specialize (H s). destruct (p s); congruence. Qed.
Lemma nout_alt {A} (p q : parser A) : nout p -> nout q -> nout (alt p q).
Proof. intros Hp Hq s. unfold alt. specialize (Hp s). destruct (p s); try discriminate; [apply Hq|contradiction]. Qed.
Lemma nout_many {A} (p : parser A) : lens true p -> nout p -> nout (many p).
Proof.
  intros Hl Hn s. unfold many. assert (H : forall n s, length s < n -> many_f n p s <> POut).
  { clear s. induction n as [|n IH]; intros s Hs; [lia|]. cbn [many_f]. specialize (Hn s). destruct (p s) as [x r'| | |] eqn:Ep; try congruence.
    specialize (Hl _ _ _ Ep). cbn in Hl. specialize (IH r' ltac:(lia)). destruct (many_f n p r'); congruence. }
  apply H. lia.
Qed.
Lemma nout_opt {A} (p : parser A) : nout p -> nout (opt p).
Proof. intros H s. unfold opt. specialize (H s). destruct (p s); congruence. Qed.
Lemma nout_peek {A} (p : parser A) : nout p -> nout (peek p).
Proof. intros H s. unfold peek. specialize (H s). destruct (p s); congruence. Qed.
Lemma nout_nota {A} (p : parser A) : nout p -> nout (nota p).
Proof. intros H s. unfold nota. specialize (H s). destruct (p s); congruence. Qed.
Lemma nout_of_opt {A} (f : chars -> option (A * chars)) : nout (of_opt f).
Proof. intros s. unfold of_opt. destruct (f s) as [[? ?]|]; congruence. Qed.

(* ---- raw matching consumes ---- *)
Lemma span_len f s a b : span f s = (a, b) -> length s = length a + length b.
Proof.
  revert a b. induction s as [|c s IH]; cbn [span]; intros a b H; [injection H as <- <-; reflexivity|].
  destruct (f c); [|injection H as <- <-; reflexivity]. destruct (span f s) as [a' b'] eqn:E. injection H as <- <-.
  cbn [length]. specialize (IH _ _ eq_refl). lia.
Qed.
Lemma eat_len w : forall s r, eat w s = Some r -> length s = length w + length r.
Proof. intros s r H. apply eat_sound in H as ->. apply app_length. Qed.
Lemma eat_ci_len w : forall s r, eat_ci w s = Some r -> length s = length w + length r.
Proof.
  induction w as [|c w IH]; intros [|d s] r H; cbn in H; try discriminate; [injection H as <-; reflexivity|injection H as <-; reflexivity|].
  destruct (Ascii.eqb (lower c) (lower d)); [|discriminate]. apply IH in H. cbn. lia.
Qed.
Lemma raw_ident_len s a r : raw_ident s = Some (a, r) -> length r < length s.
Proof.
  unfold raw_ident. destruct s as [|c s]; [discriminate|]. destruct (is_id0 c); [|discriminate].
  destruct (span is_idc s) as [x y] eqn:E. intro H. injection H as <- <-. apply span_len in E. cbn. lia.
Qed.
Lemma p_mantissa_len s a r : p_mantissa s = Some (a, r) -> length r < length s.
Proof.
  intro H. apply p_mantissa_sound in H as [-> Hm]. destruct (mantissa_head _ Hm) as (c & r' & -> & _). rewrite app_length. cbn. lia.
Qed.
Lemma p_exponent_len s a r : p_exponent s = (a, r) -> length r <= length s.
Proof. intro H. apply p_exponent_sound in H as [-> _]. rewrite app_length. lia. Qed.
Lemma raw_number_len s a r : raw_number s = Some (a, r) -> length r < length s.
Proof.
  unfold raw_number. destruct (p_mantissa s) as [[m r1]|] eqn:E; [|discriminate]. apply p_mantissa_len in E.
  destruct (p_exponent r1) as [ex r2] eqn:E2. apply p_exponent_len in E2. destruct (word_or_dot r2); [discriminate|].
  intro H. injection H as <- <-. lia.
Qed.
Lemma p_sign_len s a r : p_sign s = (a, r) -> length r <= length s.
Proof. unfold p_sign. destruct s as [|c s]; intro H; [injection H as <- <-; lia|]. destruct (_ || _)%bool; injection H as <- <-; cbn; lia. Qed.
Lemma raw_dnumber_len s a r : raw_dnumber s = Some (a, r) -> length r < length s.
Proof.
  unfold raw_dnumber. destruct (p_sign s) as [sg r0] eqn:E0. apply p_sign_len in E0.
  destruct (p_mantissa r0) as [[m r1]|] eqn:E; [|discriminate]. apply p_mantissa_len in E.
  destruct m as [|c m]; [discriminate|]. destruct (Ascii.eqb c "."); [intro H; injection H as <- <-; lia|].
  destruct (p_exponent r1) as [ex r2] eqn:E2. apply p_exponent_len in E2. intro H. injection H as <- <-. lia.
Qed.
Lemma raw_int_len s a r : raw_int s = Some (a, r) -> length r < length s.
Proof.
  unfold raw_int. destruct s as [|c s]; [discriminate|]. destruct (Ascii.eqb c "-").
  - destruct (span is_digit s) as [d r'] eqn:E. destruct (undec d); [|discriminate]. intro H. injection H as <- <-.
    apply span_len in E. cbn. lia.
  - destruct (span is_digit (c :: s)) as [d r'] eqn:E. destruct (undec d) eqn:Ed; [|discriminate]. intro H. injection H as <- <-.
    apply span_len in E. destruct d; [rewrite undec_nil in Ed; discriminate|]. cbn in E. cbn. lia.
Qed.
Lemma first_of_len (f : chars -> chars -> option chars) names s a r :
  (forall w s r, f w s = Some r -> length s = length w + length r) -> (forall n, In n names -> n <> []) ->
  first_of f names s = Some (a, r) -> length r < length s.
Proof.
  intros Hf. induction names as [|n l IH]; cbn [first_of]; intros Hn H; [discriminate|].
  destruct (f n s) as [r'|] eqn:E; [|apply IH; [intros; apply Hn; now right|exact H]]. injection H as <- <-. apply Hf in E.
  specialize (Hn n (or_introl eq_refl)). destruct n; [congruence|]. cbn in E. lia.
Qed.
Lemma longest_in l n : In n (longest l) -> In n l.
Proof.
  induction l as [|m l IH]; [tauto|]. cbn [longest].
  assert (Hins : forall k, In n ((fix ins (l : list chars) := match l with [] => [m] | x :: l' => if Nat.leb (length x) (length m) then m :: l else x :: ins l' end) k) -> n = m \/ In n k).
  { induction k as [|x k IHk]; cbn; [intuition|]. destruct (Nat.leb _ _); cbn; intuition. }
  intro H. apply Hins in H as [->|H]; [now left|right; auto].
Qed.
Lemma raw_words_len n : forall s a r, raw_words n s = (a, r) -> length r <= length s.
Proof.
  induction n as [|n IH]; intros s a r H; cbn [raw_words] in H; [injection H as <- <-; lia|].
  destruct (span (Ascii.eqb " ") s) as [sp r0] eqn:E. apply span_len in E. destruct sp as [|c sp]; [injection H as <- <-; lia|].
  destruct (raw_ident r0) as [[w r1]|] eqn:Ei; [|injection H as <- <-; lia]. apply raw_ident_len in Ei.
  destruct (raw_words n r1) as [ws r2] eqn:Ew. apply IH in Ew. injection H as <- <-. cbn in *. lia.
Qed.

(* ---- more fuel does not change a finished parse ---- *)
Definition below {A} (p q : parser A) : Prop := forall s, p s = POut \/ p s = q s.
Lemma below_refl {A} (p : parser A) : below p p. Proof. intro s. now right. Qed.
Lemma below_out {A} (q : parser A) : below (fun _ => POut) q. Proof. intro s. now left. Qed.
Lemma below_trans {A} (p q r : parser A) : below p q -> below q r -> below p r.
Proof. intros H1 H2 s. destruct (H1 s) as [H|H]; [now left|]. rewrite H. apply H2. Qed.
Lemma below_seq {A B} (p p' : parser A) (k k' : A -> parser B) : below p p' -> (forall a, below (k a) (k' a)) -> below (seq p k) (seq p' k').
Proof. intros Hp Hk s. unfold seq. destruct (Hp s) as [H|H]; rewrite H; [now left|]. destruct (p' s); auto. apply Hk. Qed.
Lemma below_cut {A} (p p' : parser A) : below p p' -> below (cut p) (cut p').
Proof. intros Hp s. unfold cut. destruct (Hp s) as [H|H]; rewrite H; [now left|]. now right. Qed.
Lemma below_alt {A} (p p' q q' : parser A) : below p p' -> below q q' -> below (alt p q) (alt p' q').
Proof. intros Hp Hq s. unfold alt. destruct (Hp s) as [H|H]; rewrite H; [now left|]. destruct (p' s); auto. Qed.
Lemma below_opt {A} (p p' : parser A) : below p p' -> below (opt p) (opt p').
Proof. intros Hp s. unfold opt. destruct (Hp s) as [H|H]; rewrite H; [now left|]. now right. Qed.
Lemma below_peek {A} (p p' : parser A) : below p p' -> below (peek p) (peek p').
Proof. intros Hp s. unfold peek. destruct (Hp s) as [H|H]; rewrite H; [now left|]. now right. Qed.
Lemma below_many_f {A} (p p' : parser A) n : below p p' -> below (many_f n p) (many_f n p').
Proof.
  intro Hp. induction n as [|n IH]; intro s; cbn [many_f]; [now left|]. destruct (Hp s) as [H|H]; rewrite H; [now left|].
  destruct (p' s) as [a r| | |]; auto. destruct (IH r) as [H2|H2]; rewrite H2; auto.
Qed.
Lemma below_many {A} (p p' : parser A) : below p p' -> below (many p) (many p').
Proof. intros H s. apply below_many_f, H. Qed.
Lemma below_ok {A} (p q : parser A) s : below p q -> p s <> POut -> q s = p s.
Proof. intros H Hn. destruct (H s); congruence. Qed.

Section SK.
Variable sk : chars -> chars.
Hypothesis Hsk : forall s, length (sk s) <= length s.
Context {F : Type} (fread : chars -> F).

Ltac tok := apply lens_of_opt; intros s a r H; pose proof (Hsk s).
Lemma lens_lit w : str w <> [] -> lens true (t_lit sk w).
Proof. intro Hw. tok. destruct (eat (str w) (sk s)) eqn:E; [|discriminate]. injection H as <- <-. apply eat_len in E. destruct (str w); [congruence|]. cbn in E. lia. Qed.
Lemma lens_ident : lens true (t_ident sk). Proof. tok. apply raw_ident_len in H. lia. Qed.
Lemma lens_number : lens true (t_number sk). Proof. tok. apply raw_number_len in H. lia. Qed.
Lemma lens_dnumber : lens true (t_dnumber sk). Proof. tok. apply raw_dnumber_len in H. lia. Qed.
Lemma lens_int : lens true (t_int sk). Proof. tok. apply raw_int_len in H. lia. Qed.
Lemma lens_kw w : str w <> [] -> lens true (t_kw sk w).
Proof.
  intro Hw. tok. destruct (eat (str w) (sk s)) eqn:E; [|discriminate]. destruct (kw_end _); [|discriminate]. injection H as <- <-.
  apply eat_len in E. destruct (str w); [congruence|]. cbn in E. lia.
Qed.
Lemma lens_kwc w : str w <> [] -> lens true (t_kwc sk w).
Proof.
  intro Hw. tok. destruct (eat_ci (str w) (sk s)) eqn:E; [|discriminate]. destruct (kw_end _); [|discriminate]. injection H as <- <-.
  apply eat_ci_len in E. destruct (str w); [congruence|]. cbn in E. lia.
Qed.
Lemma lens_oneof names : (forall n, In n names -> n <> []) -> lens true (t_oneof sk names).
Proof. intro Hn. tok. apply first_of_len in H; [lia|apply eat_len|]. intros n Hi. apply Hn, longest_in, Hi. Qed.
Lemma lens_oneof_ci names : (forall n, In n names -> n <> []) -> lens true (t_oneof_ci sk names).
Proof. intro Hn. tok. apply first_of_len in H; [lia|apply eat_ci_len|]. intros n Hi. apply Hn, longest_in, Hi. Qed.
Lemma lens_tag_name : lens true (t_tag_name sk).
Proof. tok. destruct (eat (str "@") (sk s)) eqn:E; [|discriminate]. apply eat_len in E. apply raw_ident_len in H. cbn in E. lia. Qed.
Lemma lens_option_key : lens true (t_option_key sk).
Proof.
  tok. destruct (raw_ident (sk s)) as [[w r0]|] eqn:E; [|discriminate]. apply raw_ident_len in E.
  destruct (raw_words (length r0) r0) as [ws r1] eqn:Ew. apply raw_words_len in Ew. injection H as <- <-. lia.
Qed.
Lemma lens_end : lens false (t_end sk).
Proof. intros s a r H. unfold t_end in H. destruct (sk s); [|discriminate]. injection H as <- <-. cbn. lia. Qed.
Lemma lens_bad_index : lens false (t_bad_index sk).
Proof. intros s a r H. unfold t_bad_index in H. destruct (raw_bad_index _); [|discriminate]. injection H as <- <-. cbn. lia. Qed.
Lemma nout_end : nout (t_end sk). Proof. intro s. unfold t_end. destruct (sk s); congruence. Qed.
Lemma nout_bad_index : nout (t_bad_index sk). Proof. intro s. unfold t_bad_index. destruct (raw_bad_index _); congruence. Qed.
Lemma lens_delimited {A} (p : parser A) : lens true p -> lens true (delimited sk p).
Proof.
  intro H. unfold delimited. apply lens_seq_l; [exact H|]. intro a. apply lens_seq; [|intro; apply lens_ret].
  apply lens_many, lens_seq; [apply lens_weak, lens_lit; discriminate|]. intros _. now apply lens_weak.
Qed.
Lemma nout_delimited {A} (p : parser A) : lens true p -> nout p -> nout (delimited sk p).
Proof.
  intros H Hn. unfold delimited. apply nout_seq; [exact Hn|]. intro a. apply nout_seq; [|intro; apply nout_ret].
  apply nout_many; [apply lens_seq_l; [apply lens_lit; discriminate|intros _; now apply lens_weak]|].
  apply nout_seq; [apply nout_of_opt|intros _; exact Hn].
Qed.

(* A tactic for lengths: goals lens true/false of composed parsers *)
Ltac ne := first [discriminate | intros ? HIn; cbn in HIn; intuition subst; discriminate].
Ltac lensb :=
  lazymatch goal with
  | |- forall _, _ => intro; lensb
  | |- lens _ (match ?x with _ => _ end) => destruct x; lensb
  | |- lens _ (@fatal _) => apply lens_fatal
  | |- lens _ (@fail _) => apply lens_fail
  | |- lens _ (cut _) => apply lens_cut; lensb
  | |- lens _ (alt _ _) => apply lens_alt; lensb
  | |- lens false (ret _) => apply lens_ret
  | |- lens false (many _) => apply lens_many; lensb
  | |- lens false (opt _) => apply lens_opt; lensb
  | |- lens false (peek _) => apply lens_peek
  | |- lens false (nota _) => apply lens_nota
  | |- lens false (t_end _) => apply lens_end
  | |- lens false (t_bad_index _) => apply lens_bad_index
  | |- lens false (seq _ _) => apply lens_seq; lensb
  | |- lens true (seq _ _) => first [solve [apply lens_seq_l; lensb] | solve [apply lens_seq_r; lensb]]
  | |- lens true (t_lit _ _) => apply lens_lit; ne
  | |- lens true (t_kw _ _) => apply lens_kw; ne
  | |- lens true (t_kwc _ _) => apply lens_kwc; ne
  | |- lens true (t_ident _) => apply lens_ident
  | |- lens true (t_number _) => apply lens_number
  | |- lens true (t_dnumber _) => apply lens_dnumber
  | |- lens true (t_int _) => apply lens_int
  | |- lens true (t_tag_name _) => apply lens_tag_name
  | |- lens true (t_option_key _) => apply lens_option_key
  | |- lens true (t_oneof _ _) => apply lens_oneof; ne
  | |- lens true (t_oneof_ci _ _) => apply lens_oneof_ci; ne
  | |- lens true (delimited _ _) => apply lens_delimited; lensb
  | |- lens true _ => solve [eauto with gcn]
  | |- lens false _ => first [solve [eauto with gcn] | apply lens_weak; lensb]
  end.

Lemma lens_raw_tix : lens false (raw_tix sk). Proof. unfold raw_tix. lensb. Qed.
Lemma lens_tix : lens true (p_tix sk). Proof. unfold p_tix. pose proof lens_raw_tix. lensb. Qed.
Lemma lens_g_op l : lens true (g_op sk l). Proof. unfold g_op. destruct l; lensb. Qed.

Lemma g_expr_S f l : g_expr sk fread (S f) l =
  match l with
  | LAdd | LMul | LPow => (a <~ g_expr sk fread f (tighter l) ; g_loop sk fread f l a)
  | LUn => (t_lit sk "-" >> a <~ g_expr sk fread f LUn ; ret (Neg a)) <|> g_expr sk fread f LAtom
  | LAtom => g_atom sk fread (g_expr sk fread f LAdd) (g_args sk fread f)
  end.
Proof. destruct l; reflexivity. Qed.
Lemma g_loop_S f l acc : g_loop sk fread (S f) l acc =
  (ob <~ opt (o <~ g_op sk l ; b <~ g_expr sk fread f (match l with LPow => LPow | _ => tighter l end) ; ret (o, b)) ;
   match ob with Some (o, b) => g_loop sk fread f l (Bin o acc b) | None => ret acc end).
Proof. reflexivity. Qed.
Lemma g_args_S f : g_args sk fread (S f) =
  (a <~ g_expr sk fread f LAdd ; more <~ opt (t_lit sk "," >> g_args sk fread f) ; ret (match more with Some l => a :: l | None => [a] end)).
Proof. reflexivity. Qed.

Lemma lens_atom e args : lens true e -> lens true args -> lens true (g_atom sk fread e args).
Proof. intros He Ha. unfold g_atom, g_variable, g_parameter. pose proof lens_tix. lensb. Qed.
Lemma lens_expr_all f : (forall l, lens true (g_expr sk fread f l)) /\ (forall l a, lens false (g_loop sk fread f l a)) /\ lens true (g_args sk fread f).
Proof.
  induction f as [|f (IHe & IHl & IHa)]; [repeat split; intros; intros s x r H; discriminate|]. split; [|split].
  - intro l. rewrite g_expr_S. destruct l; try (apply lens_seq_l; [apply IHe|intro; apply IHl]).
    + apply lens_alt; [|apply IHe]. apply lens_seq_l; [apply lens_lit; discriminate|]. intros _. apply lens_seq; [apply lens_weak, IHe|intro; apply lens_ret].
    + apply lens_atom; auto.
  - intros l a. rewrite g_loop_S. apply lens_seq.
    + apply lens_opt, lens_seq; [apply lens_weak, lens_g_op|]. intro o. apply lens_seq; [apply lens_weak, IHe|intro; apply lens_ret].
    + intros [[o b]|]; [apply IHl|apply lens_ret].
  - rewrite g_args_S. apply lens_seq_l; [apply IHe|]. intro a. apply lens_seq; [|intro; apply lens_ret].
    apply lens_opt, lens_seq; [apply lens_weak, lens_lit; discriminate|]. intros _. apply lens_weak, IHa.
Qed.
Lemma lens_ex : lens true (p_ex sk fread).
Proof. intro s. unfold p_ex. apply (proj1 (lens_expr_all (enough_fuel s))). Qed.

(* fuel: never exhausted at the budget used *)
Definition noat {A} (p : parser A) (s : chars) : Prop := p s <> POut.
Lemma noat_seq {A B} (p : parser A) (k : A -> parser B) s : noat p s -> (forall a r, p s = POk a r -> noat (k a) r) -> noat (seq p k) s.
Proof. unfold noat, seq. intros Hp Hk. destruct (p s); try congruence. now apply Hk. Qed.
Lemma noat_alt {A} (p q : parser A) s : noat p s -> noat q s -> noat (alt p q) s.
Proof. unfold noat, alt. intros Hp Hq. destruct (p s); congruence. Qed.
Lemma noat_cut {A} (p : parser A) s : noat p s -> noat (cut p) s.
Proof. unfold noat, cut. intro Hp. destruct (p s); congruence. Qed.
Lemma noat_opt {A} (p : parser A) s : noat p s -> noat (opt p) s.
Proof. unfold noat, opt. intro Hp. destruct (p s); congruence. Qed.
Lemma nout_tix : nout (p_tix sk).
Proof. unfold p_tix, raw_tix. repeat first [apply nout_seq; [|intro] | apply nout_alt | apply nout_of_opt | apply nout_ret]. Qed.
Lemma nout_g_op l : nout (g_op sk l).
Proof. unfold g_op. destruct l; repeat first [apply nout_fail | apply nout_seq; [|intro] | apply nout_alt | apply nout_of_opt | apply nout_ret]. Qed.
Definition rk (l : lvl) : nat := match l with LAdd => 4 | LMul => 3 | LPow => 2 | LUn => 1 | LAtom => 0 end.
Lemma no_out_all f :
  (forall l s, 8 * length s + rk l + 1 <= f -> noat (g_expr sk fread f l) s) /\
  (forall l a s, 8 * length s + 1 <= f -> noat (g_loop sk fread f l a) s) /\
  (forall s, 8 * length s + 6 <= f -> noat (g_args sk fread f) s).
Proof.
  induction f as [|f (IHe & IHl & IHa)]; [repeat split; intros; lia|].
  assert (IHe' : forall l (r s : chars), length r < length s -> 8 * length s <= f -> noat (g_expr sk fread f l) r).
  { intros l r s Hlt Hle. apply IHe. assert (rk l <= 4) by (destruct l; cbn; lia). lia. }
  destruct (lens_expr_all f) as (Le & Ll & La).
  split; [|split].
  - intros l s H. unfold noat. rewrite g_expr_S. destruct l.
    1,2,3: cbn [tighter rk] in *; apply noat_seq; [apply IHe; cbn [rk]; lia|intros a r E; apply Le in E; apply IHl; cbn in E; lia].
    + cbn [rk] in H. apply noat_alt; [|apply IHe; cbn; lia]. apply noat_seq; [apply nout_of_opt|]. intros a r E.
      apply lens_lit in E; [|discriminate]. apply noat_seq; [apply (IHe' LUn r s E); lia|intros; apply nout_ret].
    + cbn [rk] in H. unfold g_atom.
      assert (Hlit : forall w r, str w <> [] -> forall x y, t_lit sk w r = POk x y -> length y < length r) by (intros w r Hw x y E; exact (lens_lit w Hw _ _ _ E)).
      repeat (apply noat_alt).
      * apply noat_seq; [apply nout_of_opt|]. intros a r E. apply Hlit in E; [|discriminate].
        apply noat_seq; [apply noat_cut, (IHe' LAdd r s E); lia|]. intros. apply (nout_seq (cut (t_lit sk "]"))); [apply nout_cut, nout_of_opt|intro; apply nout_ret].
      * apply (nout_seq (t_ident sk)); [apply nout_of_opt|intro]. apply nout_seq; [apply nout_of_opt|intro]. apply nout_seq; [apply nout_peek, nout_of_opt|intro; apply nout_fatal].
      * apply noat_seq; [apply nout_of_opt|]. intros a r E. apply lens_ident in E. apply noat_seq; [apply nout_of_opt|]. intros u r2 E2. apply Hlit in E2; [|discriminate].
        apply noat_seq; [apply noat_cut, IHa; cbn in E; lia|]. intros. apply (nout_seq (cut (t_lit sk ")"))); [apply nout_cut, nout_of_opt|intro; apply nout_ret].
      * unfold g_variable. apply (nout_seq (t_ident sk)); [apply nout_of_opt|intro]. apply nout_seq; [apply nout_tix|intro; apply nout_ret].
      * apply (nout_seq (t_ident sk)); [apply nout_of_opt|intro]. apply nout_seq; [apply nout_of_opt|intro]. apply nout_seq; [apply nout_bad_index|intro; apply nout_fatal].
      * apply (nout_seq (t_number sk)); [apply nout_of_opt|intro; apply nout_ret].
      * unfold g_parameter. apply (nout_seq (t_ident sk)); [apply nout_of_opt|intro]. apply nout_seq; [|intro; apply nout_ret]. apply nout_nota, nout_alt; apply nout_of_opt.
      * apply noat_seq; [apply nout_of_opt|]. intros a r E. apply Hlit in E; [|discriminate].
        apply noat_seq; [apply noat_cut, (IHe' LAdd r s E); lia|]. intros. apply (nout_seq (cut (t_lit sk ")"))); [apply nout_cut, nout_of_opt|intro; apply nout_ret].
  - intros l a s H. unfold noat. rewrite g_loop_S. apply noat_seq.
    + apply noat_opt, noat_seq; [apply nout_g_op|]. intros o r E. apply lens_g_op in E. apply noat_seq; [apply (IHe' _ r s E); lia|intros; apply nout_ret].
    + intros ob r E. unfold opt in E. destruct (seq (g_op sk l) _ s) as [[o b] r'| | |] eqn:E2 in E; try discriminate; injection E as <- <-; [|apply nout_ret].
      assert (Hlt : lens true (o <~ g_op sk l ; b <~ g_expr sk fread f (match l with LPow => LPow | _ => tighter l end) ; ret (o, b))).
      { apply lens_seq_l; [apply lens_g_op|]. intro. apply lens_seq; [apply lens_weak, Le|intro; apply lens_ret]. }
      specialize (Hlt _ _ _ E2). cbn in Hlt. apply IHl. lia.
  - intros s H. unfold noat. rewrite g_args_S. apply noat_seq; [apply IHe; cbn; lia|]. intros a r E. apply Le in E. cbn in E. apply noat_seq; [|intros; apply nout_ret].
    apply noat_opt, noat_seq; [apply nout_of_opt|]. intros u r2 E2. apply lens_lit in E2; [|discriminate]. cbn in E2. apply IHa. lia.
Qed.
Lemma nout_ex : nout (p_ex sk fread).
Proof. intro s. apply (proj1 (no_out_all (enough_fuel s))). unfold enough_fuel. cbn [rk]. lia. Qed.

(* more fuel *)
Lemma below_expr_all f :
  (forall l, below (g_expr sk fread f l) (g_expr sk fread (S f) l)) /\ (forall l a, below (g_loop sk fread f l a) (g_loop sk fread (S f) l a)) /\
  below (g_args sk fread f) (g_args sk fread (S f)).
Proof.
  induction f as [|f (IHe & IHl & IHa)]; [repeat split; intros; intro s; now left|]. split; [|split].
  - intro l. rewrite !g_expr_S. destruct l; try (apply below_seq; [apply IHe|intro; apply IHl]).
    + apply below_alt; [|apply IHe]. apply below_seq; [apply below_refl|intro]. apply below_seq; [apply IHe|intro; apply below_refl].
    + unfold g_atom. repeat apply below_alt; try apply below_refl.
      * apply below_seq; [apply below_refl|intro]. apply below_seq; [apply below_cut, IHe|intro; apply below_refl].
      * apply below_seq; [apply below_refl|intro]. apply below_seq; [apply below_refl|intro]. apply below_seq; [apply below_cut, IHa|intro; apply below_refl].
      * apply below_seq; [apply below_refl|intro]. apply below_seq; [apply below_cut, IHe|intro; apply below_refl].
  - intros l a. rewrite !g_loop_S. apply below_seq.
    + apply below_opt, below_seq; [apply below_refl|intro]. apply below_seq; [apply IHe|intro; apply below_refl].
    + intros [[o b]|]; [apply IHl|apply below_refl].
  - rewrite !g_args_S. apply below_seq; [apply IHe|intro]. apply below_seq; [|intro; apply below_refl]. apply below_opt, below_seq; [apply below_refl|intro; apply IHa].
Qed.
Lemma below_expr f g l : f <= g -> below (g_expr sk fread f l) (g_expr sk fread g l).
Proof. intro H. induction H as [|g H IH]; [apply below_refl|]. eapply below_trans; [exact IH|apply below_expr_all]. Qed.
Lemma ex_fuel f s : enough_fuel s <= f -> g_expr sk fread f LAdd s = p_ex sk fread s.
Proof. intro H. unfold p_ex. apply below_ok; [now apply below_expr|]. apply nout_ex. Qed.

(* ---- numbers in distributions ---- *)
Lemma lens_level o w p : str w <> [] -> lens true p -> lens true (d_level sk o w p).
Proof.
  intros Hw H. unfold d_level. apply lens_seq_l; [exact H|]. intro a. apply lens_seq; [|intro; apply lens_ret].
  apply lens_many, lens_seq; [apply lens_weak, lens_lit; exact Hw|intros _; now apply lens_weak].
Qed.
Lemma lens_dnum_f f : lens true (p_dnum_f sk f).
Proof.
  induction f as [|f IH]; [intros s a r H; discriminate|]. intro s. cbn [p_dnum_f].
  apply lens_level; [discriminate|]. apply lens_level; [discriminate|]. apply lens_level; [discriminate|]. apply lens_level; [discriminate|]. lensb.
Qed.
Lemma lens_dnum : lens true (p_dnum sk).
Proof. intro s. apply lens_dnum_f. Qed.
Definition d_atom (e : parser dnum) : parser dnum := (t <~ t_dnumber sk ; ret (DN t)) <|> (t_lit sk "(" >> x <~ e ; t_lit sk ")" >> ret x).
Lemma dnum_S f : p_dnum_f sk (S f) = d_level sk DSub "-" (d_level sk DAdd "+" (d_level sk DMul "*" (d_level sk DDiv "/" (d_atom (p_dnum_f sk f))))).
Proof. reflexivity. Qed.
Lemma lens_d_atom e : lens true e -> lens true (d_atom e).
Proof. intro H. unfold d_atom. lensb. Qed.
Definition nobelow {A} (n : nat) (p : parser A) : Prop := forall s, length s < n -> p s <> POut.
Lemma nob_many {A} n (p : parser A) : lens true p -> nobelow n p -> nobelow n (many p).
Proof.
  intros Hl Hn s0 Hs0. unfold many. assert (H : forall k s, length s < k -> length s < n -> many_f k p s <> POut).
  { clear s0 Hs0. induction k as [|k IH]; intros s Hs Hsn; [lia|]. cbn [many_f]. specialize (Hn s Hsn). destruct (p s) as [x r'| | |] eqn:Ep; try congruence.
    specialize (Hl _ _ _ Ep). cbn in Hl. specialize (IH r' ltac:(lia) ltac:(lia)). destruct (many_f k p r'); congruence. }
  apply H; lia.
Qed.
Lemma nob_seq {A B} n (p : parser A) (k : A -> parser B) : lens false p -> nobelow n p -> (forall a, nobelow n (k a)) -> nobelow n (seq p k).
Proof.
  intros Hl Hp Hk s Hs. unfold seq. specialize (Hp s Hs). destruct (p s) as [x r'| | |] eqn:Ep; try congruence. apply Hk. specialize (Hl _ _ _ Ep). cbn in Hl. lia.
Qed.
Lemma nob_level n o w p : str w <> [] -> lens true p -> nobelow n p -> nobelow n (d_level sk o w p).
Proof.
  intros Hw Hl Hn. unfold d_level. apply nob_seq; [now apply lens_weak|exact Hn|]. intro a. apply nob_seq; [|apply nob_many|intros b s _; apply nout_ret].
  - apply lens_many, lens_seq; [apply lens_weak, lens_lit; exact Hw|intros _; now apply lens_weak].
  - apply lens_seq_l; [apply lens_lit; exact Hw|intros _; now apply lens_weak].
  - apply nob_seq; [apply lens_weak, lens_lit; exact Hw|intros s _; apply nout_of_opt|intros _; exact Hn].
Qed.
Lemma nob_dnum_f f : nobelow f (p_dnum_f sk f).
Proof.
  induction f as [|f IH]; [intros s Hs; lia|]. intros s Hs. cbn [p_dnum_f].
  assert (Hat : lens true ((t <~ t_dnumber sk ; ret (DN t)) <|> (t_lit sk "(" >> e <~ p_dnum_f sk f ; t_lit sk ")" >> ret e))).
  { pose proof (lens_dnum_f f). lensb. }
  assert (Hno : nobelow (S f) ((t <~ t_dnumber sk ; ret (DN t)) <|> (t_lit sk "(" >> e <~ p_dnum_f sk f ; t_lit sk ")" >> ret e))).
  { intros x Hx. apply noat_alt; [apply (nout_seq (t_dnumber sk)); [apply nout_of_opt|intro; apply nout_ret]|].
    apply noat_seq; [apply nout_of_opt|]. intros u r E. apply lens_lit in E; [|discriminate]. cbn in E.
    apply noat_seq; [apply IH; lia|]. intros a r2 _. apply (nout_seq (t_lit sk ")")); [apply nout_of_opt|intro; apply nout_ret]. }
  assert (Hall : nobelow (S f) (d_level sk DSub "-" (d_level sk DAdd "+" (d_level sk DMul "*" (d_level sk DDiv "/"
     ((t <~ t_dnumber sk ; ret (DN t)) <|> (t_lit sk "(" >> e <~ p_dnum_f sk f ; t_lit sk ")" >> ret e))))))).
  { repeat (first [exact Hat | exact Hno | apply nob_level | apply lens_level | discriminate]). }
  exact (Hall s Hs).
Qed.
Lemma nout_dnum : nout (p_dnum sk).
Proof. intro s. apply nob_dnum_f. lia. Qed.

Lemma below_level o w p q : below p q -> below (d_level sk o w p) (d_level sk o w q).
Proof.
  intro H. unfold d_level. apply below_seq; [exact H|intro]. apply below_seq; [|intro; apply below_refl]. apply below_many, below_seq; [apply below_refl|intro; exact H].
Qed.
Lemma below_dnum f : below (p_dnum_f sk f) (p_dnum_f sk (S f)).
Proof.
  induction f as [|f IH]; [intro s; now left|]. rewrite (dnum_S f), (dnum_S (S f)). do 4 apply below_level.
  unfold d_atom. apply below_alt; [apply below_refl|]. apply below_seq; [apply below_refl|intro]. apply below_seq; [exact IH|intro; apply below_refl].
Qed.
Lemma dnum_fuel f s : length s < f -> p_dnum_f sk f s = p_dnum sk s.
Proof.
  intro H. unfold p_dnum. apply below_ok; [|apply nout_dnum]. assert (G : forall n m, n <= m -> below (p_dnum_f sk n) (p_dnum_f sk m)).
  { intros n m Hm. induction Hm as [|m Hm IH]; [apply below_refl|]. eapply below_trans; [exact IH|apply below_dnum]. }
  apply G. lia.
Qed.

(* ---- the grammar rules ---- *)
Ltac noutb :=
  lazymatch goal with
  | |- forall _, _ => intro; noutb
  | |- nout (match ?x with _ => _ end) => destruct x; noutb
  | |- nout (seq _ _) => apply nout_seq; [noutb|intro; noutb]
  | |- nout (cut _) => apply nout_cut; noutb
  | |- nout (alt _ _) => apply nout_alt; noutb
  | |- nout (ret _) => apply nout_ret
  | |- nout (@fatal _) => apply nout_fatal
  | |- nout (many _) => apply nout_many; [lensb|noutb]
  | |- nout (opt _) => apply nout_opt; noutb
  | |- nout (peek _) => apply nout_peek; noutb
  | |- nout (nota _) => apply nout_nota; noutb
  | |- nout (t_end _) => apply nout_end
  | |- nout (delimited _ _) => apply nout_delimited; [lensb|noutb]
  | |- nout _ => first [solve [eauto with gcn] | apply nout_of_opt]
  end.
Ltac facts := pose proof lens_tix; pose proof nout_tix; pose proof lens_ex; pose proof nout_ex; pose proof lens_dnum; pose proof nout_dnum.
Lemma r_varref : lens true (p_varref sk) /\ nout (p_varref sk).
Proof. facts. unfold p_varref. split; [lensb|noutb]. Qed.
Lemma r_varlist : lens true (p_varlist sk) /\ nout (p_varlist sk).
Proof. destruct r_varref. unfold p_varlist. split; [lensb|noutb]. Qed.
Lemma r_tag : lens true (p_tag sk) /\ nout (p_tag sk).
Proof. unfold p_tag. split; [lensb|noutb]. Qed.
Lemma r_equation : lens true (p_equation sk fread) /\ nout (p_equation sk fread).
Proof.
  facts. destruct r_tag. unfold p_equation, missing_lhs, missing_rhs, missing_equals, valid_equation, post_rhs_check, p_multiplier, p_calibrating. split; [lensb|noutb].
Qed.
Lemma r_darg : lens true (p_darg sk) /\ nout (p_darg sk).
Proof. facts. unfold p_darg. split; [lensb|noutb]. Qed.
Lemma r_call : lens true (p_dist_call sk) /\ nout (p_dist_call sk).
Proof. destruct r_darg. unfold p_dist_call, p_dist_name. split; [lensb|noutb]. Qed.
Lemma r_dist_expr : lens true (p_dist_expr sk) /\ nout (p_dist_expr sk).
Proof. destruct r_darg, r_call. unfold p_dist_expr, p_wrapped, unknown_wrapper, unknown_dist, p_dist_name, p_wrapper_name. split; [lensb|noutb]. Qed.
Lemma r_distribution : lens true (p_distribution sk) /\ nout (p_distribution sk).
Proof. facts. destruct r_dist_expr. unfold p_distribution. split; [lensb|noutb]. Qed.
Lemma r_missing_tilde A : lens true (@missing_tilde sk A) /\ nout (@missing_tilde sk A).
Proof. unfold missing_tilde, p_dist_name, p_wrapper_name. split; [lensb|noutb]. Qed.
Lemma r_cal_item : lens true (p_cal_item sk fread) /\ nout (p_cal_item sk fread).
Proof. destruct r_distribution, (r_missing_tilde (rawdist + equation F)), r_equation. unfold p_cal_item. split; [lensb|noutb]. Qed.
Lemma r_shock_item : lens true (p_shock_item sk) /\ nout (p_shock_item sk).
Proof. destruct r_varref, r_dist_expr. unfold p_shock_item. split; [lensb|noutb]. Qed.
Lemma r_optvars : lens false (p_optvars sk) /\ nout (p_optvars sk).
Proof. destruct r_varlist. unfold p_optvars. split; [lensb|noutb]. Qed.
Lemma r_eq_component kw mk : str kw <> [] -> lens true (eq_component sk fread kw mk) /\ nout (eq_component sk fread kw mk).
Proof. intro Hk. destruct r_equation. unfold eq_component. split; [apply lens_seq_l; [now apply lens_kwc|]; lensb|noutb]. Qed.
Lemma r_valid_component : lens true (valid_component sk fread) /\ nout (valid_component sk fread).
Proof.
  destruct r_optvars, r_shock_item, r_cal_item. unfold valid_component, p_controls, p_shocks, p_calibration.
  destruct (r_eq_component "definitions" CDefinitions ltac:(discriminate)), (r_eq_component "objective" CObjective ltac:(discriminate)),
    (r_eq_component "constraints" CConstraints ltac:(discriminate)), (r_eq_component "identities" CIdentities ltac:(discriminate)).
  split; [lensb|noutb].
Qed.
Lemma r_component : lens true (p_component sk fread) /\ nout (p_component sk fread).
Proof. destruct r_valid_component. unfold p_component. split; [lensb|noutb]. Qed.
Lemma r_block : lens true (p_block sk fread) /\ nout (p_block sk fread).
Proof. destruct r_component. unfold p_block. split; [lensb|noutb]. Qed.
Lemma r_special_parts : lens true (p_option_entry sk) /\ lens true (p_assumption_item sk) /\ lens true (p_subblock sk).
Proof.
  destruct r_varref. unfold p_subblock, p_assumption_item, p_option_entry, p_option_value. do 2 (split; [lensb|]). lensb.
Qed.
Lemma r_special : lens true (p_special sk) /\ nout (p_special sk).
Proof.
  destruct r_optvars, r_varref. unfold p_special, p_options, p_tryreduce, p_assumptions, p_subblock, p_assumption_item, p_option_entry, p_option_value.
  split; [lensb|noutb].
Qed.
Lemma r_top : lens true (p_top sk fread) /\ nout (p_top sk fread).
Proof. destruct r_block. unfold p_top, component_keyword. split; [lensb|noutb]. Qed.
Lemma r_file : lens true (p_file sk fread) /\ nout (p_file sk fread).
Proof. destruct r_special, r_top. unfold p_file. split; [lensb|noutb]. Qed.
End SK.

Lemma skip_len s : length (skip s) <= length s.
Proof. induction s as [|c s IH]; cbn; [lia|]. destruct (is_ws c); cbn; lia. Qed.
Lemma skipc_in_len s : forall b, length (skipc_in b s) <= length s.
Proof.
  induction s as [|c s IH]; intro b; cbn [skipc_in]; [lia|]. destruct b; [specialize (IH (negb (Ascii.eqb c "010"))); cbn; lia|].
  destruct (is_ws c); [specialize (IH false); cbn; lia|]. destruct (Ascii.eqb c "#"); [specialize (IH true); cbn; lia|lia].
Qed.
Lemma skipc_len s : length (skipc s) <= length s. Proof. apply skipc_in_len. Qed.
