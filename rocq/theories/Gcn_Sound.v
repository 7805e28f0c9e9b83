(* The comment-free parser only accepts texts of the grammar *)
From Verif Require Import Common Expr_Model Expr_Spec Expr_Lex Expr_Proofs SymDict_Model Gcn_Lex Gcn_Model Gcn_Basic Gcn_Expr Gcn_Grammar.
Local Open Scope list_scope.
Local Open Scope parser_scope.

Lemma seq_ok {A B} (p : parser A) (k : A -> parser B) s b r : seq p k s = POk b r -> exists a r1, p s = POk a r1 /\ k a r1 = POk b r.
Proof. unfold seq. destruct (p s) as [a r1| | |]; try discriminate. eauto. Qed.
Lemma cut_ok {A} (p : parser A) s a r : cut p s = POk a r -> p s = POk a r.
Proof. unfold cut. destruct (p s); congruence. Qed.
Lemma alt_ok {A} (p q : parser A) s a r : alt p q s = POk a r -> p s = POk a r \/ (p s = PFail /\ q s = POk a r).
Proof. unfold alt. destruct (p s); auto. Qed.
Lemma opt_ok {A} (p : parser A) s o r : opt p s = POk o r -> (exists a, o = Some a /\ p s = POk a r) \/ (o = None /\ r = s /\ p s = PFail).
Proof. unfold opt. destruct (p s); intro H; inversion H; subst; eauto. Qed.
Lemma ret_ok {A} (a b : A) s r : ret a s = POk b r -> b = a /\ r = s.
Proof. intro H. injection H as <- <-. auto. Qed.
Lemma fatal_ok {A} s (b : A) r : fatal s = POk b r -> False. Proof. discriminate. Qed.
Lemma peek_ok {A} (p : parser A) s a r : peek p s = POk a r -> r = s.
Proof. unfold peek. destruct (p s); intro H; inversion H; reflexivity. Qed.

(* ---- tokens ---- *)
Lemma lit_s w s x r : t_lit skip w s = POk x r -> exists v, s = v ++ str w ++ r /\ ws v.
Proof. rewrite lit_eq. destruct (lit w s) eqn:E; [|discriminate]. intro H. injection H as <- <-. now apply lit_sound. Qed.
Lemma ident_s s n r : t_ident skip s = POk n r -> exists w, s = w ++ n ++ r /\ ws w /\ ident n /\ head_not_idc r.
Proof.
  rewrite ident_eq. destruct (p_ident s) as [[n' r']|] eqn:E; [|discriminate]. intro H. injection H as <- <-. apply p_ident_sound in E. destruct E as (w & E & H1 & H2 & H3).
  exists w. repeat split; auto.
Qed.
Lemma tix_s s t r : p_tix skip s = POk t r -> exists w ti, s = w ++ str "[" ++ ti ++ str "]" ++ r /\ ws w /\ tix_text t ti.
Proof. rewrite tix_eq. destruct (p_time_index s) as [[t' r']|] eqn:E; [|discriminate]. intro H. injection H as <- <-. now apply p_time_index_sound. Qed.
Lemma number_s s t r : t_number skip s = POk t r -> exists w, s = w ++ t ++ r /\ ws w /\ numlit t.
Proof. rewrite number_eq. destruct (p_number s) as [[t' r']|] eqn:E; [|discriminate]. intro H. injection H as <- <-. now apply p_number_sound. Qed.
Lemma eat_ci_s w : forall s r, eat_ci w s = Some r -> exists k, s = k ++ r /\ map lower k = map lower w.
Proof.
  induction w as [|c w IH]; intros s r H; cbn in H; [injection H as <-; exists []; auto|]. destruct s as [|d s]; [discriminate|].
  destruct (Ascii.eqb_spec (lower c) (lower d)) as [E|]; [|discriminate]. destruct (IH _ _ H) as (k & -> & Hk). exists (d :: k). split; [reflexivity|]. cbn. congruence.
Qed.
Lemma kwc_s kw s x r : t_kwc skip kw s = POk x r -> exists w k, s = w ++ k ++ r /\ ws w /\ keyword kw k /\ kw_end r = true.
Proof.
  unfold t_kwc, of_opt. destruct (skip_split s) as (w & E & Hw). destruct (eat_ci (str kw) (skip s)) as [r'|] eqn:Ee; [|discriminate]. destruct (kw_end r') eqn:Ek; [|discriminate].
  intro H. injection H as <- <-. apply eat_ci_s in Ee as (k & Ek' & Hk). exists w, k. split; [rewrite <- Ek'; exact E|auto].
Qed.
Lemma kw_s kw s x r : t_kw skip kw s = POk x r -> exists w, s = w ++ str kw ++ r /\ ws w /\ kw_end r = true.
Proof.
  unfold t_kw, of_opt. destruct (skip_split s) as (w & E & Hw). destruct (eat (str kw) (skip s)) as [r'|] eqn:Ee; [|discriminate]. destruct (kw_end r') eqn:Ek; [|discriminate].
  intro H. injection H as <- <-. apply eat_sound in Ee. exists w. split; [rewrite <- Ee; exact E|auto].
Qed.
Lemma longest_In n l : In n (longest l) <-> In n l.
Proof.
  induction l as [|m l IH]; [tauto|]. cbn [longest].
  assert (G : forall k, In n ((fix ins (l : list chars) := match l with [] => [m] | x :: l' => if Nat.leb (length x) (length m) then m :: l else x :: ins l' end) k) <-> m = n \/ In n k).
  { induction k as [|x k IHk]; [cbn; tauto|]. destruct (Nat.leb (length x) (length m)); [cbn; tauto|]. cbn [In]. rewrite IHk. tauto. }
  rewrite G, IH. cbn. tauto.
Qed.
Lemma first_s f names s n r : first_of f names s = Some (n, r) -> In n names /\ f n s = Some r.
Proof. induction names as [|m l IH]; cbn; [discriminate|]. destruct (f m s) eqn:E; [intro H; injection H as <- <-; auto|]. intro H. destruct (IH H). auto. Qed.
Lemma oneof_s names s n r : t_oneof skip names s = POk n r -> exists w, s = w ++ n ++ r /\ ws w /\ In n names.
Proof.
  unfold t_oneof, of_opt. destruct (skip_split s) as (w & E & Hw). destruct (first_of eat (longest names) (skip s)) as [[n' r']|] eqn:Ef; [|discriminate].
  intro H. injection H as <- <-. apply first_s in Ef as [Hi He]. apply (proj1 (longest_In _ _)) in Hi. apply eat_sound in He. exists w. split; [rewrite <- He; exact E|auto].
Qed.
Lemma oneof_ci_s names s n r : t_oneof_ci skip names s = POk n r -> exists w k, s = w ++ k ++ r /\ ws w /\ In n names /\ map lower k = map lower n.
Proof.
  unfold t_oneof_ci, of_opt. destruct (skip_split s) as (w & E & Hw). destruct (first_of eat_ci (longest names) (skip s)) as [[n' r']|] eqn:Ef; [|discriminate].
  intro H. injection H as <- <-. apply first_s in Ef as [Hi He]. apply (proj1 (longest_In _ _)) in Hi. apply eat_ci_s in He as (k & Ek & Hk).
  exists w, k. split; [rewrite <- Ek; exact E|auto].
Qed.
(* ---- combinators ---- *)
Definition sound {A} (p : parser A) (P : A -> chars -> Prop) : Prop := forall s a r, p s = POk a r -> exists t, s = t ++ r /\ P a t.
Lemma many_s {A} (p : parser A) P : sound p P -> sound (many p) (sequence P).
Proof.
  intros Hp s. unfold many. generalize (S (length s)). intro n. revert s. induction n as [|n IH]; intros s a r H; cbn in H; [discriminate|].
  destruct (p s) as [x r1| | |] eqn:E; try discriminate.
  - destruct (many_f n p r1) as [l r2| | |] eqn:Em; try discriminate. injection H as <- <-. apply Hp in E as (t & -> & Ht). apply IH in Em as (t2 & -> & H2).
    exists (t ++ t2). split; [now rewrite app_assoc|]. now constructor.
  - injection H as <- <-. exists []. split; [reflexivity|constructor].
Qed.
Lemma delimited_s {A} (p : parser A) P : sound p P -> sound (delimited skip p) (commas P).
Proof.
  intros Hp s a r H. unfold delimited in H. apply seq_ok in H as (x & r1 & H1 & H). apply seq_ok in H as (l & r2 & H2 & H). apply ret_ok in H as [-> ->].
  apply Hp in H1 as (t & -> & Ht). apply (many_s _ (fun a s => exists w u, s = w ++ str "," ++ u /\ ws w /\ P a u)) in H2.
  - destruct H2 as (t2 & -> & H2). exists (t ++ t2). split; [now rewrite app_assoc|]. revert x t Ht. induction H2 as [|b u l us (w & v & -> & Hw & Hv) _ IH]; intros x t Ht; [rewrite app_nil_r; now constructor|].
    rewrite <- !app_assoc. apply commas_cons; [exact Ht|exact Hw|]. now apply IH.
  - intros s0 a0 r0 H0. apply seq_ok in H0 as (u & r3 & H3 & H0). apply lit_s in H3 as (w & -> & Hw). apply Hp in H0 as (t0 & -> & Ht0).
    exists (w ++ str "," ++ t0). split; [now rewrite <- !app_assoc|]. exists w, t0. auto.
Qed.
(* [eqs]: regroup a text *)
Ltac eqs := repeat rewrite <- app_assoc; cbn [app]; repeat rewrite <- app_assoc; reflexivity.
Ltac step H := let a := fresh "a" in let r := fresh "r" in let E := fresh "E" in apply seq_ok in H as (a & r & E & H); try apply cut_ok in E.

Lemma varref_s : sound (p_varref skip) varref_text.
Proof.
  intros s [n t] r H. unfold p_varref in H. step H. step H. apply ret_ok in H as [H ->]. injection H as -> ->. apply ident_s in E as (w & -> & Hw & Hn & _).
  apply tix_s in E0 as (w1 & ti & -> & Hw1 & Ht). exists (w ++ a ++ w1 ++ str "[" ++ ti ++ str "]"). split; [eqs|]. exists w, w1, ti. auto.
Qed.
Lemma tag_of_s n t : tag_of n = Some t -> map lower n = tag_name t.
Proof. intro H. unfold tag_of in H. apply find_some in H as [_ H]. now apply chars_eqb_eq in H. Qed.
Lemma tag_s s t r : p_tag skip s = POk t r -> exists u, s = u ++ r /\ tag_text t u /\ head_not_idc r.
Proof.
  intro H. unfold p_tag in H. step H. destruct (tag_of a) as [t'|] eqn:Et; [|discriminate]. apply ret_ok in H as [-> ->]. unfold t_tag_name, of_opt in E.
  destruct (skip_split s) as (w & Es & Hw). destruct (eat (str "@") (skip s)) as [r1|] eqn:Ee; [|discriminate]. apply eat_sound in Ee.
  destruct (raw_ident r1) as [[n r2]|] eqn:Er; [|discriminate]. injection E as -> ->. unfold raw_ident in Er. destruct r1 as [|c r1]; [discriminate|]. destruct (is_id0 c) eqn:Ec; [|discriminate].
  destruct (span is_idc r1) as [x y] eqn:Esp. injection Er as <- ->. apply span_sound in Esp as (-> & Hx & Hr).
  exists (w ++ str "@" ++ c :: x). split; [rewrite Es, Ee; eqs|]. split; [|intros d u E; exact (Hr d u E)].
  exists w, (c :: x). split; [reflexivity|]. split; [exact Hw|]. split; [split; assumption|]. now apply tag_of_s.
Qed.
Lemma tags_s s l r : many (p_tag skip) s = POk l r -> exists u, s = u ++ r /\ sequence tag_text l u /\ detached l r.
Proof.
  unfold many. generalize (S (length s)). intro n. revert s l. induction n as [|n IH]; intros s l H; cbn in H; [discriminate|].
  destruct (p_tag skip s) as [x r1| | |] eqn:E; try discriminate.
  - destruct (many_f n (p_tag skip) r1) as [l' r2| | |] eqn:Em; try discriminate. injection H as <- ->. apply tag_s in E as (t & -> & Ht & Hh).
    apply IH in Em as (t2 & -> & H2 & Hd). exists (t ++ t2). split; [now rewrite app_assoc|]. split; [now constructor|].
    right. destruct Hd as [->|Hd]; [|exact Hd]. inversion H2; subst. cbn in Hh. destruct r as [|c r]; [exact I|]. now apply (Hh c r).
  - injection H as <- <-. exists []. split; [reflexivity|]. split; [constructor|now left].
Qed.
Set Default Proof Using "Type".
Section S.
Context {F : Type} (fread : chars -> F).
Lemma multiplier_s s o r : opt (p_multiplier skip) s = POk o r -> exists t, s = t ++ r /\ multiplier_text o t.
Proof.
  intro H. apply opt_ok in H as [(n & -> & H)|(-> & -> & _)]; [|exists []; split; [reflexivity|constructor]]. unfold p_multiplier in H. step H. step H. step H. apply ret_ok in H as [-> ->].
  apply lit_s in E as (w & -> & Hw). apply ident_s in E0 as (w1 & -> & Hw1 & Hn & _). apply tix_s in E1 as (w2 & ti & -> & Hw2 & Ht).
  exists (w ++ str ":" ++ w1 ++ a0 ++ w2 ++ str "[" ++ ti ++ str "]"). split; [eqs|]. apply (mult_some w a0 a1); [exact Hw|]. exists w1, w2, ti. auto.
Qed.
Lemma calibrating_s s o r : opt (p_calibrating skip) s = POk o r -> exists t, s = t ++ r /\ calibrating_text o t.
Proof.
  intro H. apply opt_ok in H as [(n & -> & H)|(-> & -> & _)]; [|exists []; split; [reflexivity|constructor]]. unfold p_calibrating in H. step H.
  apply lit_s in E as (w & -> & Hw). apply ident_s in H as (w1 & -> & Hw1 & Hn & _). exists (w ++ str "->" ++ w1 ++ n). split; [eqs|]. now constructor.
Qed.
Lemma valid_equation_s : sound (valid_equation skip fread) (equation_text fread).
Proof.
  intros s e r H. unfold valid_equation in H. step H. step H. step H. step H. step H. step H. step H. step H. apply ret_ok in H as [-> ->].
  apply tags_s in E as (tt' & -> & Hts & Hd). apply ex_sound in E0 as (lt & -> & Hl). apply lit_s in E1 as (w & -> & Hw). apply ex_sound in E2 as (rt & -> & Hr).
  unfold post_rhs_check in E3. apply opt_ok in E3 as [(u & _ & E3)|(_ & -> & _)].
  { apply seq_ok in E3 as (? & ? & _ & E3). now apply fatal_ok in E3. }
  apply multiplier_s in E4 as (mt & -> & Hm). apply calibrating_s in E5 as (ct & -> & Hc). apply lit_s in E6 as (w1 & -> & Hw1).
  exists (tt' ++ lt ++ w ++ str "=" ++ rt ++ mt ++ ct ++ w1 ++ str ";"). split; [eqs|]. constructor; auto. destruct Hd as [Hd|Hd]; [now left|]. right.
  destruct lt as [|c lt]; [exact I|]. exact Hd.
Qed.
Lemma equation_s : sound (p_equation skip fread) (equation_text fread).
Proof.
  intros s e r H. unfold p_equation in H. apply alt_ok in H as [H|[_ H]]; [|now apply valid_equation_s].
  apply alt_ok in H as [H|[_ H]]; [apply alt_ok in H as [H|[_ H]]|].
  - unfold missing_lhs in H. step H. step H. now apply fatal_ok in H.
  - unfold missing_rhs in H. step H. step H. step H. step H. now apply fatal_ok in H.
  - unfold missing_equals in H. step H. step H. step H. step H. now apply fatal_ok in H.
Qed.
(* ---- distributions ---- *)
Lemma dnumber_s s t r : t_dnumber skip s = POk t r -> exists w, s = w ++ t ++ r /\ ws w /\ dnumber t.
Proof.
  unfold t_dnumber, of_opt. destruct (skip_split s) as (w & Es & Hw). destruct (raw_dnumber (skip s)) as [[t' r']|] eqn:E; [|discriminate]. intro H. injection H as -> ->.
  exists w. rewrite Es. unfold raw_dnumber in E. destruct (p_sign (skip s)) as [sg u] eqn:Esg.
  assert (Hsg : skip s = sg ++ u /\ (sg = [] \/ sg = str "+" \/ sg = str "-")).
  { unfold p_sign in Esg. destruct (skip s) as [|c u']; [injection Esg as <- <-; auto|]. destruct (Ascii.eqb_spec c "+") as [->|]; [injection Esg as <- <-; auto|].
    destruct (Ascii.eqb_spec c "-") as [->|]; cbn in Esg; injection Esg as <- <-; auto. }
  destruct Hsg as [-> Hsg]. destruct (p_mantissa u) as [[m u1]|] eqn:Em; [|discriminate]. apply p_mantissa_sound in Em as [-> Hm].
  destruct m as [|c m]; [discriminate|]. destruct (Ascii.eqb_spec c ".") as [->|Hc].
  - injection E as <- <-. split; [eqs|]. split; [exact Hw|]. inversion Hm as [d Hd Ed|d1 d2 Hd1 Hd2 Ed|d Hd Ed]; subst.
    + destruct Hd as [_ Hd]. cbn in Hd. discriminate.
    + destruct Hd1 as [Hn Hd1]. destruct d1 as [|x d1]; [congruence|]. injection Ed as -> _. cbn in Hd1. discriminate.
    + change ("."%char :: m) with (str "." ++ m). now apply dnumber_frac.
  - destruct (p_exponent u1) as [ex u2] eqn:Ex. apply p_exponent_sound in Ex as [-> Hex]. injection E as <- <-. split; [eqs|]. split; [exact Hw|].
    inversion Hm as [d Hd Ed|d1 d2 Hd1 Hd2 Ed|d Hd Ed]; subst.
    + now apply (dnumber_int sg (c :: m) ex).
    + replace (sg ++ c :: m ++ ex) with (sg ++ d1 ++ str "." ++ d2 ++ ex) by (f_equal; rewrite (app_comm_cons m ex c), <- Ed, <- app_assoc; reflexivity). now apply (dnumber_real sg d1 d2 ex).
    + congruence.
Qed.
Lemma level_s o w n p : str w = dop_text o -> n = dop_level o - 1 -> sound p (arith_text n) -> sound (d_level skip o w p) (arith_text (dop_level o)).
Proof.
  intros Hw -> Hp s e r H. unfold d_level in H. step H. step H. apply ret_ok in H as [-> ->]. apply Hp in E as (t & -> & Ht).
  apply (many_s _ (fun a s => exists w u, s = w ++ dop_text o ++ u /\ ws w /\ arith_text (dop_level o - 1) a u)) in E0.
  - destruct E0 as (t2 & -> & H2). exists (t ++ t2). split; [now rewrite app_assoc|]. destruct a0 as [|b l].
    + inversion H2; subst. rewrite app_nil_r. replace (dop_level o) with (S (dop_level o - 1)) by (destruct o; reflexivity). apply arith_up; [destruct o; cbn; lia|exact Ht].
    + apply arith_op; [exact Ht|discriminate|]. clear Ht. induction H2 as [|x u l' us (w0 & v & -> & Hw0 & Hv) _ IH]; [constructor|]. rewrite <- !app_assoc. now constructor.
  - intros s0 a1 r9 H0. step H0. apply lit_s in E as (w0 & -> & Hw0). apply Hp in H0 as (t0 & -> & Ht0). rewrite Hw. exists (w0 ++ dop_text o ++ t0). split; [eqs|]. exists w0, t0. auto.
Qed.
Lemma dnum_f_s f : sound (p_dnum_f skip f) (arith_text 4).
Proof.
  induction f as [|f IH]; [intros s a r H; discriminate|]. rewrite dnum_S. apply (level_s DSub "-" 3); [reflexivity|reflexivity|]. apply (level_s DAdd "+" 2); [reflexivity|reflexivity|].
  apply (level_s DMul "*" 1); [reflexivity|reflexivity|]. apply (level_s DDiv "/" 0); [reflexivity|reflexivity|]. intros s e r H. unfold d_atom in H. apply alt_ok in H as [H|[_ H]].
  - step H. apply ret_ok in H as [-> ->]. apply dnumber_s in E as (w & -> & Hw & Hd). exists (w ++ a). split; [eqs|]. now constructor.
  - step H. step H. step H. apply ret_ok in H as [-> ->]. apply lit_s in E as (w & -> & Hw). apply IH in E0 as (t & -> & Ht). apply lit_s in E1 as (w1 & -> & Hw1).
    exists (w ++ str "(" ++ t ++ w1 ++ str ")"). split; [eqs|]. now constructor.
Qed.
Lemma dnum_s : sound (p_dnum skip) (arith_text 4).
Proof. intros s. unfold p_dnum. apply dnum_f_s. Qed.
Definition nodollar (r : chars) : Prop := match r with c :: _ => c <> "$"%char | [] => True end.
Lemma nodollar_ws w c r : ws w -> c <> "$"%char -> nodollar (w ++ c :: r).
Proof. intros Hw Hc. destruct w as [|d w]; [exact Hc|]. cbn. intros ->. cbn in Hw. discriminate. Qed.
Lemma delimited_s' {A} (p : parser A) P : (forall s a r, p s = POk a r -> nodollar r -> exists t, s = t ++ r /\ P a t) ->
  forall s l r, delimited skip p s = POk l r -> nodollar r -> exists t, s = t ++ r /\ commas P l t.
Proof.
  intros Hp s l r H Hr. unfold delimited in H. apply seq_ok in H as (x & r1 & H1 & H). apply seq_ok in H as (l' & r2 & H2 & H). apply ret_ok in H as [-> ->].
  assert (G : nodollar r1 /\ exists t2, r1 = t2 ++ r2 /\ forall x t, P x t -> commas P (x :: l') (t ++ t2)).
  { clear H1 x s. unfold many in H2. revert H2. generalize (S (length r1)). intro n. revert r1 l'. induction n as [|n IH]; intros r1 l' H; cbn in H; [discriminate|].
    destruct ((t_lit skip "," >> p) r1) as [x r3| | |] eqn:E; try discriminate.
    - destruct (many_f n (t_lit skip "," >> p) r3) as [l r4| | |] eqn:Em; try discriminate. injection H as <- ->. apply IH in Em as (Hn & t2 & -> & H2).
      apply seq_ok in E as (u & r5 & E1 & E). apply lit_s in E1 as (w & -> & Hw). apply Hp in E; [|exact Hn]. destruct E as (t & -> & Ht).
      split; [apply nodollar_ws; [exact Hw|discriminate]|]. exists (w ++ str "," ++ t ++ t2). split; [eqs|]. intros y t0 H0. apply commas_cons; auto.
    - injection H as <- <-. split; [exact Hr|]. exists []. split; [reflexivity|]. intros y t Ht. rewrite app_nil_r. now constructor. }
  destruct G as (Hn & t2 & -> & H3). apply Hp in H1; [|exact Hn]. destruct H1 as (t & -> & Ht). exists (t ++ t2). split; [now rewrite app_assoc|]. now apply H3.
Qed.
Lemma darg_s s nv r : p_darg skip s = POk nv r -> nodollar r -> exists t, s = t ++ r /\ darg_text nv t.
Proof.
  intros H Hr. unfold p_darg in H. step H. step H. step H. apply ret_ok in H as [-> ->]. apply ident_s in E as (w & -> & Hw & Hn & _).
  apply lit_s in E0 as (w1 & -> & Hw1). assert (G : exists t, r1 = t ++ r2 /\ darg_value a1 t).
  { apply alt_ok in E1 as [E1|[Hk E1]]; [apply alt_ok in E1 as [E1|[_ E1]]|].
    - step E1. apply ret_ok in E1 as [-> ->]. apply dnum_s in E as (t & -> & Ht). exists t. split; [reflexivity|]. now constructor.
    - step E1. apply ret_ok in E1 as [-> ->]. apply kw_s in E as (w2 & -> & Hw2 & _). exists (w2 ++ str "None"). split; [eqs|]. now constructor.
    - step E1. apply ret_ok in E1 as [-> <-]. apply ident_s in E as (w2 & -> & Hw2 & Hn2 & Hh). destruct (kw_end r2) eqn:Ek.
      + exists (w2 ++ a2). split; [eqs|]. constructor; auto. intros ->. unfold alt in Hk. destruct ((e <~ p_dnum skip; ret (ANum e)) (w2 ++ str "None" ++ r2)) as [| | |]; try discriminate.
        unfold seq, t_kw, of_opt in Hk. rewrite skip_ws in Hk by exact Hw2. change (skip (str "None" ++ r2)) with (str "None" ++ r2) in Hk. rewrite eat_app, Ek in Hk. discriminate.
      + exfalso. destruct r2 as [|c r2]; [discriminate|]. cbn in Ek. rewrite (Hh c r2 eq_refl) in Ek. cbn [orb] in Ek. apply negb_false_iff, Ascii.eqb_eq in Ek. now apply Hr. }
  destruct G as (t & -> & Ht). exists (w ++ a ++ w1 ++ str "=" ++ t). split; [eqs|]. exists w, w1, t. auto.
Qed.
Lemma call_s : sound (p_dist_call skip) call_text.
Proof.
  intros s c r H. unfold p_dist_call in H. step H. step H. step H. step H. apply ret_ok in H as [-> ->]. apply oneof_s in E as (w & -> & Hw & Hi). apply lit_s in E0 as (w1 & -> & Hw1).
  apply lit_s in E2 as (w2 & -> & Hw2). assert (G : exists t, r1 = t ++ w2 ++ str ")" ++ r3 /\ dargs_text (args_of a1) t).
  { apply opt_ok in E1 as [(l & -> & E1)|(-> & E1 & _)]; [|exists []; split; [now rewrite <- E1|left; auto]].
    apply (delimited_s' _ _ darg_s) in E1; [|apply nodollar_ws; [exact Hw2|discriminate]]. destruct E1 as (t & -> & Ht). exists t. split; [reflexivity|now right]. }
  destruct G as (t & -> & Ht). exists (w ++ a ++ w1 ++ str "(" ++ t ++ w2 ++ str ")"). split; [eqs|]. exists w, w1, t, w2. cbn [fst snd]. auto 10.
Qed.
Lemma dist_expr_s s c r : p_dist_expr skip s = POk c r -> exists t, s = t ++ r /\ dist_call_text (fst c) (snd c) t.
Proof.
  intro H. unfold p_dist_expr in H. apply alt_ok in H as [H|[_ H]]; [apply alt_ok in H as [H|[_ H]]; [apply alt_ok in H as [H|[_ H]]|]|].
  - unfold p_wrapped in H. step H. step H. step H. step H. step H. apply ret_ok in H as [-> ->]. apply oneof_s in E as (w & -> & Hw & Hi). apply lit_s in E0 as (w1 & -> & Hw1).
    apply call_s in E1 as (t & -> & Ht). apply lit_s in E3 as (w2 & -> & Hw2).
    assert (G : exists u, r2 = u ++ w2 ++ str ")" ++ r4 /\ ((args_of a2 = [] /\ u = []) \/ (exists w3 a', u = w3 ++ str "," ++ a' /\ ws w3 /\ commas darg_text (args_of a2) a'))).
    { apply opt_ok in E2 as [(l & -> & E2)|(-> & E2 & _)]; [|exists []; split; [now rewrite <- E2|left; auto]].
      step E2. apply lit_s in E as (w3 & -> & Hw3). apply (delimited_s' _ _ darg_s) in E2; [|apply nodollar_ws; [exact Hw2|discriminate]]. destruct E2 as (u & -> & Hu).
      exists (w3 ++ str "," ++ u). split; [eqs|]. right. exists w3, u. auto. }
    destruct G as (u & -> & Hu). exists (w ++ a ++ w1 ++ str "(" ++ t ++ u ++ w2 ++ str ")"). split; [eqs|]. cbn [fst snd]. now apply dist_wrapped.
  - step H. apply ret_ok in H as [-> ->]. apply call_s in E as (t & -> & Ht). exists t. split; [reflexivity|]. now constructor.
  - unfold unknown_wrapper in H. step H. step H. step H. now apply fatal_ok in H.
  - unfold unknown_dist in H. step H. step H. step H. now apply fatal_ok in H.
Qed.
Lemma distribution_s : sound (p_distribution skip) distribution_text.
Proof.
  intros s d r H. unfold p_distribution in H. step H. step H. step H. step H. step H. apply ret_ok in H as [-> ->]. apply ident_s in E as (w & -> & Hw & Hn & _). apply lit_s in E0 as (w1 & -> & Hw1).
  apply dist_expr_s in E1 as (c & -> & Hc). apply lit_s in E3 as (w2 & -> & Hw2). destruct a1 as [[n args] wr]. cbn [fst snd] in *.
  assert (G : exists u, r2 = u ++ w2 ++ str ";" ++ r4 /\ init_text (arith_text 4) a2 u).
  { apply opt_ok in E2 as [(e & -> & E2)|(-> & E2 & _)]; [|exists []; split; [now rewrite <- E2|reflexivity]]. step E2. apply lit_s in E as (w3 & -> & Hw3). apply dnum_s in E2 as (u & -> & Hu).
    exists (w3 ++ str "=" ++ u). split; [eqs|]. exists w3, u. auto. }
  destruct G as (u & -> & Hu). exists (w ++ a ++ w1 ++ str "~" ++ c ++ u ++ w2 ++ str ";"). split; [eqs|]. exists w, w1, c, u, w2. cbn. auto 10.
Qed.
End S.
(* ---- calibration ---- *)
Definition identb (n : chars) : bool := match n with c :: r => (is_id0 c && forallb is_idc r)%bool | [] => false end.
Lemma identb_ident n : identb n = true -> ident n.
Proof. destruct n as [|c r]; cbn; [discriminate|]. intro H. apply andb_true_iff in H. exact H. Qed.
Lemma all_ident l : forallb identb l = true -> forall n, In n l -> ident n.
Proof. intros H n Hn. apply identb_ident. now apply (proj1 (forallb_forall _ _) H). Qed.
Lemma dists_ident n : In n preliz_dists -> ident n. Proof. apply all_ident. vm_compute. reflexivity. Qed.
Lemma wrappers_ident n : In n preliz_wrappers -> ident n. Proof. apply all_ident. vm_compute. reflexivity. Qed.
Lemma ident_skip n r : ident n -> skip (n ++ r) = n ++ r.
Proof. destruct n as [|c n]; cbn [ident]; [tauto|]. intros [H _]. cbn [app]. apply skip_nonws. now apply id0_not_ws. Qed.
Lemma first_some f names s x r : In x names -> f x s = Some r -> exists n r', first_of f names s = Some (n, r').
Proof.
  intros Hi He. induction names as [|m l IH]; [contradiction|]. cbn. destruct (f m s) eqn:E; [eauto|]. destruct Hi as [->|Hi]; [congruence|auto].
Qed.
Lemma oneof_some names w x r : In x names -> ident x -> ws w -> exists n r', t_oneof skip names (w ++ x ++ r) = POk n r'.
Proof.
  intros Hi Hx Hw. unfold t_oneof, of_opt. rewrite skip_ws, ident_skip by assumption.
  destruct (first_some eat (longest names) (x ++ r) x r) as (n & r' & ->); [now apply longest_In|apply eat_app|]. eauto.
Qed.
Lemma ws_eq_nidc w c r : ws w -> is_idc c = false -> head_not_idc (w ++ c :: r).
Proof. intros Hw Hc. apply ws_head_nidc; [exact Hw|]. intros d u E. injection E as -> _. exact Hc. Qed.
Definition nid (x : string) : Prop := match str x with c :: _ => is_idc c = false | [] => False end.
Lemma ws_lit_nidc w (x : string) r : ws w -> nid x -> head_not_idc (w ++ str x ++ r).
Proof. unfold nid. intros Hw Hx. destruct (str x) as [|c y]; [contradiction|]. now apply ws_eq_nidc. Qed.
Lemma ident_c w n r : ws w -> ident n -> head_not_idc r -> t_ident skip (w ++ n ++ r) = POk n r.
Proof. intros. rewrite ident_eq. now rewrite p_ident_complete. Qed.
Lemma lit_c (x : string) w r : tok x -> ws w -> t_lit skip x (w ++ str x ++ r) = POk tt r.
Proof. intros. rewrite lit_eq. now rewrite lit_complete. Qed.
Lemma seq_c {A B} (p : parser A) (k : A -> parser B) s a r : p s = POk a r -> seq p k s = k a r.
Proof. unfold seq. now intros ->. Qed.
Lemma looks_fatal A s r : looks_like_distribution s -> @missing_tilde skip A (s ++ r) = PFatal.
Proof.
  intros (w & n & w1 & w2 & x & u & -> & Hw & Hn & Hw1 & Hw2 & Hx). unfold missing_tilde. repeat rewrite <- app_assoc.
  rewrite (seq_c _ _ _ n _ (ident_c w n _ Hw Hn (ws_lit_nidc w1 "=" _ Hw1 eq_refl))).
  assert (G : exists m r', (p_wrapper_name skip <|> p_dist_name skip) (w2 ++ x ++ u ++ r) = POk m r').
  { unfold alt, p_wrapper_name, p_dist_name. apply in_app_or in Hx as [Hx|Hx].
    - destruct (oneof_some preliz_wrappers w2 x (u ++ r) Hx (wrappers_ident x Hx) Hw2) as (m & r' & ->). eauto.
    - destruct (t_oneof skip preliz_wrappers (w2 ++ x ++ u ++ r)) as [m r'| | |] eqn:E; [eauto| | |].
      + apply oneof_some; auto. now apply dists_ident.
      + unfold t_oneof, of_opt in E. destruct (first_of _ _ _) as [[]|]; discriminate.
      + unfold t_oneof, of_opt in E. destruct (first_of _ _ _) as [[]|]; discriminate. }
  destruct G as (m & r' & G). erewrite seq_c; [|unfold peek; erewrite seq_c; [|apply lit_c; [reflexivity|exact Hw1]]; rewrite G; reflexivity].
  erewrite seq_c; [|apply lit_c; [reflexivity|exact Hw1]]. now rewrite (seq_c _ _ _ _ _ G).
Qed.
Section T.
Context {F : Type} (fread : chars -> F).
Lemma cal_item_s : sound (p_cal_item skip fread) (cal_item_text fread).
Proof.
  intros s x r H. unfold p_cal_item in H. apply alt_ok in H as [H|[H0 H]]; [apply alt_ok in H as [H|[_ H]]|].
  - step H. apply ret_ok in H as [-> ->]. apply distribution_s in E as (t & -> & Ht). exists t. split; [reflexivity|now constructor].
  - unfold missing_tilde in H. step H. step H. step H. step H. now apply fatal_ok in H.
  - step H. apply ret_ok in H as [-> ->]. apply (equation_s fread) in E as (t & -> & Ht). exists t. split; [reflexivity|]. constructor; [exact Ht|]. intro Hl.
    unfold alt at 1 in H0. destruct ((d <~ p_distribution skip; ret (inl d)) (t ++ r0)); try discriminate. rewrite (looks_fatal _ _ _ Hl) in H0. discriminate.
Qed.
(* ---- components ---- *)
Lemma shock_s : sound (p_shock_item skip) shock_text.
Proof.
  intros s x r H. unfold p_shock_item in H. apply alt_ok in H as [H|[_ H]]; [apply alt_ok in H as [H|[_ H]]|].
  - step H. step H. step H. step H. step H. apply ret_ok in H as [-> ->]. apply varref_s in E as (t & -> & Ht). apply lit_s in E0 as (w & -> & Hw). apply dist_expr_s in E1 as (c & -> & Hc).
    apply lit_s in E3 as (w1 & -> & Hw1). destruct a1 as [[n args] wr]. cbn [fst snd] in *.
    assert (G : exists u, r2 = u ++ w1 ++ str ";" ++ r4 /\ init_text number_text (option_map DN a2) u).
    { apply opt_ok in E2 as [(e & -> & E2)|(-> & E2 & _)]; [|exists []; split; [now rewrite <- E2|reflexivity]]. step E2. apply lit_s in E as (w3 & -> & Hw3). apply number_s in E2 as (w4 & -> & Hw4 & Hu).
      exists (w3 ++ str "=" ++ w4 ++ e). split; [eqs|]. exists w3, (w4 ++ e). split; [reflexivity|]. split; [exact Hw3|]. exists w4, e. auto. }
    destruct G as (u & -> & Hu). exists (t ++ w ++ str "~" ++ c ++ u ++ w1 ++ str ";"). split; [eqs|]. now apply (shock_dist a t w c u w1 (RawDist (fst a) n args wr (option_map DN a2))).
  - step H. step H. step H. step H. apply ret_ok in H as [-> ->]. apply varref_s in E as (t & -> & Ht). apply lit_s in E0 as (w & -> & Hw). apply (delimited_s _ _ varref_s) in E1 as (u & -> & Hu).
    apply lit_s in E2 as (w1 & -> & Hw1). exists ((t ++ w ++ str "," ++ u) ++ w1 ++ str ";"). split; [eqs|]. constructor; [|exact Hw1]. now constructor.
  - step H. step H. apply ret_ok in H as [-> ->]. apply varref_s in E as (t & -> & Ht). apply lit_s in E0 as (w & -> & Hw). exists (t ++ w ++ str ";"). split; [eqs|]. constructor; [|exact Hw]. now constructor.
Qed.
Lemma optvars_s : sound (p_optvars skip) opt_list_text.
Proof.
  intros s l r H. unfold p_optvars in H. step H. apply ret_ok in H as [-> ->]. apply opt_ok in E as [(v & -> & E)|(-> & -> & _)]; [|exists []; split; [reflexivity|now left]].
  step E. step E. apply ret_ok in E as [-> ->]. apply (delimited_s _ _ varref_s) in E0 as (t & -> & Ht). apply lit_s in E1 as (w & -> & Hw). exists (t ++ w ++ str ";"). split; [eqs|]. right. exists t, w. auto.
Qed.
Lemma braces_s {A B} kw (p : parser A) (P : A -> chars -> Prop) (k : A -> B) s b r : sound p P ->
  (t_kwc skip kw >> !(t_lit skip "{") >> l <~ !p ; !(t_lit skip "}") >> !(t_lit skip ";") >> ret (k l)) s = POk b r ->
  exists t l body, s = t ++ r /\ b = k l /\ P l body /\ braces kw body t.
Proof.
  intros Hp H. step H. step H. step H. step H. step H. apply ret_ok in H as [-> ->]. apply kwc_s in E as (w & k' & -> & Hw & Hk & _). apply lit_s in E0 as (w1 & -> & Hw1).
  apply Hp in E1 as (t & -> & Ht). apply lit_s in E2 as (w2 & -> & Hw2). apply lit_s in E3 as (w3 & -> & Hw3).
  exists (w ++ k' ++ w1 ++ str "{" ++ t ++ w2 ++ str "}" ++ w3 ++ str ";"), a1, t. split; [eqs|]. split; [reflexivity|]. split; [exact Ht|]. exists w, k', w1, w2, w3. auto 10.
Qed.
Lemma valid_component_s : sound (valid_component skip fread) (component_text fread).
Proof.
  intros s x r H. unfold valid_component in H. pose proof (many_s _ _ (equation_s fread)) as He.
  repeat (apply alt_ok in H as [H|[_ H]]).
  - eapply braces_s in H; [|exact He]. destruct H as (t & l & b & -> & -> & H1 & H2). exists t. split; [reflexivity|]. now apply (comp_definitions fread l b).
  - eapply braces_s in H; [|exact optvars_s]. destruct H as (t & l & b & -> & -> & H1 & H2). exists t. split; [reflexivity|]. now apply (comp_controls fread l b).
  - eapply braces_s in H; [|exact He]. destruct H as (t & l & b & -> & -> & H1 & H2). exists t. split; [reflexivity|]. now apply (comp_objective fread l b).
  - eapply braces_s in H; [|exact He]. destruct H as (t & l & b & -> & -> & H1 & H2). exists t. split; [reflexivity|]. now apply (comp_constraints fread l b).
  - eapply braces_s in H; [|exact He]. destruct H as (t & l & b & -> & -> & H1 & H2). exists t. split; [reflexivity|]. now apply (comp_identities fread l b).
  - apply (braces_s "shocks" (many (p_shock_item skip)) (sequence shock_text) (fun l => CShocks (flat_map fst l) (flat_map snd l))) in H; [|exact (many_s _ _ shock_s)].
    destruct H as (t & l & b & -> & -> & H1 & H2). exists t. split; [reflexivity|]. rewrite !flat_map_concat_map. now apply (comp_shocks fread l b).
  - eapply braces_s in H; [|exact (many_s _ _ cal_item_s)]. destruct H as (t & l & b & -> & -> & H1 & H2). exists t. split; [reflexivity|]. now apply (comp_calibration fread l b).
Qed.
Lemma component_s : sound (p_component skip fread) (component_text fread).
Proof.
  intros s x r H. unfold p_component in H. apply alt_ok in H as [H|[_ H]]; [now apply valid_component_s|]. step H. step H. step H. now apply fatal_ok in H.
Qed.
Lemma block_s : sound (p_block skip fread) (block_text fread).
Proof.
  intros s [n c] r H. unfold p_block in H. step H. step H. step H. step H. step H. step H. apply ret_ok in H as [H ->]. injection H as -> ->. apply kwc_s in E as (w & k & -> & Hw & Hk & Hend).
  apply ident_s in E0 as (w1 & -> & Hw1 & Hn & _). apply lit_s in E1 as (w2 & -> & Hw2). apply (many_s _ _ component_s) in E2 as (t & -> & Ht). apply lit_s in E3 as (w3 & -> & Hw3). apply lit_s in E4 as (w4 & -> & Hw4).
  exists (w ++ k ++ w1 ++ a0 ++ w2 ++ str "{" ++ t ++ w3 ++ str "}" ++ w4 ++ str ";"). split; [eqs|]. exists w, k, w1, w2, t, w3, w4. cbn [fst snd].
  split; [reflexivity|]. do 3 (split; [assumption|]). split; [|auto 10]. intros ->. destruct a0 as [|d a0]; [contradiction|]. cbn in Hend. destruct Hn as [Hn _]. rewrite (id0_idc d Hn) in Hend. discriminate.
Qed.
(* ---- special blocks ---- *)
Lemma raw_ident_s s n r : raw_ident s = Some (n, r) -> s = n ++ r /\ ident n /\ head_not_idc r.
Proof.
  unfold raw_ident. destruct s as [|c s]; [discriminate|]. destruct (is_id0 c) eqn:E; [|discriminate]. destruct (span is_idc s) as [x y] eqn:Es. intro H. injection H as <- ->.
  apply span_sound in Es as (-> & Hx & Hr). split; [reflexivity|]. split; [split; assumption|]. intros d u E'. exact (Hr d u E').
Qed.
Lemma raw_words_s n : forall s x r, raw_words n s = (x, r) -> forall w, ident w -> s = x ++ r /\ words (w ++ x).
Proof.
  induction n as [|n IH]; intros s x r H w Hw; cbn in H; [injection H as <- <-; rewrite app_nil_r; split; [reflexivity|now constructor]|].
  destruct (span (Ascii.eqb " ") s) as [sp u] eqn:Es. apply span_sound in Es as (-> & Hsp & _). destruct sp as [|c sp]; [injection H as <- <-; rewrite app_nil_r; split; [reflexivity|now constructor]|].
  destruct (raw_ident u) as [[w1 r1]|] eqn:Er; [|injection H as <- <-; rewrite app_nil_r; split; [reflexivity|now constructor]].
  destruct (raw_words n r1) as [ws1 r2] eqn:Ew. injection H as <- <-. apply raw_ident_s in Er as (-> & Hi & _). destruct (IH _ _ _ Ew w1 Hi) as [-> Hws].
  split; [cbn [app]; eqs|]. rewrite (app_comm_cons sp (w1 ++ ws1) c). apply words_cons; auto. discriminate.
Qed.
Lemma option_s : sound (p_option_entry skip) option_text.
Proof.
  intros s [k v] r H. unfold p_option_entry in H. step H. step H. step H. step H. apply ret_ok in H as [H ->]. injection H as -> ->. unfold t_option_key, of_opt in E.
  destruct (skip_split s) as (w & Es & Hw). destruct (raw_ident (skip s)) as [[n u]|] eqn:Er; [|discriminate]. destruct (raw_words (length u) u) as [x u'] eqn:Ew. injection E as <- ->.
  apply raw_ident_s in Er as (Er & Hn & _). destruct (raw_words_s _ _ _ _ Ew n Hn) as [-> Hwd]. apply lit_s in E0 as (w1 & -> & Hw1). apply lit_s in E2 as (w3 & -> & Hw3).
  assert (G : exists w2 t, r1 = w2 ++ t ++ w3 ++ str ";" ++ r3 /\ ws w2 /\ optval_text a1 t).
  { unfold p_option_value in E1. apply alt_ok in E1 as [E1|[H0 E1]]; [apply alt_ok in E1 as [E1|[_ E1]]|].
    - step E1. apply ret_ok in E1 as [-> <-]. apply kwc_s in E as (w2 & k & -> & Hw2 & Hk & _). exists w2, k. split; [reflexivity|]. split; [exact Hw2|now constructor].
    - step E1. apply ret_ok in E1 as [-> <-]. apply kwc_s in E as (w2 & k & -> & Hw2 & Hk & _). exists w2, k. split; [reflexivity|]. split; [exact Hw2|now constructor].
    - step E1. apply ret_ok in E1 as [-> <-]. apply ident_s in E as (w2 & -> & Hw2 & Hi & Hh). exists w2, a. split; [reflexivity|]. split; [exact Hw2|].
      assert (K : forall kw, keyword kw a -> t_kwc skip kw (w2 ++ a ++ w3 ++ str ";" ++ r3) = POk tt (w3 ++ str ";" ++ r3)).
      { intros kw Hk. unfold t_kwc, of_opt. rewrite skip_ws, ident_skip by assumption.
        assert (Q : forall x y z, map lower y = map lower x -> eat_ci x (y ++ z) = Some z).
        { clear. induction x as [|c x IH]; intros [|d y] z E; try discriminate; [reflexivity|]. injection E as E1 E2. cbn. rewrite E1, Ascii.eqb_refl. now apply IH. }
        rewrite (Q _ _ _ Hk). assert (kw_end (w3 ++ str ";" ++ r3) = true) as ->; [|reflexivity].
        destruct w3 as [|d w3]; [reflexivity|]. cbn in Hw3. apply andb_true_iff in Hw3 as [Hd _]. cbn. destruct (is_idc d) eqn:Ed; [apply idc_not_ws in Ed; congruence|].
        destruct (Ascii.eqb_spec d "$") as [->|]; [discriminate Hd|reflexivity]. }
      unfold alt, seq in H0. constructor; [exact Hi| |]; intro Hk; rewrite (K _ Hk) in H0; [discriminate|]. destruct (t_kwc skip "TRUE" (w2 ++ a ++ w3 ++ str ";" ++ r3)); discriminate. }
  destruct G as (w2 & t & -> & Hw2 & Ht). exists (w ++ (n ++ x) ++ w1 ++ str "=" ++ w2 ++ t ++ w3 ++ str ";"). split; [rewrite Es, Er; eqs|]. exists w, w1, w2, t, w3. cbn [fst snd]. auto 10.
Qed.
Lemma assumption_item_s : sound (p_assumption_item skip) assumption_item_text.
Proof.
  intros s n r H. unfold p_assumption_item in H. apply alt_ok in H as [H|[_ H]].
  - step H. apply ret_ok in H as [-> ->]. apply varref_s in E as (t & -> & Ht). exists t. split; [reflexivity|]. left. destruct a as [n ti]. exists ti. exact Ht.
  - apply ident_s in H as (w & -> & Hw & Hn & _). exists (w ++ n). split; [eqs|]. right. exists w. auto.
Qed.
Lemma subblock_s : sound (p_subblock skip) subblock_text.
Proof.
  intros s [n l] r H. unfold p_subblock in H. apply alt_ok in H as [H|[_ H]]; [|step H; step H; now apply fatal_ok in H].
  step H. step H. step H. step H. step H. step H. apply ret_ok in H as [H ->]. injection H as -> ->. apply oneof_ci_s in E as (w & k & -> & Hw & Hi & Hk). apply lit_s in E0 as (w1 & -> & Hw1).
  apply (delimited_s _ _ assumption_item_s) in E1 as (t & -> & Ht). apply lit_s in E2 as (w2 & -> & Hw2). apply lit_s in E3 as (w3 & -> & Hw3). apply lit_s in E4 as (w4 & -> & Hw4).
  exists (w ++ k ++ w1 ++ str "{" ++ t ++ w2 ++ str ";" ++ w3 ++ str "}" ++ w4 ++ str ";"). split; [eqs|]. exists w, k, w1, t, w2, w3, w4. cbn [fst snd].
  assert (map lower a = a) as La. { assert (G : forallb (fun a => chars_eqb (map lower a) a) gcn_assumptions = true) by (vm_compute; reflexivity). apply chars_eqb_eq. exact (proj1 (forallb_forall _ _) G a Hi). }
  rewrite La in Hk. auto 12.
Qed.
Lemma special_s : sound (p_special skip) special_text.
Proof.
  intros s x r H. unfold p_special in H. repeat (apply alt_ok in H as [H|[_ H]]).
  - eapply braces_s in H; [|exact (many_s _ _ option_s)]. destruct H as (t & l & b & -> & -> & H1 & H2). exists t. split; [reflexivity|]. now apply (special_options l b).
  - apply (braces_s "tryreduce" (p_optvars skip) opt_list_text (fun v => STryreduce (map fst v))) in H; [|exact optvars_s]. destruct H as (t & l & b & -> & -> & H1 & H2). exists t. split; [reflexivity|]. now apply (special_tryreduce l b).
  - eapply braces_s in H; [|exact (many_s _ _ subblock_s)]. destruct H as (t & l & b & -> & -> & H1 & H2). exists t. split; [reflexivity|]. now apply (special_assumptions l b).
Qed.
Lemma top_s : sound (p_top skip fread) (block_text fread).
Proof. intros s x r H. unfold p_top in H. apply alt_ok in H as [H|[_ H]]; [|now apply block_s]. step H. step H. now apply fatal_ok in H. Qed.
Lemma end_s s x r : t_end skip s = POk x r -> ws s /\ r = [].
Proof. unfold t_end. destruct (skip_split s) as (w & E & Hw). destruct (skip s) eqn:Es; [|discriminate]. rewrite app_nil_r in E. subst w. intro H. injection H as _ <-. auto. Qed.
Lemma file_s s x r : p_file skip fread s = POk x r -> file_text fread x s.
Proof.
  intro H. unfold p_file in H. step H. step H. step H. step H. apply ret_ok in H as [-> ->]. apply (many_s _ _ special_s) in E as (t1 & -> & H1). apply top_s in E0 as (t2 & -> & H2).
  apply (many_s _ _ top_s) in E1 as (t3 & -> & H3). apply end_s in E2 as [Hw _]. exists t1, (t2 ++ t3), r2. split; [eqs|]. split; [exact H1|]. split; [now constructor|]. split; [discriminate|exact Hw].
Qed.
Lemma equation_full_s s e r : (e <~ p_equation skip fread ; t_end skip >> ret e) s = POk e r -> exists t w, s = t ++ w /\ equation_text fread e t /\ ws w.
Proof. intro H. step H. step H. apply ret_ok in H as [-> ->]. apply (equation_s fread) in E as (t & -> & Ht). apply end_s in E0 as [Hw _]. eauto. Qed.
Lemma block_full_s s b r : (b <~ p_block skip fread ; t_end skip >> ret b) s = POk b r -> exists t w, s = t ++ w /\ block_text fread b t /\ ws w.
Proof. intro H. step H. step H. apply ret_ok in H as [-> ->]. apply block_s in E as (t & -> & Ht). apply end_s in E0 as [Hw _]. eauto. Qed.
End T.
