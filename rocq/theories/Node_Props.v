(* C164: nodes as values and as texts *)
From Verif Require Import Common Node_Model.
From Coq Require Import ZArith.
Local Open Scope list_scope.

(* ---- specification ---- *)
Definition digit (c : ascii) : Prop := 48 <= Ascii.nat_of_ascii c <= 57.
Definition letter (c : ascii) : Prop := 65 <= Ascii.nat_of_ascii c <= 90 \/ 97 <= Ascii.nat_of_ascii c <= 122 \/ c = "_"%char.
(* the characters of names and numbers *)
Definition word_char (c : ascii) : Prop := digit c \/ letter c \/ c = "."%char \/ c = "-"%char \/ c = "+"%char.
Definition name (n : chars) : Prop := Forall word_char n /\ exists c r, n = c :: r /\ letter c.
Definition numeral (t : chars) : Prop := Forall word_char t /\ exists c r, (t = c :: r \/ t = "-"%char :: c :: r) /\ digit c.
(* a tree as the grammar makes it *)
Inductive legal : node -> Prop :=
| L_number t : numeral t -> legal (Number t)
| L_param n : name n -> legal (Param n)
| L_var n t : name n -> legal (Var n t)
| L_binary l o r : o <> NEG -> legal l -> legal r -> legal (Binary l o r)
| L_unary e : legal e -> legal (Unary NEG e)
| L_call f args : name f -> Forall legal args -> legal (Call f args)
| L_expect e : legal e -> legal (Expect e).

(* ---- lemmas ---- *)
Definition ends (r : chars) : Prop := r = [] \/ exists c r', r = c :: r' /\ ~ word_char c.
(* what can follow an expression *)
Definition stop (r : chars) : Prop := r = [] \/ exists c r', r = c :: r' /\ (c = " "%char \/ c = ")"%char \/ c = "]"%char \/ c = ","%char).
Lemma not_word c : In c [" "; ")"; "]"; ","; "("; "["]%char -> ~ word_char c.
Proof.
  unfold word_char, digit, letter. intros H. cbn [In] in H.
  repeat (destruct H as [<-|H]; [cbn; intros [X|[[X|[X|X]]|[X|[X|X]]]]; try discriminate X; lia|]). destruct H.
Qed.
Lemma stop_ends r : stop r -> ends r.
Proof. intros [->|(c & r' & -> & H)]; [now left|right]. exists c, r'. split; [easy|]. apply not_word. cbn. intuition. Qed.
Lemma ends_cons c r : In c [" "; ")"; "]"; ","; "("; "["]%char -> ends (c :: r).
Proof. right. exists c, r. split; [easy|now apply not_word]. Qed.
Lemma stop_cons c r : In c [" "; ")"; "]"; ","]%char -> stop (c :: r).
Proof. right. exists c, r. split; [easy|]. cbn in H. intuition. Qed.
Lemma token w1 : forall w2 r1 r2, Forall word_char w1 -> Forall word_char w2 -> ends r1 -> ends r2 -> w1 ++ r1 = w2 ++ r2 -> w1 = w2 /\ r1 = r2.
Proof.
  induction w1 as [|c w1 IH]; intros [|d w2] r1 r2 F1 F2 E1 E2 H; cbn [app] in H.
  - easy.
  - exfalso. subst r1. destruct E1 as [E1|(x & r' & E & N)]; [discriminate E1|]. injection E as <- <-. inversion F2; contradiction.
  - exfalso. subst r2. destruct E2 as [E2|(x & r' & E & N)]; [discriminate E2|]. injection E as <- <-. inversion F1; contradiction.
  - injection H as <- H. inversion F1; subst. inversion F2; subst. destruct (IH w2 r1 r2) as [-> ->]; auto.
Qed.
Lemma letter_word c : letter c -> word_char c. Proof. unfold word_char. tauto. Qed.
Lemma digit_word c : digit c -> word_char c. Proof. unfold word_char. tauto. Qed.
Lemma is_digit_digit c : is_digit c = true -> digit c.
Proof. unfold is_digit, digit. intros H. rewrite ?Bool.andb_true_iff, ?N.leb_le, ?Nat.leb_le in H. unfold Ascii.nat_of_ascii. cbv zeta in *. lia. Qed.
Lemma dec_word n : Forall word_char (dec n).
Proof. apply Forall_forall. intros c H. pose proof (dec_digits n) as D. rewrite forallb_forall in D. apply digit_word, is_digit_digit, D, H. Qed.
Lemma minus_word : word_char "-"%char. Proof. unfold word_char. tauto. Qed.
Lemma inside_word t : Forall word_char (inside t).
Proof.
  destruct t as [z|]; cbn [inside].
  - destruct (Z.eqb z 0); [constructor|]. unfold integer_text. destruct (Z.ltb z 0); [constructor; [apply minus_word|]|]; apply dec_word.
  - repeat constructor; apply letter_word; unfold letter; cbn; lia.
Qed.
Lemma dec_head n : exists c r, dec n = c :: r /\ digit c.
Proof.
  pose proof (dec_digits n) as D. destruct (dec n) as [|c r] eqn:E; [destruct (dec_nonempty n E)|]. exists c, r. split; [easy|].
  cbn [forallb] in D. apply andb_true_iff in D. apply is_digit_digit, D.
Qed.
Lemma int_of_text z : int_of (integer_text z) = Some z.
Proof.
  unfold integer_text. destruct (Z.ltb_spec z 0) as [L|L].
  - unfold int_of. destruct (ascii_dec "-" "-") as [_|X]; [|destruct (X eq_refl)]. rewrite undec_dec. cbn [option_map]. f_equal. rewrite N2Z.inj_abs_N. lia.
  - destruct (dec_head (Z.abs_N z)) as (c & r & E & D). unfold int_of. rewrite E. destruct (ascii_dec c "-") as [->|_]; [unfold digit in D; cbn in D; lia|].
    rewrite <- E, undec_dec. cbn [option_map]. f_equal. rewrite N2Z.inj_abs_N. lia.
Qed.
Lemma integer_not_ss z : integer_text z <> str "ss".
Proof. intros E. pose proof (int_of_text z) as H. rewrite E in H. discriminate H. Qed.

(* ---- time indices ---- *)
(* what an index is written as is read back as that index *)
Theorem C164_index_read_back t : parse_time_index (inside t) = Ok t.
Proof.
  destruct t as [z|]; [|reflexivity]. cbn [inside]. destruct (Z.eqb_spec z 0) as [->|N]; [reflexivity|]. unfold parse_time_index.
  destruct (integer_text z) as [|c r] eqn:E; [pose proof (int_of_text z) as H; rewrite E in H; discriminate H|]. rewrite <- E.
  destruct (chars_eqb (integer_text z) (str "ss")) eqn:S; [apply chars_eqb_eq in S; destruct (integer_not_ss z S)|]. now rewrite int_of_text.
Qed.
Lemma inside_inj t u : inside t = inside u -> t = u.
Proof. intros E. pose proof (C164_index_read_back t) as H. rewrite E, C164_index_read_back in H. congruence. Qed.
Theorem C164_steps : (forall t u, step_forward t = Ok u <-> step_backward u = Ok t) /\ step_forward Steady = Err ValueError /\ step_backward Steady = Err ValueError /\
  (forall s, time_of (inl s) = Ok Steady /\ s = str "ss" \/ time_of (inl s) = Err ValueError /\ s <> str "ss") /\ forall z, time_of (inr z) = Ok (At z).
Proof.
  refine (conj _ (conj eq_refl (conj eq_refl (conj _ _)))); [| |reflexivity].
  - intros [z|] [w|]; cbn; split; intro H; try discriminate H; injection H as H; do 2 f_equal; lia.
  - intros s. cbn [time_of]. destruct (chars_eqb s (str "ss")) eqn:E; [left; apply chars_eqb_eq in E; auto|right]. split; [easy|]. intros X. subst s. rewrite chars_eqb_refl in E. discriminate E.
Qed.
Theorem C164_at {L} (v : chars * time * L) : (forall t, at_time v (inl t) = Ok (fst (fst v), t, snd v)) /\ to_ss v = Ok (fst (fst v), Steady, snd v) /\
  (forall z, at_time v (inr (inr z)) = Ok (fst (fst v), At z, snd v)) /\ forall s, s <> str "ss" -> at_time v (inr (inl s)) = Err ValueError.
Proof.
  refine (conj _ (conj eq_refl (conj _ _))); try reflexivity. intros s H. unfold at_time. cbn [time_of]. destruct (chars_eqb s (str "ss")) eqn:E; [apply chars_eqb_eq in E; contradiction|reflexivity].
Qed.

(* ---- texts ---- *)
Lemma name_head n : name n -> exists c r, n = c :: r /\ letter c. Proof. now intros [_ H]. Qed.
Lemma name_numeral n t : name n -> numeral t -> n <> t.
Proof.
  intros (_ & c & r & -> & Lc) (_ & d & q & [-> | ->] & Dd) E; injection E as -> _; unfold letter, digit in *; [|cbn in Lc; destruct Lc as [X|[X|X]]; [lia|lia|discriminate X]].
  destruct Lc as [X|[X|X]]; [lia|lia|subst d; cbn in Dd; lia].
Qed.
Lemma name_paren n r q : name n -> n ++ r <> "("%char :: q.
Proof. intros (_ & c & s & -> & Lc) E. injection E as -> _. unfold letter in Lc. cbn in Lc. destruct Lc as [X|[X|X]]; [lia|lia|discriminate X]. Qed.
Lemma numeral_paren n r q : numeral n -> n ++ r <> "("%char :: q.
Proof. intros (_ & c & s & [-> | ->] & Lc) E; injection E as X _; [subst c; unfold digit in Lc; cbn in Lc; lia|discriminate X]. Qed.
Lemma E_name : name (str "E").
Proof. assert (letter "E"%char) as L by (unfold letter; cbn; lia). split; [repeat constructor; now apply letter_word|]. exists "E"%char, []. easy. Qed.
(* the first character of a text *)
Lemma text_head e : legal e -> exists c r, text e = c :: r /\ c <> ")"%char /\ c <> "]"%char.
Proof.
  assert (forall n, name n -> forall r, exists c q, n ++ r = c :: q /\ c <> ")"%char /\ c <> "]"%char) as N.
  { intros n (_ & c & q & -> & Lc) r. exists c, (q ++ r). split; [easy|]. split; intros ->; unfold letter in Lc; cbn in Lc; destruct Lc as [X|[X|X]]; try lia; discriminate X. }
  intros H. destruct H as [t (_ & c & q & [-> | ->] & Dc)|n H|n t H|l o r|e|f args H|e]; cbn [text].
  - exists c, q. split; [easy|]. split; intros ->; unfold digit in Dc; cbn in Dc; lia.
  - exists "-"%char, (c :: q). easy.
  - destruct (N n H []) as (c & q & E & X). rewrite app_nil_r in E. exists c, q. easy.
  - now apply N.
  - do 2 eexists. split; [reflexivity|easy].
  - do 2 eexists. split; [reflexivity|easy].
  - now apply N.
  - do 2 eexists. split; [reflexivity|easy].
Qed.
(* an expression that begins with a digit is a number *)
Lemma digit_number e c r : legal e -> text e = c :: r -> digit c -> exists t, e = Number t.
Proof.
  assert (forall n q, name n -> n ++ q = c :: r -> digit c -> False) as N.
  { intros n q (_ & d & s & -> & Lc) E D. injection E as -> _. unfold letter, digit in *. destruct Lc as [X|[X|X]]; [lia|lia|subst c; cbn in D; lia]. }
  intros H E D. destruct H as [t _|n H|n t H|l o r'|e'|f args H|e']; cbn [text] in E; [now exists t| | | | | |]; exfalso.
  - eapply (N n []); eauto. now rewrite app_nil_r.
  - eapply N; eauto.
  - injection E as <- _. unfold digit in D. cbn in D. lia.
  - injection E as <- _. unfold digit in D. cbn in D. lia.
  - eapply N; eauto.
  - injection E as <- _. unfold digit in D. cbn in D. lia.
Qed.
Lemma op_inj o p : o <> NEG -> p <> NEG -> op_char o = op_char p -> o = p.
Proof. destruct o, p; intros A B H; try reflexivity; try discriminate H; try (now destruct A); now destruct B. Qed.
Lemma assoc1 {A} (x : A) l r : (l ++ [x]) ++ r = l ++ x :: r. Proof. now rewrite <- app_assoc. Qed.
Definition unique (n : nat) : Prop := forall e1 e2 r1 r2, length (text e1) < n -> legal e1 -> legal e2 -> stop r1 -> stop r2 ->
  text e1 ++ r1 = text e2 ++ r2 -> e1 = e2 /\ r1 = r2.
Definition more (l : list node) : chars := concat (map (fun u => str ", " ++ u) (map text l)).
Lemma more_unique n (U : unique n) l1 : forall l2 r1 r2, length (more l1) < n -> Forall legal l1 -> Forall legal l2 ->
  more l1 ++ ")"%char :: r1 = more l2 ++ ")"%char :: r2 -> l1 = l2 /\ r1 = r2.
Proof.
  induction l1 as [|a l1 IH]; intros [|b l2] r1 r2 Ln F1 F2 E; unfold more in *; cbn [map concat app] in *.
  - split; congruence.
  - discriminate E.
  - discriminate E.
  - rewrite <- !app_assoc in E. cbn [str list_ascii_of_string app] in E, Ln. injection E as E. inversion F1; subst. inversion F2; subst.
    cbn [length] in Ln. rewrite app_length in Ln.
    assert (forall l r, Forall legal l -> stop (concat (map (fun u => str ", " ++ u) (map text l)) ++ ")"%char :: r)) as St.
    { intros [|y l] r _; cbn [map concat app]; [apply stop_cons; cbn; tauto|]. cbn [str list_ascii_of_string app]. apply stop_cons; cbn; tauto. }
    destruct (U a b _ _ ltac:(lia) ltac:(assumption) ltac:(assumption) (St l1 r1 ltac:(assumption)) (St l2 r2 ltac:(assumption)) E) as [-> E'].
    destruct (IH l2 r1 r2) as [-> ->]; auto. cbn [str list_ascii_of_string app]. lia.
Qed.
Lemma args_unique n (U : unique n) l1 l2 r1 r2 : length (listed (map text l1)) < n -> Forall legal l1 -> Forall legal l2 ->
  listed (map text l1) ++ ")"%char :: r1 = listed (map text l2) ++ ")"%char :: r2 -> l1 = l2 /\ r1 = r2.
Proof.
  destruct l1 as [|a l1], l2 as [|b l2]; cbn [map listed app]; intros Ln F1 F2 E.
  - split; congruence.
  - inversion F2; subst. destruct (text_head b) as (c & q & Eb & N & _); [assumption|]. rewrite Eb in E. cbn [app] in E. congruence.
  - inversion F1; subst. destruct (text_head a) as (c & q & Eb & N & _); [assumption|]. rewrite Eb in E. cbn [app] in E. congruence.
  - inversion F1; subst. inversion F2; subst. rewrite <- !app_assoc in E. rewrite app_length in Ln.
    assert (forall l r, stop (concat (map (fun u => str ", " ++ u) (map text l)) ++ ")"%char :: r)) as St.
    { intros [|y l] r; cbn [map concat app]; [apply stop_cons; cbn; tauto|]. cbn [str list_ascii_of_string app]. apply stop_cons; cbn; tauto. }
    destruct (U a b _ _ ltac:(lia) ltac:(assumption) ltac:(assumption) (St l1 r1) (St l2 r2) E) as [-> E'].
    destruct (more_unique n U l1 l2 r1 r2) as [-> ->]; auto. unfold more. lia.
Qed.
(* a legal tree begins with a word, or with a parenthesis *)
Inductive shape : node -> chars -> chars -> Prop :=
| Sh_number t : numeral t -> shape (Number t) t []
| Sh_param n : name n -> shape (Param n) n []
| Sh_var n t : name n -> shape (Var n t) n ("["%char :: inside t ++ ["]"%char])
| Sh_call f args : name f -> Forall legal args -> shape (Call f args) f ("("%char :: listed (map text args) ++ [")"%char])
| Sh_expect e : legal e -> shape (Expect e) (str "E") ("["%char :: "]"%char :: "["%char :: text e ++ ["]"%char]).
Lemma shapes e : legal e -> (exists w q, shape e w q /\ text e = w ++ q) \/ (exists q, text e = "("%char :: q).
Proof.
  intros H. destruct H; cbn [text].
  - left. exists t, []. split; [now constructor|now rewrite app_nil_r].
  - left. exists n, []. split; [now constructor|now rewrite app_nil_r].
  - left. exists n. eexists. split; [now constructor|reflexivity].
  - right. now eexists.
  - right. now eexists.
  - left. exists f. eexists. split; [now constructor|reflexivity].
  - left. exists (str "E"). eexists. split; [now constructor|reflexivity].
Qed.
Lemma shape_word e w q r : shape e w q -> stop r -> Forall word_char w /\ ends (q ++ r) /\ forall x, w ++ q ++ r <> "("%char :: x.
Proof.
  intros H Sr. destruct H as [t H|n H|n t H|f args H _|e _]; (split; [try apply H; try apply E_name|split]); cbn [app].
  - now apply stop_ends. - intros x. now apply numeral_paren.
  - now apply stop_ends. - intros x. now apply name_paren.
  - apply ends_cons; cbn; tauto. - intros x. now apply name_paren.
  - apply ends_cons; cbn; tauto. - intros x. now apply name_paren.
  - apply ends_cons; cbn; tauto. - intros x. apply name_paren, E_name.
Qed.
Lemma stop_not c r q : stop r -> In c ["("; "["]%char -> r <> c :: q.
Proof. intros [->|(d & s & -> & H)] I E; [discriminate E|]. injection E as -> _. cbn in I. destruct I as [<-|[<-|[]]]; destruct H as [X|[X|[X|X]]]; discriminate X. Qed.
Lemma binary_binary n (U : unique n) l o r l2 o2 r' r1 r2 : length (text (Binary l o r)) < S n -> o <> NEG -> o2 <> NEG -> legal l -> legal r -> legal l2 -> legal r' ->
  text (Binary l o r) ++ r1 = text (Binary l2 o2 r') ++ r2 -> Binary l o r = Binary l2 o2 r' /\ r1 = r2.
Proof.
  intros Ln N1 N2 Ll Lr Ll2 Lr2 E. cbn [text app] in E, Ln. injection E as E. rewrite <- !app_assoc in E. cbn [app] in E. cbn [length] in Ln. rewrite !app_length in Ln. cbn [length] in Ln. rewrite app_length in Ln. cbn [length] in Ln.
  destruct (U l l2 _ _ ltac:(lia) Ll Ll2 (stop_cons " " _ ltac:(cbn; tauto)) (stop_cons " " _ ltac:(cbn; tauto)) E) as [-> E']. injection E' as Eo E'. rewrite <- !app_assoc in E'. cbn [app] in E'.
  destruct (U r r' _ _ ltac:(lia) Lr Lr2 (stop_cons ")" _ ltac:(cbn; tauto)) (stop_cons ")" _ ltac:(cbn; tauto)) E') as [-> Er].
  rewrite (op_inj _ _ N1 N2 Eo). split; [reflexivity|congruence].
Qed.
(* a sum that begins with a negative number is not a negation *)
Lemma binary_unary l o r e r1 r2 : legal l -> legal e ->
  text (Binary l o r) ++ r1 = text (Unary NEG e) ++ r2 -> False.
Proof.
  intros Ll Le E. cbn [text app op_char] in E. injection E as E. rewrite <- !app_assoc in E. cbn [app] in E.
  assert (exists t, l = Number t) as (t & ->).
  { destruct Ll as [t _|m (_ & c & s & -> & Lc)|m t (_ & c & s & -> & Lc)|? ? ?|?|f a (_ & c & s & -> & Lc) _|?]; [now exists t| | | | | |]; exfalso; cbn [text app] in E; try discriminate E;
      injection E as -> _; unfold letter in Lc; cbn in Lc; destruct Lc as [X|[X|X]]; try lia; discriminate X. }
  inversion Ll as [t' (W & c & s & [-> | ->] & D)| | | | | |]; subst; cbn [text app] in E.
  - injection E as -> _. unfold digit in D. cbn in D. lia.
  - injection E as E. destruct (text_head e Le) as (d & q & Ee & _). pose proof E as E0. rewrite Ee in E0. cbn [app] in E0. injection E0 as <- _.
    destruct (digit_number e c q Le Ee D) as (u & ->). inversion Le as [? (Wu & _)| | | | | |]; subst. inversion W; subst. cbn [text] in E.
    destruct (token (c :: s) u (" "%char :: op_char o :: " "%char :: text r ++ ")"%char :: r1) (")"%char :: r2)) as [_ X]; auto; try (apply ends_cons; cbn; tauto);
      [cbn [app]; rewrite <- ?app_assoc in *; cbn [app] in *; exact E|discriminate X].
Qed.
Lemma paren_tree e q : legal e -> text e = "("%char :: q ->
  (exists l o r, e = Binary l o r /\ o <> NEG /\ legal l /\ legal r) \/ (exists x, e = Unary NEG x /\ legal x).
Proof.
  intros H E. destruct H as [t H|m H|m t H|l o r No Ll Lr|x Lx|f a H _|x _]; cbn [text] in E.
  - destruct (numeral_paren t [] q H). now rewrite app_nil_r.
  - destruct (name_paren m [] q H). now rewrite app_nil_r.
  - destruct (name_paren m _ q H E).
  - left. now exists l, o, r.
  - right. now exists x.
  - destruct (name_paren f _ q H E).
  - discriminate E.
Qed.
Lemma texts_unique n : unique n.
Proof.
  induction n as [|n IH]; intros e1 e2 r1 r2 Ln H1 H2 S1 S2 E; [lia|].
  destruct (shapes e1 H1) as [(w1 & q1 & Sh1 & T1)|(q1 & T1)], (shapes e2 H2) as [(w2 & q2 & Sh2 & T2)|(q2 & T2)].
  - rewrite T1 in Ln. rewrite T1, T2, <- !app_assoc in E.
    destruct (shape_word _ _ _ _ Sh1 S1) as (W1 & E1 & _), (shape_word _ _ _ _ Sh2 S2) as (W2 & E2 & _).
    destruct (token _ _ _ _ W1 W2 E1 E2 E) as [Ew Eq]. clear E T1 T2 W1 W2 E1 E2. rewrite app_length in Ln.
    destruct Sh1 as [t1 N1|n1 N1|n1 t1 N1|f1 a1 N1 L1|x1 L1], Sh2 as [t2 N2|n2 N2|n2 t2 N2|f2 a2 N2 L2|x2 L2]; cbn [app] in Eq; subst;
      try (split; reflexivity); try discriminate Eq;
      try (exfalso; match goal with A : name ?n, B : numeral ?n |- _ => exact (name_numeral n n A B eq_refl) | B : numeral (str "E") |- _ => exact (name_numeral _ _ E_name B eq_refl) end);
      try (exfalso; match goal with A : stop (?c :: ?q) |- _ => exact (stop_not c _ q A ltac:(cbn; tauto) eq_refl) end);
      try (exfalso; match goal with A : stop ?r, B : ?r = _ :: _ |- _ => exact (stop_not _ _ _ A ltac:(cbn; tauto) B) | A : stop ?r, B : _ :: _ = ?r |- _ => exact (stop_not _ _ _ A ltac:(cbn; tauto) (eq_sym B)) end).
    + (* variables *) injection Eq as Eq. rewrite !assoc1 in Eq.
      destruct (token _ _ _ _ (inside_word t1) (inside_word t2) (ends_cons "]" r1 ltac:(cbn; tauto)) (ends_cons "]" r2 ltac:(cbn; tauto)) Eq) as [Et Er].
      apply inside_inj in Et. subst. split; [reflexivity|congruence].
    + (* a variable and an expectation *) exfalso. injection Eq as Eq. rewrite assoc1 in Eq.
      assert (inside t1 ++ "]"%char :: r1 = [] ++ "]"%char :: "["%char :: text x2 ++ "]"%char :: r2) as Eq' by (rewrite Eq; cbn [app]; now rewrite assoc1).
      destruct (token _ [] _ _ (inside_word t1) (Forall_nil _) (ends_cons "]" _ ltac:(cbn; tauto)) (ends_cons "]" _ ltac:(cbn; tauto)) Eq') as [_ Er].
      injection Er as Er. exact (stop_not "[" _ _ S1 ltac:(cbn; tauto) Er).
    + injection Eq as Eq. rewrite !assoc1 in Eq. cbn [length] in Ln. rewrite app_length in Ln.
      destruct (args_unique n IH a1 a2 r1 r2) as [-> ->]; auto. lia.
    + exfalso. injection Eq as Eq. rewrite assoc1 in Eq.
      assert (inside t2 ++ "]"%char :: r2 = [] ++ "]"%char :: "["%char :: text x1 ++ "]"%char :: r1) as Eq' by (cbn [app]; symmetry; rewrite ?assoc1 in Eq; exact Eq).
      destruct (token _ [] _ _ (inside_word t2) (Forall_nil _) (ends_cons "]" _ ltac:(cbn; tauto)) (ends_cons "]" _ ltac:(cbn; tauto)) Eq') as [_ Er].
      injection Er as Er. exact (stop_not "[" _ _ S2 ltac:(cbn; tauto) Er).
    + injection Eq as Eq. rewrite !assoc1 in Eq. cbn [length] in Ln. rewrite app_length in Ln.
      destruct (IH x1 x2 ("]"%char :: r1) ("]"%char :: r2)) as [-> Er]; auto; [cbn [length str list_ascii_of_string] in Ln; lia|apply stop_cons; cbn; tauto|apply stop_cons; cbn; tauto|]. split; [reflexivity|congruence].
  - exfalso. rewrite T1, T2, <- app_assoc in E. destruct (shape_word _ _ _ _ Sh1 S1) as (_ & _ & X). exact (X _ E).
  - exfalso. rewrite T1, T2, <- app_assoc in E. destruct (shape_word _ _ _ _ Sh2 S2) as (_ & _ & X). symmetry in E. exact (X _ E).
  - destruct (paren_tree e1 q1 H1 T1) as [(l & o & r & -> & No & Ll & Lr)|(x & -> & Lx)], (paren_tree e2 q2 H2 T2) as [(l2 & o2 & r' & -> & No2 & Ll2 & Lr2)|(y & -> & Ly)].
    + exact (binary_binary n IH l o r l2 o2 r' r1 r2 Ln No No2 Ll Lr Ll2 Lr2 E).
    + destruct (binary_unary l o r y r1 r2 Ll Ly E).
    + symmetry in E. destruct (binary_unary l2 o2 r' x r2 r1 Ll2 Lx E).
    + cbn [text app] in E, Ln. injection E as E. rewrite !assoc1 in E. cbn [length] in Ln. rewrite app_length in Ln. cbn [length] in Ln.
      destruct (IH x y _ _ ltac:(lia) Lx Ly (stop_cons ")" _ ltac:(cbn; tauto)) (stop_cons ")" _ ltac:(cbn; tauto)) E) as [-> Er].
      split; [reflexivity|congruence].
Qed.
(* two different trees are never written alike *)
Theorem C164_text e1 e2 : legal e1 -> legal e2 -> text e1 = text e2 -> e1 = e2.
Proof.
  intros H1 H2 E. apply (texts_unique (S (length (text e1))) e1 e2 [] []); auto; try (now left). now rewrite E.
Qed.
(* trees that the grammar does not make can be *)
Theorem C164_text_refuted a b : Binary a SUB b <> Binary a NEG b /\ text (Binary a SUB b) = text (Binary a NEG b) /\ Param (str "C[]") <> Var (str "C") (At 0) /\ text (Param (str "C[]")) = text (Var (str "C") (At 0)).
Proof. repeat split; discriminate. Qed.
Theorem C164_tags : (forall t, from_string (tag_value t) = Ok t) /\ (forall n t, from_string n = Ok t <-> map lower_char n = tag_value t) /\ (forall n, (forall t, map lower_char n <> tag_value t) -> from_string n = Err ValueError).
Proof.
  assert (I : forall n t, from_string n = Ok t <-> map lower_char n = tag_value t).
  { intros n t. unfold from_string, tags. cbn [find]. destruct (chars_eqb (tag_value EXCLUDE) (map lower_char n)) eqn:A; [apply chars_eqb_eq in A; rewrite <- A|].
    { destruct t; split; intros H; try reflexivity; discriminate H. }
    destruct (chars_eqb (tag_value MINIMIZE) (map lower_char n)) eqn:B; [apply chars_eqb_eq in B; rewrite <- B|].
    { destruct t; split; intros H; try reflexivity; discriminate H. }
    destruct (chars_eqb (tag_value MAXIMIZE) (map lower_char n)) eqn:C; [apply chars_eqb_eq in C; rewrite <- C|].
    { destruct t; split; intros H; try reflexivity; discriminate H. }
    apply chars_eqb_neq in A, B, C. split; [discriminate|]. intros H. destruct t; rewrite H in *; congruence. }
  refine (conj _ (conj I _)).
  - intros []; reflexivity.
  - intros n H. unfold from_string. destruct (find _ tags) as [t|] eqn:E; [|reflexivity]. apply find_some in E. destruct E as [_ E]. apply chars_eqb_eq in E. now destruct (H t).
Qed.
Theorem C164_case : let e := Binary (Call (str "log") [Var (str "C") (At (-1)); Number (str "2")]) POW (Unary NEG (Expect (Param (str "b")))) in
  legal e /\ text e = str "(log(C[-1], 2) ^ (-E[][b]))" /\ from_string (str "Exclude") = Ok EXCLUDE.
Proof.
  assert (forall c, In c (str "abcelogC") -> letter c) as L by (intros c H; unfold letter; cbn in H; repeat (destruct H as [<-|H]; [cbn; lia|]); destruct H).
  assert (forall c r, In c (str "abcelogC") -> incl r (str "abcelogC") -> name (c :: r)) as N.
  { intros c r H I. split; [constructor; [apply letter_word, L, H|apply Forall_forall; intros d D; apply letter_word, L, I, D]|]. exists c, r. auto. }
  cbv zeta. refine (conj _ (conj eq_refl eq_refl)). apply L_binary; [discriminate| |].
  - apply L_call; [apply N; [cbn; tauto|intros d; cbn; tauto]|]. constructor; [apply L_var, N; [cbn; tauto|intros d []]|]. constructor; [|constructor].
    apply L_number. assert (digit "2"%char) as D by (unfold digit; cbn; lia). split; [repeat constructor; now apply digit_word|]. exists "2"%char, []. auto.
  - apply L_unary, L_expect, L_param, N; [cbn; tauto|intros d []].
Qed.
