(* C158: the places of variables, parameters and equations in the source *)
From Verif Require Import Common Err_Model Err_Proofs Exc_Model Exc_Props Pos_Model.
Local Open Scope list_scope.

(* ---- specification: a file is given by its lines (Exc_Props.file_of) ---- *)
(* the position in the file of what comes after [a] in line k (lines counted from 0) *)
Definition place (ls : list chars) (k : nat) (a : chars) (loc : nat) : Prop :=
  k < length ls /\ (exists b, nth k ls [] = a ++ b) /\ loc = length (flat_map (fun l => l ++ [newline]) (firstn k ls)) + length a.
(* a location is that of the text [tok] standing after [a] in line k: it names the line (from 1), the columns of its first character
   and of the character after its last one (from 1), and the line itself *)
Definition covers (ls : list chars) (k : nat) (a tok : chars) (p : location) : Prop :=
  line p = S k /\ end_line p = Some (S k) /\ source_line p = nth k ls [] /\
  column p = S (length a) /\ end_column p = Some (S (length a) + length tok).

(* ---- lemmas ---- *)
Lemma free_last a : ~ In newline a -> after_last_newline a = 0.
Proof.
  intro H. apply after_last_zero. unfold count_newlines. replace (filter is_newline a) with (@nil ascii); [reflexivity|].
  symmetry. induction a as [|c a IH]; [reflexivity|]. cbn [filter]. destruct (is_newline c) eqn:E; [apply is_newline_iff in E; subst; destruct H; now left|].
  apply IH. intro. apply H. now right.
Qed.
Lemma after_last_app x a : ~ In newline a -> after_last_newline (x ++ newline :: a) = S (length x).
Proof.
  intro H. induction x as [|c x IH]; cbn [app after_last_newline length].
  - now rewrite (free_last a H).
  - now rewrite IH.
Qed.
Lemma count_app a b : count_newlines (a ++ b) = count_newlines a + count_newlines b.
Proof. unfold count_newlines. now rewrite filter_app, app_length. Qed.
Lemma count_free a : ~ In newline a -> count_newlines a = 0.
Proof. intro H. apply after_last_zero, free_last, H. Qed.
Lemma count_lines ls : Forall (fun l => ~ In newline l) ls -> count_newlines (flat_map (fun l => l ++ [newline]) ls) = length ls.
Proof.
  induction 1 as [|l ls H F IH]; [reflexivity|]. cbn [flat_map length]. rewrite !count_app, IH, (count_free l H). reflexivity.
Qed.
Lemma file_front ls s k a : file_of ls s -> place ls k a (length (flat_map (fun l => l ++ [newline]) (firstn k ls)) + length a) ->
  exists rest, s = flat_map (fun l => l ++ [newline]) (firstn k ls) ++ a ++ rest.
Proof.
  intros [F G] (L & (b & Hb) & _).
  assert (E : ls = firstn k ls ++ nth k ls [] :: skipn (S k) ls).
  { rewrite <- (firstn_skipn k ls) at 1. f_equal. clear -L. revert k L. induction ls as [|x ls IH]; intros k L; [cbn in L; lia|].
    destruct k; [reflexivity|]. cbn [skipn nth]. apply IH. cbn in L. lia. }
  set (front := firstn k ls) in *. set (l := nth k ls []) in *. set (back := skipn (S k) ls) in *. clearbody front l back. subst ls. subst l.
  destruct G as [G|(f & x & E & _ & G)].
  - rewrite flat_map_app in G. cbn [flat_map] in G. rewrite G. eexists. f_equal. rewrite <- !app_assoc. reflexivity.
  - destruct back as [|y back] using rev_ind.
    + apply app_inj_tail in E. destruct E as [<- <-]. rewrite G. exists b. reflexivity.
    + clear IHback. change (front ++ (a ++ b) :: back ++ [y]) with (front ++ ((a ++ b) :: back) ++ [y]) in E. rewrite app_assoc in E.
      apply app_inj_tail in E. destruct E as [<- <-]. rewrite flat_map_app in G. cbn [flat_map] in G. rewrite G.
      eexists. rewrite <- !app_assoc. f_equal.
Qed.
Lemma located_at ls s k a loc : file_of ls s -> place ls k a loc ->
  lineno loc s = S k /\ col loc s = S (length a) /\ line_at s (lineno loc s) = nth k ls [].
Proof.
  intros Hf Hp. pose proof Hp as (L & (b & Hb) & El). subst loc. destruct (file_front ls s k a Hf Hp) as (rest & Es).
  pose proof Hf as [F _]. assert (Fa : ~ In newline a).
  { assert (H : In (nth k ls []) ls) by now apply nth_In. rewrite Forall_forall in F. specialize (F _ H). rewrite Hb in F. intro. apply F, in_or_app. now left. }
  assert (Fk : Forall (fun l => ~ In newline l) (firstn k ls)).
  { rewrite <- (firstn_skipn k ls) in F. now apply Forall_app in F. }
  set (X := flat_map (fun l => l ++ [newline]) (firstn k ls)) in *.
  assert (Ef : firstn (length X + length a) s = X ++ a).
  { rewrite Es, app_assoc, <- app_length. now rewrite firstn_app, Nat.sub_diag, firstn_O, app_nil_r, firstn_all. }
  assert (En : lineno (length X + length a) s = S k).
  { unfold lineno. rewrite Ef, count_app, (count_free a Fa). unfold X. rewrite (count_lines _ Fk), firstn_length. lia. }
  split; [exact En|]. split.
  - rewrite col_simple by (rewrite Es, !app_length; lia). rewrite Ef.
    assert (A : after_last_newline (X ++ a) = length X).
    { unfold X. destruct (firstn k ls) as [|y ys] using rev_ind; [exact (free_last a Fa)|]. rewrite flat_map_app. cbn [flat_map]. rewrite app_nil_r.
      set (F' := flat_map _ ys). replace ((F' ++ y ++ [newline]) ++ a) with ((F' ++ y) ++ newline :: a) by (rewrite <- !app_assoc; reflexivity).
      rewrite (after_last_app _ a Fa), !app_length. cbn [length]. lia. }
    rewrite A. lia.
  - rewrite En. unfold line_at. rewrite (splitlines_ok ls s Hf). destruct (Nat.ltb_spec 0 (S k)); [|lia]. destruct (Nat.leb_spec (S k) (length ls)); [|lia].
    cbn [andb]. f_equal. lia.
Qed.
Lemma token_covers ls s k a loc tok : file_of ls s -> place ls k a loc -> covers ls k a tok (token_at s loc (length tok)).
Proof.
  intros Hf Hp. destruct (located_at ls s k a loc Hf Hp) as (E1 & E2 & E3). unfold covers, token_at. cbn [line end_line source_line column end_column].
  rewrite E1, E2. rewrite E1 in E3. rewrite E3. auto.
Qed.

(* every name's location is exactly that of its characters, anywhere in any file *)
Theorem C158_parameter ls s k a loc name : file_of ls s -> place ls k a loc -> covers ls k a name (parameter_location s loc name).
Proof. intros Hf Hp. unfold parameter_location. now apply token_covers. Qed.
(* in lists of variables: the name with its brackets *)
Theorem C158_reference ls s k a loc name content : file_of ls s -> place ls k a loc ->
  covers ls k a (name ++ str "[" ++ content ++ str "]") (reference_location s loc name content).
Proof. intros Hf Hp. unfold reference_location. now apply token_covers. Qed.
(* in expressions: a variable at time t *)
Theorem C158_variable ls s k a loc name : file_of ls s -> place ls k a loc ->
  covers ls k a (name ++ str "[]") (variable_location s loc name (At 0)).
Proof.
  intros Hf Hp. unfold variable_location. cbn [is_now]. change (0 =? 0)%Z with true. cbn [length].
  replace (length name + 2 + 0) with (length (name ++ str "[]")) by (rewrite app_length; cbn [length]; change (length (str "[]")) with 2; lia).
  now apply token_covers.
Qed.
(* refuted for every other variable: X[1], X[-1] and X[ss] end two columns after their last character *)
Theorem C158_variable_refuted ls s k a loc name t : file_of ls s -> place ls k a loc -> t <> At 0 ->
  let tok := name ++ index_text t in
  ~ covers ls k a tok (variable_location s loc name t) /\
  end_column (variable_location s loc name t) = Some (S (length a) + length tok + 2).
Proof.
  intros Hf Hp Ht tok. destruct (located_at ls s k a loc Hf Hp) as (E1 & E2 & _).
  assert (N : is_now t = false) by (destruct t as [|z]; [reflexivity|]; cbn [is_now]; apply Z.eqb_neq; congruence).
  assert (E : end_column (variable_location s loc name t) = Some (S (length a) + length tok + 2)).
  { unfold variable_location. rewrite N. unfold token_at. cbn [end_column]. rewrite E2. f_equal. unfold tok. rewrite app_length. lia. }
  split; [|exact E]. intros (_ & _ & _ & _ & H). rewrite E in H. assert (H' : S (length a) + length tok + 2 = S (length a) + length tok) by congruence. lia.
Qed.

Lemma find_from_here sub r i : find_from sub (sub ++ r) i = Some i.
Proof. assert (E : prefixb sub (sub ++ r) = true) by (apply prefixb_iff; now exists r). destruct (sub ++ r) eqn:D; cbn [find_from]; rewrite E; reflexivity. Qed.
Lemma find_from_first sub x : forall r i, (forall a b, length a < length x -> x ++ sub ++ r <> a ++ sub ++ b) -> find_from sub (x ++ sub ++ r) i = Some (i + length x).
Proof.
  induction x as [|c x IH]; intros r i H.
  - cbn [app length]. rewrite find_from_here. f_equal. lia.
  - cbn [app]. cbn [find_from]. destruct (prefixb sub (c :: x ++ sub ++ r)) eqn:E.
    + apply prefixb_iff in E. destruct E as (b & E). exfalso. apply (H [] b); [cbn; lia|exact E].
    + rewrite IH; [cbn [length]; f_equal; lia|]. intros a b L E'. apply (H (c :: a) b); [cbn [length]; lia|]. cbn [app]. now f_equal.
Qed.
Lemma find_at_first sub pre x r : (forall a b, length a < length x -> x ++ sub ++ r <> a ++ sub ++ b) ->
  find_at sub (pre ++ x ++ sub ++ r) (length pre) = Some (length pre + length x).
Proof.
  intro H. unfold find_at. destruct (Nat.leb_spec (length pre) (length (pre ++ x ++ sub ++ r))) as [L|L]; [|rewrite app_length in L; lia].
  rewrite skipn_app, skipn_all, Nat.sub_diag. cbn [app skipn]. now apply find_from_first.
Qed.
Lemma skip_blanks w c r : Forall (fun x => skipped_char x = true) w -> skipped_char c = false -> forall i, skip_blank (w ++ c :: r) i = i + length w.
Proof.
  intros F N. induction F as [|x w Hx F IH]; intro i; cbn [app skip_blank length].
  - rewrite N. lia.
  - rewrite Hx, IH. lia.
Qed.
Lemma len_skip (pre t r : chars) : skipn (length pre + length t) (pre ++ t ++ r) = r.
Proof. rewrite app_assoc, <- app_length, skipn_app, skipn_all, Nat.sub_diag. reflexivity. Qed.
(* the parameter after an arrow: its own location, not the arrow's, on whatever line it is *)
Theorem C158_calibrating ls s pre blanks c name post k a :
  file_of ls s -> s = pre ++ str "->" ++ blanks ++ (c :: name) ++ post -> Forall (fun x => In x [" "%char; tab; newline]) blanks -> ~ In c [" "%char; tab; newline] ->
  place ls k a (length pre + 2 + length blanks) ->
  covers ls k a (c :: name) (calibrating_location s (length pre) (c :: name)).
Proof.
  intros Hf Es Hb Hc Hp. unfold calibrating_location.
  assert (E : find_at (str "->") s (length pre) = Some (length pre)).
  { rewrite Es. pose proof (find_at_first (str "->") pre [] (blanks ++ (c :: name) ++ post)) as H. cbn [app length] in H. rewrite Nat.add_0_r in H. apply H. intros x y L. lia. }
  rewrite E. assert (K : skipn (length pre + 2) s = blanks ++ (c :: name) ++ post) by (rewrite Es; exact (len_skip pre (str "->") _)).
  rewrite K. cbn [app].
  assert (S' : forall x, In x [" "%char; tab; newline] <-> skipped_char x = true).
  { intro x. unfold skipped_char. cbn [In]. destruct (ascii_dec x " "%char); [split; auto|]. destruct (ascii_dec x tab); [split; auto|].
    destruct (ascii_dec x newline); [split; auto|]. split; [|discriminate]. intros [H|[H|[H|[]]]]; congruence. }
  rewrite skip_blanks.
  - now apply token_covers.
  - eapply Forall_impl; [|exact Hb]. intro x. apply S'.
  - destruct (skipped_char c) eqn:D; [|reflexivity]. destruct Hc. now apply S'.
Qed.
(* an equation ends at its semicolon, which is included *)
Theorem C158_equation_end ls s pre body post k a lhs :
  file_of ls s -> s = pre ++ body ++ str ";" ++ post -> ~ In ";"%char body -> place ls k a (length pre + length body) ->
  end_line (equation_location s (length pre) lhs None) = Some (S k) /\ end_column (equation_location s (length pre) lhs None) = Some (S (length (a ++ str ";"))).
Proof.
  intros Hf Es Hb Hp. destruct (located_at ls s k a _ Hf Hp) as (E1 & E2 & _).
  assert (E : find_at (str ";") s (length pre) = Some (length pre + length body)).
  { rewrite Es. apply find_at_first. intros x y L E. apply Hb.
    assert (F : nth_error (body ++ str ";" ++ post) (length x) = Some ";"%char).
    { rewrite E. rewrite nth_error_app2 by lia. rewrite Nat.sub_diag. reflexivity. }
    rewrite nth_error_app1 in F by lia. eapply nth_error_In, F. }
  unfold equation_location. rewrite E, E1, E2. rewrite app_length.
  destruct (find_location lhs); cbn [end_line end_column]; (split; [reflexivity|]); f_equal; change (length (str ";")) with 1; lia.
Qed.
(* a calibrating equation ends before its arrow *)
Theorem C158_calibrating_end ls s pre body post k a lhs x name :
  file_of ls s -> s = pre ++ body ++ str "->" ++ post -> (forall u v, length u < length body -> body ++ str "->" ++ post <> u ++ str "->" ++ v) ->
  place ls k a (length pre + length body) ->
  end_line (equation_location s (length pre) lhs (Some (x :: name))) = Some (S k) /\
  end_column (equation_location s (length pre) lhs (Some (x :: name))) = Some (S (length a)).
Proof.
  intros Hf Es Hb Hp. destruct (located_at ls s k a _ Hf Hp) as (E1 & E2 & _).
  assert (E : find_at (str "->") s (length pre) = Some (length pre + length body)) by (rewrite Es; now apply find_at_first).
  unfold equation_location. rewrite E, E1, E2. destruct (find_location lhs); cbn [end_line end_column]; auto.
Qed.
(* the place of an equation's first character is its location when its left-hand side starts with the name found in it, or when it has
   no name on its left side: a number, or a function *)
Inductive begins : node -> option location -> Prop :=
| Begins_name p : begins (Name p) p
| Begins_number : begins Num None
| Begins_call args : begins (Call args) None
| Begins_left l r p : begins l p -> begins (Binary l r) p
| Begins_minus x p : begins x p -> begins (Unary x) p
| Begins_expected x p : begins x p -> begins (Expected x) p.
Theorem C158_equation_start ls s loc k a lhs calibrating p : file_of ls s -> place ls k a loc ->
  begins lhs p -> (p = None \/ exists tok q, p = Some q /\ covers ls k a tok q) ->
  line (equation_location s loc lhs calibrating) = S k /\ column (equation_location s loc lhs calibrating) = S (length a) /\
  source_line (equation_location s loc lhs calibrating) = nth k ls [].
Proof.
  intros Hf Hp Hb H. destruct (located_at ls s k a _ Hf Hp) as (E1 & E2 & E3).
  assert (F : find_location lhs = p) by (induction Hb; auto). unfold equation_location. rewrite F.
  assert (G : (match p with Some p => (line p, column p, source_line p) | None => (lineno loc s, col loc s, line_at s (lineno loc s)) end) = (S k, S (length a), nth k ls [])).
  { destruct H as [->|(tok & q & -> & C1 & _ & C2 & C3 & _)]; [rewrite E1, E2 in *; now rewrite E3|]. now rewrite C1, C2, C3. }
  rewrite G. match goal with |- context [let '(_, _) := ?e in _] => destruct e as [el ec] end. auto.
Qed.
(* refuted: the location of an equation starting with a minus sign, a bracket or an expectation is where its first name is, after them *)
Theorem C158_equation_start_refuted :
  exists s lhs, file_of [s] s /\ s = str "-Y[] = X[];" /\ lhs = Unary (Name (Some (variable_location s 1 (str "Y") (At 0)))) /\
    column (equation_location s 0 lhs None) = 2.
Proof.
  exists (str "-Y[] = X[];"), (Unary (Name (Some (variable_location (str "-Y[] = X[];") 1 (str "Y") (At 0))))).
  refine (conj _ (conj eq_refl (conj eq_refl eq_refl))). split.
  - constructor; [|constructor]. intro H. repeat (destruct H as [H|H]; [discriminate H|]). exact H.
  - right. exists [], (str "-Y[] = X[];"). repeat split; discriminate.
Qed.

Theorem C158_case :
  let ls := map str ["identities {"; "  Y[] = C[1];"; "};"]%string in
  let s := flat_map (fun l => l ++ [newline]) ls in
  file_of ls s /\ place ls 1 (str "  ") 15 /\ place ls 1 (str "  Y[] = ") 21 /\
  (let p := variable_location s 15 (str "Y") (At 0) in (line p, column p, end_column p, source_line p) = (2, 3, Some 6, str "  Y[] = C[1];")) /\
  (let p := variable_location s 21 (str "C") (At 1) in (column p, end_column p) = (9, Some 15)) /\
  (let p := equation_location s 15 (Name (Some (variable_location s 15 (str "Y") (At 0)))) None in (line p, column p, end_line p, end_column p) = (2, 3, Some 2, Some 14)).
Proof.
  refine (conj _ (conj _ (conj _ (conj eq_refl (conj eq_refl eq_refl))))).
  - split; [repeat constructor; intro H; repeat (destruct H as [H|H]; [discriminate H|]); exact H|]. now left.
  - split; [cbn; lia|]. split; [eexists; reflexivity|reflexivity].
  - split; [cbn; lia|]. split; [eexists; reflexivity|reflexivity].
Qed.
