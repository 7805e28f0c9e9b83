From Coq Require Import QArith Permutation Sorted.
From Verif Require Import Common Sort_Lib SymDict_Model Err_Model Err_Spec.
From Verif Require SymDict_More Build_Proofs.
Local Open Scope nat_scope.

(* ---- prefixes, occurrences, splitting ---- *)
Lemma prefixb_iff p : forall s, prefixb p s = true <-> exists r, s = p ++ r.
Proof.
  induction p as [|a p IH]; intro s; cbn [prefixb].
  - split; [intros _; now exists s|reflexivity].
  - destruct s as [|b s]; [split; [discriminate|intros [r H]; discriminate]|].
    destruct (ascii_dec a b) as [->|N].
    + rewrite IH. split; intros [r H]; exists r; cbn [app] in *; congruence.
    + split; [discriminate|]. intros [r H]. cbn [app] in H. congruence.
Qed.
Lemma contains_iff sub s : contains sub s = true <-> exists a b, s = a ++ sub ++ b.
Proof.
  induction s as [|c s IH]; cbn [contains].
  - rewrite orb_false_r, prefixb_iff. split.
    + intros [r H]. exists [], r. exact H.
    + intros [[|x a] [b H]]; [exists b; exact H|discriminate].
  - rewrite orb_true_iff, prefixb_iff, IH. split.
    + intros [[r H]|[a [b H]]]; [exists [], r; exact H|]. exists (c :: a), b. cbn [app]. congruence.
    + intros [[|x a] [b H]]; [left; exists b; exact H|right]. exists a, b. cbn [app] in H. congruence.
Qed.
Lemma contains_false sub s : contains sub s = false <-> forall a b, s <> a ++ sub ++ b.
Proof.
  split.
  - intros H a b E. assert (contains sub s = true) by (apply contains_iff; now exists a, b). congruence.
  - intro H. destruct (contains sub s) eqn:E; [|reflexivity]. apply contains_iff in E. destruct E as [a [b E]]. now destruct (H a b).
Qed.
Lemma split_skip sep a : forall acc s, split_from sep (length a) acc (a ++ s) = split_from sep 0 acc s.
Proof. induction a as [|x a IH]; intros acc s; [reflexivity|]. cbn [length app split_from]. apply IH. Qed.
Section Split.
Variable sep : chars.
Hypothesis nonempty : sep <> [].
Lemma split_sep acc rest : split_from sep 0 acc (sep ++ rest) = rev acc :: split_from sep 0 [] rest.
Proof.
  assert (P : prefixb sep (sep ++ rest) = true) by (apply prefixb_iff; now exists rest).
  assert (G : forall t, prefixb sep t = true -> t = sep ++ rest -> split_from sep 0 acc t = rev acc :: split_from sep 0 [] rest); [|now apply G].
  intros [|c r] Hp Et; [destruct sep; [congruence|discriminate]|]. cbn [split_from]. rewrite Hp. f_equal.
  destruct sep as [|x sp]; [congruence|]. cbn [app] in Et. injection Et as -> ->. cbn [length]. replace (S (length sp) - 1) with (length sp) by lia.
  apply split_skip.
Qed.
Lemma clean_tail c f : clean sep (c :: f) -> clean sep f.
Proof. intros H a b E. apply (H (c :: a) b). cbn [app]. congruence. Qed.
Lemma clean_head c f rest : clean sep (c :: f) -> prefixb sep (c :: f ++ sep ++ rest) = false.
Proof.
  intro H. destruct (prefixb sep (c :: f ++ sep ++ rest)) eqn:E; [|reflexivity]. exfalso. apply prefixb_iff in E. destruct E as [r E].
  assert (E' : (c :: f) ++ sep = sep ++ skipn (length sep) ((c :: f) ++ sep)).
  { assert (F : firstn (length sep) ((c :: f) ++ sep) = sep).
    { transitivity (firstn (length sep) (((c :: f) ++ sep) ++ rest)).
      - rewrite (firstn_app _ ((c :: f) ++ sep) rest).
        replace (length sep - length ((c :: f) ++ sep)) with 0 by (rewrite app_length; lia). rewrite firstn_O. now rewrite app_nil_r.
      - rewrite <- app_assoc. change (c :: f ++ sep ++ rest) with ((c :: f) ++ sep ++ rest) in E. rewrite E, firstn_app, Nat.sub_diag, firstn_O, app_nil_r.
        apply firstn_all. }
    rewrite <- F at 2. symmetry. apply firstn_skipn. }
  specialize (H [] (skipn (length sep) ((c :: f) ++ sep)) E'). apply (f_equal (@length ascii)) in H. rewrite skipn_length, app_length in H.
  cbn [length] in H. lia.
Qed.
Lemma split_clean f : forall acc rest, clean sep f -> split_from sep 0 acc (f ++ sep ++ rest) = (rev acc ++ f) :: split_from sep 0 [] rest.
Proof.
  induction f as [|c f IH]; intros acc rest H; cbn [app].
  - rewrite split_sep, app_nil_r. reflexivity.
  - assert (P := clean_head c f rest H). cbn [split_from]. rewrite P. rewrite IH by (eapply clean_tail, H). cbn [rev]. now rewrite <- app_assoc.
Qed.
Lemma split_last f : forall acc, contains sep f = false -> split_from sep 0 acc f = [rev acc ++ f].
Proof.
  induction f as [|c f IH]; intros acc H; [cbn; now rewrite app_nil_r|]. cbn [contains] in H. apply orb_false_iff in H. destruct H as [H1 H2].
  cbn [split_from]. rewrite H1, IH by exact H2. cbn [rev]. now rewrite <- app_assoc.
Qed.
Lemma split_join l x : Forall (clean sep) l -> contains sep x = false -> split sep (join sep (l ++ [x])) = l ++ [x].
Proof.
  intros H Hx. unfold split. induction H as [|f l Hf H IH].
  - cbn [app join]. now rewrite split_last.
  - cbn [app join]. destruct (l ++ [x]) as [|y r] eqn:E; [destruct l; discriminate|]. rewrite split_clean by exact Hf. cbn [rev app]. now rewrite IH.
Qed.
(* no occurrence of the separator starts inside [a] in [a ++ s] *)
Definition quiet (a s : chars) : Prop := forall x y, a ++ s = x ++ sep ++ y -> length a <= length x.
Lemma split_first n : forall s acc, length s <= n -> quiet (rev acc) s ->
  exists p rest, split_from sep 0 acc s = p :: rest /\
  ((rest = [] /\ p = rev acc ++ s /\ contains sep p = false) \/
   (exists t, rev acc ++ s = p ++ sep ++ t /\ clean sep p /\ rest = split_from sep 0 [] t /\ length t < length s)).
Proof.
  induction n as [|n IH]; intros s acc L Q.
  - destruct s; [|cbn in L; lia]. exists (rev acc), []. split; [reflexivity|left]. rewrite app_nil_r. repeat split; auto.
    apply contains_false. intros a b E. assert (length (rev acc) <= length a) by (apply (Q a b); now rewrite app_nil_r).
    apply (f_equal (@length ascii)) in E. rewrite !app_length in E. destruct sep; [congruence|cbn in E; lia].
  - destruct s as [|c r].
    { exists (rev acc), []. split; [reflexivity|left]. rewrite app_nil_r. repeat split; auto.
      apply contains_false. intros a b E. assert (length (rev acc) <= length a) by (apply (Q a b); now rewrite app_nil_r).
      apply (f_equal (@length ascii)) in E. rewrite !app_length in E. destruct sep; [congruence|cbn in E; lia]. }
    destruct (prefixb sep (c :: r)) eqn:P.
    + apply prefixb_iff in P. destruct P as [t P]. rewrite P, split_sep. exists (rev acc), (split_from sep 0 [] t). split; [reflexivity|right].
      exists t. repeat split; auto.
      * intros a b E. destruct b as [|b0 b]; [reflexivity|exfalso].
        assert (Q' : length (rev acc) <= length a).
        { apply (Q a ((b0 :: b) ++ t)). rewrite P. rewrite (app_assoc (rev acc)), E, <- !app_assoc. reflexivity. }
        apply (f_equal (@length ascii)) in E. rewrite !app_length in E. cbn [length] in E. lia.
      * rewrite app_length. destruct sep; [congruence|]. cbn [length]. lia.
    + assert (E0 : split_from sep 0 acc (c :: r) = split_from sep 0 (c :: acc) r) by (cbn [split_from]; now rewrite P).
      rewrite E0. destruct (IH r (c :: acc)) as [p [rest [E [[-> [-> N]]|[t [E1 [C1 [-> Lt]]]]]]]].
      * cbn in L. lia.
      * intros x y E. cbn [rev] in *. rewrite <- app_assoc in E. cbn [app] in E. specialize (Q x y E). rewrite app_length. cbn [length].
        destruct (Nat.eq_dec (length (rev acc)) (length x)) as [En|]; [|lia]. exfalso.
        assert (Ex : rev acc = x /\ c :: r = sep ++ y).
        { clear - E En. revert x E En. generalize (rev acc) as u. induction u as [|a u IHu]; intros [|b x] E En; try discriminate.
          - split; auto.
          - cbn [app] in E. injection E as -> E. cbn [length] in En. destruct (IHu x E) as [-> ->]; [lia|]. auto. }
        destruct Ex as [_ Ex]. assert (prefixb sep (c :: r) = true) by (apply prefixb_iff; now exists y). congruence.
      * exists (rev (c :: acc) ++ r), []. split; [exact E|left]. split; [reflexivity|]. split; [|exact N]. cbn [rev]. now rewrite <- app_assoc.
      * exists p, (split_from sep 0 [] t). split; [exact E|right]. exists t. split; [|split; [exact C1|split; [reflexivity|cbn [length]; lia]]].
        rewrite <- E1. cbn [rev]. now rewrite <- app_assoc.
Qed.
End Split.
Lemma clean_char c f : ~ In c f -> clean [c] f.
Proof.
  intros H a b E. destruct b as [|y b]; [reflexivity|exfalso]. apply H.
  destruct (@exists_last _ (y :: b)) as [b' [z Ez]]; [discriminate|]. rewrite Ez in E.
  rewrite !app_assoc in E. apply app_inj_tail in E. destruct E as [E _]. rewrite E. apply in_or_app. left. apply in_or_app. right. now left.
Qed.
Lemma contains_char c f : contains [c] f = false <-> ~ In c f.
Proof.
  split.
  - intros H Hin. apply in_split in Hin. destruct Hin as [a [b E]]. apply (proj1 (contains_false [c] f) H a b). exact E.
  - intro H. apply contains_false. intros a b E. apply H. rewrite E. apply in_or_app. right. now left.
Qed.

(* ---- codes ---- *)
Lemma index_of_nth l x : NoDup l -> forall i k, nth_error l i = Some x -> index_of x l k = Some (k + i).
Proof.
  induction 1 as [|y l Hy Hl IH]; intros i k H; [destruct i; discriminate|]. cbn [index_of]. destruct i as [|i].
  - injection H as ->. rewrite chars_eqb_refl. f_equal. lia.
  - cbn in H. rewrite (proj2 (chars_eqb_neq x y)) by (intros ->; apply Hy; eapply nth_error_In; eassumption). rewrite (IH i (S k) H). f_equal. lia.
Qed.
Lemma index_of_inv l x : forall k c, index_of x l k = Some c -> exists i, c = k + i /\ nth_error l i = Some x.
Proof.
  induction l as [|y l IH]; intros k c H; [discriminate|]. cbn [index_of] in H. destruct (chars_eqb x y) eqn:E.
  - injection H as <-. apply chars_eqb_eq in E. subst. exists 0. split; [lia|reflexivity].
  - apply IH in H. destruct H as [i [-> H]]. exists (S i). split; [lia|exact H].
Qed.
Lemma codes_nodup : NoDup code_names.
Proof. vm_compute. repeat (constructor; [cbn; intuition discriminate|]). constructor. Qed.
Lemma code_name_inverse c : c < length code_names -> code_of_name (code_name c) = c.
Proof.
  intro H. unfold code_of_name, code_name. rewrite (index_of_nth code_names _ codes_nodup c 0); [reflexivity|]. now apply nth_error_nth'.
Qed.
Lemma code_of_name_inv s c : code_of_name s = c -> c <> 0 -> s = code_name c.
Proof.
  unfold code_of_name. intros H N. destruct (index_of s code_names 0) as [d|] eqn:E; [|congruence]. subst d.
  apply index_of_inv in E. destruct E as [i [-> E]]. rewrite Nat.add_0_l. unfold code_name. symmetry. now apply nth_error_nth.
Qed.
Lemma code_clean c : clean SEPARATOR (code_name c).
Proof.
  assert (H : forall f, existsb (fun x => if ascii_dec x "|"%char then true else false) f = false -> clean SEPARATOR f).
  { intros f H a b E. destruct (Nat.le_gt_cases (length f) (length a)) as [L|L].
    - apply (f_equal (@length ascii)) in E. rewrite !app_length in E. destruct b; [reflexivity|cbn [length] in E; lia].
    - exfalso. assert (Hin : In "|"%char f).
      { assert (En : nth_error (f ++ SEPARATOR) (length a) = Some "|"%char) by (rewrite E, nth_error_app2, Nat.sub_diag by lia; reflexivity).
        rewrite nth_error_app1 in En by exact L. eapply nth_error_In. exact En. }
      assert (existsb (fun x => if ascii_dec x "|"%char then true else false) f = true).
      { apply existsb_exists. exists "|"%char. split; [exact Hin|reflexivity]. }
      congruence. }
  apply H. destruct (Nat.lt_ge_cases c (length code_names)) as [L|L].
  - assert (F : Forall (fun f => existsb (fun x => if ascii_dec x "|"%char then true else false) f = false) code_names)
      by (vm_compute; repeat constructor).
    rewrite Forall_forall in F. apply F. unfold code_name. now apply nth_In.
  - unfold code_name. rewrite nth_overflow by exact L. reflexivity.
Qed.

(* ---- lines and columns ---- *)
Definition lines (s : chars) : list chars := split [newline] s.
Lemma split_acc sep s : forall acc, split_from sep 0 acc s = match split_from sep 0 [] s with p :: r => (rev acc ++ p) :: r | [] => [] end.
Proof.
  induction s as [|c s IH]; intro acc; cbn [split_from]; [cbn; now rewrite app_nil_r|].
  destruct (prefixb sep (c :: s)); [cbn; now rewrite app_nil_r|]. rewrite (IH (c :: acc)), (IH [c]). destruct (split_from sep 0 [] s); [reflexivity|].
  cbn [rev app]. now rewrite <- app_assoc.
Qed.
Lemma is_newline_iff c : is_newline c = true <-> c = newline.
Proof. unfold is_newline. destruct (ascii_dec c newline); split; congruence. Qed.
Lemma lines_cons c s : lines (c :: s) = if is_newline c then [] :: lines s else match lines s with h :: t => (c :: h) :: t | [] => [] end.
Proof.
  unfold lines, split, is_newline. cbn [split_from prefixb]. destruct (ascii_dec newline c) as [<-|N].
  - destruct (ascii_dec newline newline); [|congruence]. reflexivity.
  - destruct (ascii_dec c newline); [congruence|]. rewrite (split_acc _ s [c]). destruct (split_from [newline] 0 [] s); reflexivity.
Qed.
Lemma lines_nonempty s : exists h t, lines s = h :: t.
Proof.
  induction s as [|c s [h [t IH]]]; [now exists [], []|]. rewrite lines_cons, IH. destruct (is_newline c); eauto.
Qed.
Lemma lines_no_newline s l : In l (lines s) -> ~ In newline l.
Proof.
  revert l. induction s as [|c s IH]; intros l H; [destruct H as [<-|[]]; intros []|]. rewrite lines_cons in H.
  destruct (is_newline c) eqn:E.
  - destruct H as [<-|H]; [intros []|now apply IH].
  - destruct (lines s) as [|h t]; [destruct H|]. destruct H as [<-|H]; [|apply IH; now right].
    intros [Hc|Hin]; [apply is_newline_iff in Hc; congruence|]. apply (IH h); [now left|exact Hin].
Qed.
Lemma after_last_zero s : after_last_newline s = 0 <-> count_newlines s = 0.
Proof.
  unfold count_newlines. induction s as [|c s IH]; [easy|]. cbn [after_last_newline filter].
  destruct (after_last_newline s) as [|k].
  - destruct (is_newline c); cbn [length]; [split; discriminate|exact IH].
  - split; [discriminate|]. intro H. exfalso. assert (length (filter is_newline s) = 0) by (destruct (is_newline c); cbn in H; lia).
    apply IH in H0. discriminate.
Qed.
Lemma after_last_le s : after_last_newline s <= length s.
Proof. induction s as [|c s IH]; cbn [after_last_newline length]; [lia|]. destruct (after_last_newline s); [destruct (is_newline c); lia|lia]. Qed.
Lemma after_last_end s : after_last_newline (s ++ [newline]) = length s + 1.
Proof. induction s as [|c s IH]; [reflexivity|]. cbn [app after_last_newline length]. rewrite IH. destruct (length s); cbn; lia. Qed.
Lemma col_simple l s : l <= length s -> col l s = l + 1 - after_last_newline (firstn l s).
Proof.
  intro L. unfold col. destruct ((0 <? l) && (l <? length s) && char_is_newline s (l - 1)) eqn:E; [|reflexivity].
  apply andb_prop in E. destruct E as [E1 E2]. apply andb_prop in E1. destruct E1 as [E1 E3]. apply Nat.ltb_lt in E1, E3.
  unfold char_is_newline in E2. destruct (nth_error s (l - 1)) as [c|] eqn:En; [|discriminate]. apply is_newline_iff in E2. subst c.
  destruct (nth_error_split _ _ En) as [a [b [Es La]]]. subst s.
  replace (firstn l (a ++ newline :: b)) with (a ++ [newline]); [rewrite after_last_end; lia|].
  replace l with (length (a ++ [newline])) by (rewrite app_length; cbn; lia).
  replace (a ++ newline :: b) with ((a ++ [newline]) ++ b) by (now rewrite <- app_assoc).
  now rewrite firstn_app, Nat.sub_diag, firstn_O, app_nil_r, firstn_all.
Qed.
(* what comes before a position: the earlier lines in full, and the part of its line before its column *)
Lemma position s : forall l, l <= length s ->
  let n := count_newlines (firstn l s) in let c := l - after_last_newline (firstn l s) in
  n < length (lines s) /\ c <= length (nth n (lines s) []) /\
  firstn l s = unlines (firstn n (lines s)) ++ firstn c (nth n (lines s) []).
Proof.
  induction s as [|x s IH]; intros l L n c.
  - assert (l = 0) by (cbn in L; lia). subst l. cbn. repeat split; lia.
  - destruct l as [|l].
    + cbn in n, c. subst n c. rewrite lines_cons. destruct (lines_nonempty s) as [h [t E]]. rewrite E.
      destruct (is_newline x); cbn; repeat split; lia.
    + cbn [length] in L. destruct (IH l) as [H1 [H2 H3]]; [lia|]. clear IH.
      unfold count_newlines in *. cbn [firstn filter after_last_newline] in n, c.
      destruct (lines_nonempty s) as [h [t E]]. rewrite lines_cons. rewrite E in *.
      pose proof (after_last_zero (firstn l s)) as Z. unfold count_newlines in Z. pose proof (after_last_le (firstn l s)) as Le.
      rewrite firstn_length_le in Le by lia. set (k := length (filter is_newline (firstn l s))) in *.
      destruct (is_newline x) eqn:Ex.
      * cbn [length] in n. subst n. cbn [nth firstn length]. assert (Ec : c = l - after_last_newline (firstn l s)).
        { unfold c. destruct (after_last_newline (firstn l s)); lia. }
        rewrite Ec. repeat split; [cbn [length] in H1; lia|exact H2|]. apply is_newline_iff in Ex. subst x.
        change (newline :: firstn l s = (newline :: unlines (firstn k (h :: t))) ++ firstn (l - after_last_newline (firstn l s)) (nth k (h :: t) [])).
        cbn [app]. f_equal. exact H3.
      * assert (En : n = k) by reflexivity. rewrite En. clear En. subst n. clearbody k. destruct k as [|k].
        { assert (Z0 : after_last_newline (firstn l s) = 0) by (now apply Z).
          assert (Ec : c = S l) by (unfold c; rewrite Z0; reflexivity). rewrite Ec. rewrite Z0 in *. cbn [nth firstn length] in *.
          rewrite Nat.sub_0_r in H2, H3. repeat split; [lia|cbn [length]; lia|]. cbn [firstn].
          cbn [unlines map concat app] in H3 |- *. f_equal. exact H3. }
        { assert (Nz : after_last_newline (firstn l s) <> 0) by (intro H; apply Z in H; discriminate).
          destruct (after_last_newline (firstn l s)) as [|j] eqn:Ej; [congruence|]. cbn [nth firstn length] in *.
          assert (Ec : c = l - S j) by (unfold c; lia). rewrite Ec. repeat split; [exact H1|exact H2|].
          unfold unlines in *. cbn [map concat] in *. rewrite H3. cbn [app]. reflexivity. }
Qed.
Lemma expand_no_tabs s : forall n, ~ In tab s -> expandtabs n s = s.
Proof.
  induction s as [|c s IH]; intros n H; [reflexivity|]. cbn [expandtabs]. destruct (ascii_dec c tab) as [->|N]; [exfalso; apply H; now left|].
  assert (H' : ~ In tab s) by (intro; apply H; now right).
  destruct (is_newline c || (if ascii_dec c return_ then true else false)); now rewrite IH.
Qed.

(* ---- the order of suggestions ---- *)
Lemma Qle_bool_total a b : Qle_bool a b = true \/ Qle_bool b a = true.
Proof. rewrite !Qle_bool_iff. destruct (Qlt_le_dec a b); [left; now apply Qlt_le_weak|now right]. Qed.
Lemma Qle_bool_false a b : Qle_bool a b = false <-> (b < a)%Q.
Proof.
  split; intro H.
  - apply Qnot_le_lt. intro L. apply Qle_bool_iff in L. congruence.
  - destruct (Qle_bool a b) eqn:E; [|reflexivity]. apply Qle_bool_iff in E. exfalso. now apply (Qle_not_lt a b).
Qed.
Lemma sim_leb_iff a b : sim_leb a b = true <-> (fst b < fst a)%Q \/ (fst a == fst b)%Q /\ chars_leb (snd a) (snd b) = true.
Proof.
  unfold sim_leb. destruct (Qle_bool (fst a) (fst b)) eqn:E1.
  - apply Qle_bool_iff in E1. destruct (Qle_bool (fst b) (fst a)) eqn:E2.
    + apply Qle_bool_iff in E2. split; [intro H; right; split; [now apply Qle_antisym|exact H]|].
      intros [H|[_ H]]; [|exact H]. exfalso. now apply (Qle_not_lt (fst a) (fst b)).
    + apply Qle_bool_false in E2. split; [discriminate|]. intros [H|[H _]]; exfalso.
      * now apply (Qlt_not_le (fst b) (fst a)).
      * rewrite H in E2. now apply (Qlt_irrefl (fst b)).
  - apply Qle_bool_false in E1. split; auto.
Qed.
Lemma sim_total a b : sim_leb a b = true \/ sim_leb b a = true.
Proof.
  rewrite !sim_leb_iff. destruct (Q_dec (fst a) (fst b)) as [[H|H]|H]; auto.
  destruct (SymDict_More.chars_leb_total (snd a) (snd b)); [left|right]; right; split; auto. now symmetry.
Qed.
Lemma sim_trans a b c : sim_leb a b = true -> sim_leb b c = true -> sim_leb a c = true.
Proof.
  rewrite !sim_leb_iff. intros [H1|[H1 L1]] [H2|[H2 L2]].
  - left. eapply Qlt_trans; eassumption.
  - left. now rewrite <- H2.
  - left. now rewrite H1.
  - right. split; [now rewrite H1|]. eapply SymDict_More.chars_leb_trans; eassumption.
Qed.
