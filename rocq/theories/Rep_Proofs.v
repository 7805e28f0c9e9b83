From Verif Require Import Common Err_Model Rep_Model.
Local Open Scope list_scope.

(* ---- specification ---- *)
(* text without tabs and line ends *)
Definition plain (s : chars) : Prop := forall c, In c s -> c <> ht /\ c <> lf /\ c <> cr.
(* the lines of a text in which every line is ended *)
Fixpoint lines_from (acc s : chars) : list chars :=
  match s with
  | [] => []
  | c :: r => if Ascii.eqb c lf then rev acc :: lines_from [] r else lines_from (c :: acc) r
  end.
Definition lines (s : chars) : list chars := lines_from [] s.
(* names written in rows: comma after every name but the last of all *)
Fixpoint rows (gs : list (list chars)) : list chars :=
  match gs with
  | [] => []
  | [g] => [join (str ", ") g]
  | g :: r => (join (str ", ") g ++ str ", ") :: rows r
  end.

(* ---- strings ---- *)
Lemma plain_app a b : plain (a ++ b) <-> plain a /\ plain b.
Proof.
  split; [intro H; split; intros c Hc; apply H, in_or_app; tauto|]. intros [Ha Hb] c Hc. apply in_app_or in Hc. destruct Hc; auto.
Qed.
Lemma plain_nil : plain []. Proof. intros c []. Qed.
Lemma plain_b s : forallb (fun c => negb (Ascii.eqb c ht || Ascii.eqb c lf || Ascii.eqb c cr)) s = true -> plain s.
Proof.
  intros H c Hc. rewrite forallb_forall in H. specialize (H c Hc). rewrite negb_true_iff, !orb_false_iff in H. destruct H as [[H1 H2] H3].
  apply Ascii.eqb_neq in H1, H2, H3. auto.
Qed.
Lemma dec_plain n : plain (dec n).
Proof.
  intros c Hc. pose proof (dec_digits n) as D. rewrite forallb_forall in D. specialize (D c Hc).
  repeat split; intros ->; vm_compute in D; discriminate D.
Qed.
Lemma join_plain l : Forall plain l -> plain (join (str ", ") l).
Proof.
  induction 1 as [|x l Hx H IH]; [exact plain_nil|]. cbn [join]. destruct l as [|y r]; [exact Hx|].
  apply plain_app. split; [exact Hx|]. apply plain_app. split; [now apply plain_b|exact IH].
Qed.
Lemma lines_from_plain a : plain a -> forall acc s, lines_from acc (a ++ [lf] ++ s) = (rev acc ++ a) :: lines_from [] s.
Proof.
  intro H. induction a as [|c a IH]; intros acc s.
  - cbn [app lines_from]. rewrite Ascii.eqb_refl. now rewrite app_nil_r.
  - cbn [app lines_from]. destruct (Ascii.eqb_spec c lf) as [->|_]; [exfalso; destruct (H lf (or_introl eq_refl)) as [_ [X _]]; congruence|].
    change (lines_from (c :: acc) (a ++ lf :: s)) with (lines_from (c :: acc) (a ++ [lf] ++ s)). rewrite IH.
    + cbn [rev]. now rewrite <- app_assoc.
    + intros d Hd. apply H. now right.
Qed.
Lemma xlen_plain s : plain s -> forall col, xlen col s = length s.
Proof.
  induction s as [|c s IH]; intros H col; [reflexivity|]. cbn [xlen length].
  destruct (H c (or_introl eq_refl)) as [N1 [N2 N3]]. apply Ascii.eqb_neq in N1, N2, N3. rewrite N1, N2, N3. cbn [orb].
  f_equal. apply IH. intros d Hd. apply H. now right.
Qed.
Lemma xlen_prefix s : plain s -> xlen 0 (tabs 2 ++ s) = 16 + length s.
Proof.
  intro H. change (xlen 0 (tabs 2 ++ s)) with (8 + (8 + xlen 16 s)). rewrite (xlen_plain s H). lia.
Qed.
Lemma spaces_plain n : plain (repeat " "%char n).
Proof. intros c Hc. apply repeat_spec in Hc. subst c. repeat split; discriminate. Qed.

(* ---- the wrapping loop ---- *)
Definition tail_sep (names : list chars) : chars := match names with [] => [] | _ => str ", " end.
Definition row_so_far (g names : list chars) : chars := join (str ", ") g ++ tail_sep names.
Lemma join_snoc g n : g <> [] -> join (str ", ") (g ++ [n]) = join (str ", ") g ++ str ", " ++ n.
Proof.
  induction g as [|x g IH]; intro H; [congruence|]. destruct g as [|y r].
  - reflexivity.
  - change (join (str ", ") ((x :: y :: r) ++ [n])) with (x ++ str ", " ++ join (str ", ") ((y :: r) ++ [n])). rewrite IH by discriminate.
    change (join (str ", ") (x :: y :: r)) with (x ++ str ", " ++ join (str ", ") (y :: r)). now rewrite <- !app_assoc.
Qed.
Lemma row_step g n t : g <> [] -> row_so_far g (n :: t) ++ n ++ tail_sep t = row_so_far (g ++ [n]) t.
Proof. intro H. unfold row_so_far. cbn [tail_sep]. rewrite join_snoc by exact H. now rewrite <- !app_assoc. Qed.
Lemma row_plain g names : Forall plain g -> plain (row_so_far g names).
Proof. intro H. apply plain_app. split; [now apply join_plain|]. destruct names; [exact plain_nil|now apply plain_b]. Qed.

Section W.
Variables (width off : nat) (indent : chars).
Hypothesis indent_len : forall s, plain s -> xlen 0 (indent ++ s) = off + length s.
Definition fits (gs : list (list chars)) : Prop :=
  Forall2 (fun g r => 2 <= length g -> off + length r <= width) gs (rows gs).
(* the first name of a row did not fit at the end of the row before *)
Definition tight (gs : list (list chars)) : Prop :=
  forall a g n h b, gs = a ++ g :: (n :: h) :: b ->
    width < off + length (join (str ", ") g ++ str ", ") + length (n ++ (match h ++ concat b with [] => [] | _ => str ", " end)).
Lemma concat_nonempty (gs : list (list chars)) : gs <> [] -> Forall (fun g => g <> []) gs -> concat gs <> [].
Proof. intros N F. destruct F as [|g gs Hg F]; [congruence|]. cbn [concat]. destruct g; [congruence|discriminate]. Qed.
Lemma wrap_spec : forall names g lead acc,
  (forall s, plain s -> xlen 0 (lead ++ s) = off + length s) ->
  Forall plain (g ++ names) -> g <> [] -> (2 <= length g -> off + length (row_so_far g names) <= width) ->
  exists g' gs, g ++ names = concat (g' :: gs) /\ (exists e, g' = g ++ e) /\ Forall (fun g => g <> []) (g' :: gs) /\
    fits (g' :: gs) /\ tight (g' :: gs) /\
    wrap width indent false names (lead ++ row_so_far g names) acc
      = acc ++ (lead ++ hd [] (rows (g' :: gs)) ++ eol) :: map (fun r => indent ++ r ++ eol) (tl (rows (g' :: gs))).
Proof.
  induction names as [|n t IH]; intros g lead acc Hl P Ng Hw.
  - exists g, []. refine (conj _ (conj _ (conj _ (conj _ (conj _ _))))).
    + cbn [concat]. reflexivity.
    + exists []. now rewrite app_nil_r.
    + now repeat constructor.
    + constructor; [|constructor]. unfold row_so_far, tail_sep in Hw. rewrite app_nil_r in Hw. exact Hw.
    + intros [|x [|y a]] g0 n h b E; discriminate E.
    + cbn [wrap rows hd tl map]. unfold row_so_far, tail_sep. now rewrite app_nil_r, <- app_assoc.
  - assert (Pg : Forall plain g) by (apply Forall_app in P; apply P).
    assert (Pn : plain n) by (apply Forall_app in P; destruct P as [_ P]; now inversion P).
    cbn [wrap]. rewrite Hl by now apply row_plain.
    change (match t with [] => [] | _ => str ", " end) with (tail_sep t).
    destruct (Nat.ltb_spec width (off + length (row_so_far g (n :: t)) + length (n ++ tail_sep t))) as [L|L].
    + replace (n ++ tail_sep t) with (row_so_far [n] t) by reflexivity.
      destruct (IH [n] indent (acc ++ [(lead ++ row_so_far g (n :: t)) ++ eol])) as [g' [gs [E [[e E'] [F [Ft [T W]]]]]]].
      * exact indent_len.
      * apply Forall_app in P. apply P.
      * discriminate.
      * cbn [length]. lia.
      * exists g, (g' :: gs). refine (conj _ (conj _ (conj _ (conj _ (conj _ _))))).
        -- cbn [concat] in *. change ([n] ++ t) with (n :: t) in E. rewrite E. reflexivity.
        -- exists []. now rewrite app_nil_r.
        -- now constructor.
        -- unfold fits. cbn [rows]. constructor; [|exact Ft]. unfold row_so_far, tail_sep in Hw. exact Hw.
        -- intros [|x a] g0 n0 h b Eg.
           ++ cbn [app] in Eg. injection Eg as <- Eg' Egs. subst g'. cbn [app] in Eg'. injection Eg' as <- <-.
              cbn [concat app] in E. injection E as E. subst b. rewrite <- E. exact L.
           ++ cbn [app] in Eg. injection Eg as <- Eg. exact (T a g0 n0 h b Eg).
        -- rewrite W. cbn [rows hd tl]. rewrite <- !app_assoc. cbn [app]. f_equal. f_equal.
           { unfold row_so_far. cbn [tail_sep]. now rewrite <- !app_assoc. }
           cbn [rows]. destruct gs as [|g2 gs]; reflexivity.
    + rewrite <- app_assoc, row_step by exact Ng.
      destruct (IH (g ++ [n]) lead acc) as [g' [gs [E [[e E'] R]]]].
      * exact Hl.
      * now rewrite <- app_assoc.
      * destruct g; discriminate.
      * intros _. rewrite <- row_step by exact Ng. rewrite app_length. lia.
      * exists g', gs. rewrite <- E, <- app_assoc. split; [reflexivity|]. split; [|exact R].
        exists ([n] ++ e). now rewrite app_assoc.
Qed.
End W.
Lemma rows_plain gs : Forall plain (concat gs) -> Forall plain (rows gs).
Proof.
  induction gs as [|g gs IH]; intro H; [constructor|]. cbn [concat] in H. apply Forall_app in H. destruct H as [Hg H].
  cbn [rows]. destruct gs as [|g2 gs]; constructor; auto using join_plain. apply plain_app. split; [now apply join_plain|now apply plain_b].
Qed.
Lemma rows_nonempty gs : gs <> [] -> rows gs <> [].
Proof. destruct gs as [|g [|g2 gs]]; cbn [rows]; congruence. Qed.
Theorem format_spec label names width : plain label -> Forall plain names -> names <> [] ->
  exists gs, concat gs = names /\ Forall (fun g => g <> []) gs /\
    lines (format_list label names width)
      = match rows gs with [] => [] | r :: rs => (tabs 2 ++ label ++ str ": " ++ r) :: map (fun r => repeat " "%char (18 + length label) ++ r) rs end /\
    fits width (18 + length label) gs /\ tight width (18 + length label) gs /\
    concat (map (fun l => l ++ eol) (lines (format_list label names width))) = format_list label names width.
Proof.
  intros Pl Pn Nn. destruct names as [|n t]; [congruence|]. unfold format_list.
  assert (Pp : plain (label ++ str ": ")) by (apply plain_app; split; [exact Pl|now apply plain_b]).
  rewrite (xlen_prefix _ Pp). cbn [wrap].
  change (match t with [] => [] | _ => str ", " end) with (tail_sep t). replace (n ++ tail_sep t) with (row_so_far [n] t) by reflexivity.
  assert (Lo : 16 + length (label ++ str ": ") = 18 + length label) by (rewrite app_length; cbn [length str]; change (length (str ": ")) with 2; lia).
  rewrite Lo. set (off := 18 + length label).
  destruct (wrap_spec width off (repeat " "%char off)) with (names := t) (g := [n]) (lead := tabs 2 ++ label ++ str ": ") (acc := @nil chars)
    as [g' [gs [E [_ [F [Ft [T W]]]]]]].
  - intros s Hs. rewrite xlen_plain; [now rewrite app_length, repeat_length|]. apply plain_app. split; [apply spaces_plain|exact Hs].
  - intros s Hs. rewrite <- app_assoc, xlen_prefix; [|apply plain_app; auto]. rewrite app_length, Nat.add_assoc, Lo. reflexivity.
  - exact Pn.
  - discriminate.
  - cbn [length]. lia.
  - exists (g' :: gs). rewrite W. cbn [app]. clear W.
    assert (PR : Forall plain (rows (g' :: gs))) by (apply rows_plain; rewrite <- E; exact Pn).
    assert (NR := rows_nonempty (g' :: gs) ltac:(discriminate)).
    destruct (rows (g' :: gs)) as [|r rs] eqn:ER; [congruence|]. cbn [hd tl concat].
    assert (LL : lines ((tabs 2 ++ label ++ str ": ") ++ r ++ eol ++ concat (map (fun r => repeat " "%char off ++ r ++ eol) rs))
                 = (tabs 2 ++ label ++ str ": " ++ r) :: map (fun r => repeat " "%char off ++ r) rs).
    { inversion PR as [|? ? Pr Prs]; subst. clear - Pr Prs Pp.
      assert (G : forall rs, Forall plain rs -> lines_from [] (concat (map (fun r => repeat " "%char off ++ r ++ eol) rs))
                     = map (fun r => repeat " "%char off ++ r) rs).
      { induction 1 as [|x l Hx H IH]; [reflexivity|]. cbn [map concat]. rewrite <- !app_assoc. rewrite app_assoc. unfold eol at 1.
        rewrite lines_from_plain by (apply plain_app; split; [apply spaces_plain|exact Hx]). cbn [rev app]. now rewrite IH. }
      unfold lines. change (tabs 2) with [ht; ht]. cbn [app lines_from]. change (Ascii.eqb ht lf) with false. cbn iota.
      rewrite (app_assoc (label ++ str ": ") r). unfold eol at 1. rewrite lines_from_plain by (apply plain_app; auto).
      rewrite G by exact Prs. cbn [rev app]. now rewrite <- app_assoc. }
    rewrite <- !app_assoc in *. refine (conj _ (conj F (conj LL (conj Ft (conj T _))))).
    + exact (eq_sym E).
    + rewrite LL. cbn [map concat]. rewrite <- !app_assoc. do 4 f_equal. rewrite map_map. repeat (apply (f_equal2 (@app ascii)); [reflexivity|]). apply f_equal. apply map_ext. intro a. now rewrite <- app_assoc.
Qed.
