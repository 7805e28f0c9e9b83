From Verif Require Import Common Err_Model Rep_Model Rep_Proofs.
From Verif Require Build_Proofs.
Local Open Scope list_scope.

(* _format_ss_var_list: the names, in order, each whole in one row; all rows start in the column after the colon; a row of two or
   more names is at most [width] columns wide (tabs at multiples of 8); a row ends only where the next name would not have fitted *)
Theorem C150_steady_state_names_wrapped label names width : plain label -> Forall plain names -> names <> [] ->
  exists gs, concat gs = names /\ Forall (fun g => g <> []) gs /\
    lines (format_list label names width)
      = match rows gs with [] => [] | r :: rs => (tabs 2 ++ label ++ str ": " ++ r) :: map (fun r => repeat " "%char (18 + length label) ++ r) rs end /\
    Forall2 (fun g r => 2 <= length g -> 18 + length label + length r <= width) gs (rows gs) /\
    (forall a g n h b, gs = a ++ g :: (n :: h) :: b ->
       width < 18 + length label + length (join (str ", ") g ++ str ", ") + length (n ++ (match h ++ concat b with [] => [] | _ => str ", " end))) /\
    concat (map (fun l => l ++ eol) (lines (format_list label names width))) = format_list label names width.
Proof. exact (format_spec label names width). Qed.

(* ---- the lines of the report ---- *)
Definition plain_facts (f : facts) : Prop :=
  Forall plain (reduced_vars f) /\ Forall plain (singletons f) /\ Forall plain (reduced_params f) /\ Forall plain (user_ss f) /\ Forall plain (inferred_ss f).
Lemma num_plain n : plain (num n). Proof. apply dec_plain. Qed.
Lemma plural_plain w n : plain w -> plain (plural w n).
Proof. intro H. unfold plural. destruct (Nat.eqb n 1); [exact H|]. apply plain_app. split; [exact H|now apply plain_b]. Qed.
Lemma has_plain n : plain (has_have n).
Proof. unfold has_have. destruct (Nat.eqb n 1); now apply plain_b. Qed.
Lemma str_plain (s : string) : forallb (fun c => negb (Ascii.eqb c ht || Ascii.eqb c lf || Ascii.eqb c cr)) (str s) = true -> plain (str s).
Proof. apply plain_b. Qed.
(* a line: text without line ends *)
Definition endless (s : chars) : Prop := ~ In lf s.
Lemma lines_cons a s : endless a -> lines (ln a ++ s) = a :: lines s.
Proof.
  assert (G : forall a, endless a -> forall acc s, lines_from acc (a ++ [lf] ++ s) = (rev acc ++ a) :: lines_from [] s).
  { clear. induction a as [|c a IH]; intros H acc s.
    - cbn [app lines_from]. rewrite Ascii.eqb_refl. now rewrite app_nil_r.
    - cbn [app lines_from]. destruct (Ascii.eqb_spec c lf) as [->|_]; [exfalso; apply H; now left|].
      change (lines_from (c :: acc) (a ++ lf :: s)) with (lines_from (c :: acc) (a ++ [lf] ++ s)). rewrite IH.
      + cbn [rev]. now rewrite <- app_assoc.
      + intro X. apply H. now right. }
  intro H. unfold lines, ln, eol. rewrite <- app_assoc. now rewrite G.
Qed.
Lemma endless_app a b : endless a -> endless b -> endless (a ++ b).
Proof. intros Ha Hb X. apply in_app_or in X. destruct X; auto. Qed.
Lemma plain_endless a : plain a -> endless a.
Proof. intros H X. destruct (H lf X) as [_ [N _]]. congruence. Qed.
Lemma tabs_endless n : endless (tabs n).
Proof. intro X. apply repeat_spec in X. discriminate X. Qed.
Lemma endless_b s : forallb (fun c => negb (Ascii.eqb c lf)) s = true -> endless s.
Proof. intros H X. rewrite forallb_forall in H. specialize (H lf X). discriminate H. Qed.
Ltac flat := repeat first
  [ apply endless_app | apply tabs_endless | apply plain_endless, num_plain | apply plain_endless, has_plain
  | apply plain_endless, plural_plain; now apply plain_b | apply plain_endless, join_plain; assumption | now apply endless_b ].
(* a heading and the names under it, or nothing *)
Definition under (h : chars) (l : list chars) : list chars := match l with [] => [] | _ => [h; tabs 3 ++ join (str ", ") l] end.
Lemma lines_listed h l s : endless h -> Forall plain l ->
  lines (listed h l ++ s) = under h l ++ lines s.
Proof.
  intros Hh Hl. unfold listed. destruct l as [|x r]; [reflexivity|]. rewrite <- !app_assoc. rewrite lines_cons by exact Hh.
  rewrite lines_cons by flat. reflexivity.
Qed.
Lemma lines_app a s : (exists ls, a = concat (map (fun l => l ++ eol) ls) /\ Forall endless ls) -> lines (a ++ s) = lines a ++ lines s.
Proof.
  intros [ls [-> F]]. revert s. induction F as [|l ls Hl F IH]; intro s; [reflexivity|].
  cbn [map concat]. rewrite <- app_assoc. change (l ++ eol) with (ln l). rewrite !lines_cons by exact Hl. now rewrite IH.
Qed.
Lemma format_blocks label names width : plain label -> Forall plain names -> names <> [] ->
  exists ls, format_list label names width = concat (map (fun l => l ++ eol) ls) /\ Forall endless ls.
Proof.
  intros Pl Pn Nn. destruct (format_spec label names width Pl Pn Nn) as [gs [E [_ [L [_ [_ C]]]]]].
  exists (lines (format_list label names width)). split; [now rewrite C|]. rewrite L.
  assert (P : Forall plain (rows gs)) by (apply rows_plain; now rewrite E).
  destruct P as [|r rs Pr Prs]; [constructor|]. constructor.
  - flat; [apply plain_endless; exact Pl|apply plain_endless; exact Pr].
  - apply Forall_forall. intros x Hx. apply in_map_iff in Hx. destruct Hx as [y [<- Hy]]. rewrite Forall_forall in Prs.
    apply endless_app; apply plain_endless; [apply spaces_plain|now apply Prs].
Qed.
Definition ss_lines (word : string) (l : list chars) : list chars := match l with [] => [] | _ => lines (format_list (num (length l) ++ str word) l 80) end.
Definition ss_share (total n_var : nat) : list chars :=
  if Nat.eqb total 0 then [] else [tabs 1 ++ num total ++ str " / " ++ num n_var ++ str " variables have analytical steady-state values."].
(* what the report says, line by line *)
Definition report_lines (f : facts) : list chars :=
  let n_params := n_free f + n_calib f in
  [str "Model Building Complete."; str "Found:";
   tabs 1 ++ num (n_eq f) ++ str " " ++ plural (str "equation") (n_eq f);
   tabs 1 ++ num (n_var f) ++ str " " ++ plural (str "variable") (n_var f)]
  ++ under eliminated_header (reduced_vars f)
  ++ under constants_header (singletons f)
  ++ [tabs 1 ++ num (n_shock f) ++ str " stochastic " ++ plural (str "shock") (n_shock f);
      tabs 2 ++ str " " ++ num (n_shock_priors f) ++ str " / " ++ num (n_shock f) ++ str " " ++ has_have (n_shock_priors f) ++ str " a defined prior.";
      tabs 1 ++ num n_params ++ str " " ++ plural (str "parameter") n_params]
  ++ under params_header (reduced_params f)
  ++ [tabs 2 ++ str " " ++ num (n_param_priors f) ++ str " / " ++ num n_params ++ str " " ++ has_have (n_param_priors f) ++ str " a defined prior.";
      tabs 1 ++ num (n_calib f) ++ str " " ++ plural (str "parameter") (n_calib f) ++ str " to calibrate."]
  ++ ss_share (length (user_ss f) + length (inferred_ss f)) (n_var f)
  ++ ss_lines " user-provided" (user_ss f) ++ ss_lines " inferred" (inferred_ss f)
  ++ (if Nat.eqb (n_eq f) (n_var f) then [ready] else []).
Lemma nonempty_if (l : list chars) (x : chars) : (if Nat.ltb 0 (length l) then x else []) = match l with [] => [] | _ => x end.
Proof. now destruct l. Qed.
Lemma lines_ss nv u i s : Forall plain u -> Forall plain i ->
  lines (ss_part nv u i ++ s)
  = ss_share (length u + length i) nv ++ ss_lines " user-provided" u ++ ss_lines " inferred" i ++ lines s.
Proof.
  intros Pu Pi. assert (Pw : forall n (w : chars), plain w -> plain (num n ++ w))
      by (intros; apply plain_app; split; [apply num_plain|assumption]).
  unfold ss_part. cbv zeta. rewrite !nonempty_if. destruct u as [|u us], i as [|i is].
  - reflexivity.
  - cbn [length Nat.add]. cbn [Nat.ltb Nat.leb]. rewrite <- !app_assoc. rewrite lines_cons by flat. cbn [app]. f_equal.
    rewrite lines_app; [reflexivity|]. apply format_blocks; [apply Pw; now apply plain_b|exact Pi|discriminate].
  - cbn [length Nat.add]. cbn [Nat.ltb Nat.leb]. rewrite <- !app_assoc. rewrite lines_cons by flat. cbn [app]. f_equal.
    rewrite lines_app; [reflexivity|]. apply format_blocks; [apply Pw; now apply plain_b|exact Pu|discriminate].
  - cbn [length Nat.add]. cbn [Nat.ltb Nat.leb]. rewrite <- !app_assoc. rewrite lines_cons by flat. cbn [app]. f_equal.
    rewrite lines_app by (apply format_blocks; [apply Pw; now apply plain_b|exact Pu|discriminate]). f_equal.
    rewrite lines_app by (apply format_blocks; [apply Pw; now apply plain_b|exact Pi|discriminate]). reflexivity.
Qed.
Theorem C150_report_lines f : plain_facts f -> lines (snd (build_report f)) = report_lines f.
Proof.
  intros [P1 [P2 [P3 [P4 P5]]]]. unfold build_report, report_lines. cbv zeta.
  match goal with |- lines (snd (if _ then (_, ?b ++ _) else _)) = _ =>
    transitivity (lines (b ++ (if Nat.eqb (n_eq f) (n_var f) then ln ready else []))) end.
  { destruct (Nat.eqb (n_eq f) (n_var f)); cbn [snd]; [reflexivity|]. now rewrite app_nil_r. }
  rewrite <- !app_assoc. do 4 (rewrite lines_cons by flat). cbn [app]. do 4 apply (f_equal2 cons eq_refl).
  rewrite lines_listed by (flat || assumption). apply (f_equal2 (@app _) eq_refl).
  rewrite lines_listed by (flat || assumption). apply (f_equal2 (@app _) eq_refl).
  do 3 (rewrite lines_cons by flat). do 3 apply (f_equal2 cons eq_refl).
  rewrite lines_listed by (flat || assumption). apply (f_equal2 (@app _) eq_refl).
  do 2 (rewrite lines_cons by flat). do 2 apply (f_equal2 cons eq_refl). rewrite lines_ss by assumption.
  do 3 apply (f_equal2 (@app _) eq_refl). destruct (Nat.eqb (n_eq f) (n_var f)); reflexivity.
Qed.

Lemma mid1 (p a n1 s1 w1 e1 z : chars) : exists x y, (p ++ a) ++ n1 ++ s1 ++ (w1 ++ e1) ++ z = x ++ a ++ n1 ++ (s1 ++ w1) ++ y.
Proof. exists p, (e1 ++ z). now rewrite <- !app_assoc. Qed.
Lemma mid2 (a n1 s1 w1 but n2 s2 w2 e2 z : chars) : exists x y, a ++ n1 ++ s1 ++ w1 ++ but ++ n2 ++ s2 ++ (w2 ++ e2) ++ z = x ++ but ++ n2 ++ (s2 ++ w2) ++ y.
Proof. exists (a ++ n1 ++ s1 ++ w1), (e2 ++ z). now rewrite <- !app_assoc. Qed.
(* the warning comes exactly when the system is not square, and names both counts *)
Theorem C150_warning_iff_not_square f :
  (n_eq f = n_var f -> fst (build_report f) = None) /\
  (n_eq f <> n_var f -> exists m, fst (build_report f) = Some m /\
     (exists a b, m = a ++ str " there are " ++ num (n_eq f) ++ str " equation" ++ b) /\
     (exists a b, m = a ++ str " but " ++ num (n_var f) ++ str " variable" ++ b)).
Proof.
  assert (PL : forall w n, exists e, plural w n = w ++ e).
  { intros w n. unfold plural. destruct (Nat.eqb n 1); [exists []; now rewrite app_nil_r|now exists (str "s")]. }
  unfold build_report. cbv zeta. destruct (Nat.eqb_spec (n_eq f) (n_var f)) as [E|N]; cbn [fst].
  - split; [reflexivity|congruence].
  - split; [congruence|]. intros _. eexists. split; [reflexivity|].
    destruct (PL (str "equation") (n_eq f)) as [e1 ->], (PL (str "variable") (n_var f)) as [e2 ->]. split.
    + change (str "The model does not appear correctly specified, there are ")
        with (str "The model does not appear correctly specified," ++ str " there are ").
      change (str " equation") with (str " " ++ str "equation"). apply mid1.
    + change (str " variable") with (str " " ++ str "variable"). apply mid2.
Qed.

(* ---- where headings and the final sentence can stand ---- *)
Definition at_ (k : nat) (l : chars) : ascii := nth k l "."%char.
Lemma num_head n : exists d r, num n = d :: r /\ is_digit d = true.
Proof.
  unfold num. pose proof (dec_nonempty (N.of_nat n)) as H. pose proof (dec_digits (N.of_nat n)) as D.
  destruct (dec (N.of_nat n)) as [|d r]; [congruence|]. exists d, r. split; [reflexivity|]. cbn [forallb] in D. now apply andb_true_iff in D.
Qed.
Lemma digit_not d : is_digit d = true -> d <> ht /\ d <> "T"%char.
Proof. intro H. split; intros ->; vm_compute in H; discriminate H. Qed.
Lemma ss_lines_heads w l x : Forall plain l -> plain (str w) -> In x (ss_lines w l) ->
  (at_ 0 x = ht /\ at_ 1 x = ht /\ is_digit (at_ 2 x) = true) \/ at_ 0 x = " "%char.
Proof.
  intros Pl Pw. unfold ss_lines. destruct l as [|n t]; [intros []|].
  assert (Pn : plain (num (length (n :: t)) ++ str w)) by (apply plain_app; split; [apply num_plain|exact Pw]).
  destruct (format_spec _ (n :: t) 80 Pn Pl ltac:(discriminate)) as [gs [_ [_ [L _]]]]. rewrite L. clear L.
  destruct (rows gs) as [|r rs]; [intros []|]. intros [<-|H].
  - left. destruct (num_head (length (n :: t))) as [d [u [-> Hd]]]. cbn. auto.
  - right. apply in_map_iff in H. destruct H as [y [<- _]]. reflexivity.
Qed.
Lemma under_in h l x : In x (under h l) <-> l <> [] /\ (x = h \/ x = tabs 3 ++ join (str ", ") l).
Proof.
  unfold under. destruct l as [|n t]; [cbn; tauto|]. cbn [In]. split; [intros [<-|[<-|[]]]; split; auto; discriminate|].
  intros [_ [-> | ->]]; auto.
Qed.
Definition heading (x : chars) : Prop := at_ 0 x = ht /\ at_ 1 x = ht /\ at_ 2 x = "T"%char.
Lemma in_report f x : plain_facts f -> In x (report_lines f) ->
  (x = ready /\ n_eq f = n_var f) \/ (x <> ready /\ ~ heading x) \/
  (x = eliminated_header /\ reduced_vars f <> []) \/ (x = constants_header /\ singletons f <> []) \/ (x = params_header /\ reduced_params f <> []).
Proof.
  intros [P1 [P2 [P3 [P4 P5]]]] H. unfold report_lines in H. cbv zeta in H. rewrite !in_app_iff in H.
  assert (N1 : forall n r, at_ 0 (tabs 1 ++ num n ++ r) = ht /\ ~ heading (tabs 1 ++ num n ++ r)).
  { intros n r. destruct (num_head n) as [d [u [-> Hd]]]. split; [reflexivity|]. intros [_ [E _]]. cbn in E. now apply digit_not in Hd. }
  assert (N2 : forall r, at_ 0 (tabs 2 ++ str " " ++ r) = ht /\ ~ heading (tabs 2 ++ str " " ++ r)).
  { intro r. split; [reflexivity|]. intros [_ [_ E]]. discriminate E. }
  assert (N3 : forall r, at_ 0 (tabs 3 ++ r) = ht /\ ~ heading (tabs 3 ++ r)).
  { intro r. split; [reflexivity|]. intros [_ [_ E]]. discriminate E. }
  assert (R : forall y, at_ 0 y = ht -> y <> ready) by (intros y Hy ->; discriminate Hy).
  assert (K : forall y, at_ 0 y = ht /\ ~ heading y -> y <> ready /\ ~ heading y) by (intros y [A B]; auto).
  cbn [In] in H. rewrite !under_in in H.
  destruct H as [[<-|[<-|[<-|[<-|[]]]]]|[[U [-> | ->]]|[[U [-> | ->]]|[[<-|[<-|[<-|[]]]]|[[U [-> | ->]]|[[<-|[<-|[]]]|[H|[H|[H|H]]]]]]]]].
  all: try (right; left; apply K; first [apply N1|apply N2|apply N3]).
  - right; left. split; [discriminate|]. intros [E _]. discriminate E.
  - right; left. split; [discriminate|]. intros [E _]. discriminate E.
  - right; right; left. auto.
  - right; right; right; left. auto.
  - right; right; right; right. auto.
  - right; left. apply K. unfold ss_share in H. destruct (Nat.eqb _ 0); [destruct H|]. destruct H as [<-|[]]. apply N1.
  - right; left. apply ss_lines_heads in H; [|exact P4|now apply plain_b]. destruct H as [[A [B C]]|A].
    + split; [now apply R|]. intros [_ [_ E]]. rewrite E in C. discriminate C.
    + split; [intros ->; discriminate A|]. intros [E _]. rewrite E in A. discriminate A.
  - right; left. apply ss_lines_heads in H; [|exact P5|now apply plain_b]. destruct H as [[A [B C]]|A].
    + split; [now apply R|]. intros [_ [_ E]]. rewrite E in C. discriminate C.
    + split; [intros ->; discriminate A|]. intros [E _]. rewrite E in A. discriminate A.
  - left. destruct (Nat.eqb_spec (n_eq f) (n_var f)); [|destruct H]. destruct H as [<-|[]]. auto.
Qed.
Lemma headings_differ : eliminated_header <> constants_header /\ eliminated_header <> params_header /\ constants_header <> params_header /\
  heading eliminated_header /\ heading constants_header /\ heading params_header /\
  eliminated_header <> ready /\ constants_header <> ready /\ params_header <> ready.
Proof. repeat split; vm_compute; discriminate || reflexivity. Qed.
(* the report calls the model ready exactly when it is square, and shows each list of removed names exactly when there is one,
   under its own heading *)
Theorem C150_report_says f : plain_facts f ->
  let text := lines (snd (build_report f)) in
  (In ready text <-> n_eq f = n_var f) /\
  (In eliminated_header text <-> reduced_vars f <> []) /\
  (In constants_header text <-> singletons f <> []) /\
  (In params_header text <-> reduced_params f <> []) /\
  (reduced_vars f <> [] -> In (tabs 3 ++ join (str ", ") (reduced_vars f)) text) /\
  (singletons f <> [] -> In (tabs 3 ++ join (str ", ") (singletons f)) text) /\
  (reduced_params f <> [] -> In (tabs 3 ++ join (str ", ") (reduced_params f)) text).
Proof.
  intros P text. unfold text. rewrite (C150_report_lines f P). clear text.
  destruct headings_differ as [D1 [D2 [D3 [H1 [H2 [H3 [R1 [R2 R3]]]]]]]].
  pose proof (fun x => in_report f x P) as G.
  assert (I : forall h l x, (h, l) = (eliminated_header, reduced_vars f) \/ (h, l) = (constants_header, singletons f) \/ (h, l) = (params_header, reduced_params f) ->
     In x (under h l) -> In x (report_lines f)).
  { intros h l x Hh Hx. unfold report_lines. cbv zeta. rewrite !in_app_iff.
    destruct Hh as [E|[E|E]]; injection E as -> ->; tauto. }
  assert (U : forall h l, l <> [] -> In h (under h l) /\ In (tabs 3 ++ join (str ", ") l) (under h l)) by (intros; rewrite !under_in; auto).
  assert (E1 := I eliminated_header (reduced_vars f)). assert (E2 := I constants_header (singletons f)). assert (E3 := I params_header (reduced_params f)).
  refine (conj _ (conj _ (conj _ (conj _ (conj _ (conj _ _)))))).
  - split; intro H.
    + destruct (G _ H) as [[_ X]|[[X _]|[[X _]|[[X _]|[X _]]]]]; auto; congruence.
    + unfold report_lines. cbv zeta. rewrite !in_app_iff. apply Nat.eqb_eq in H. rewrite H. cbn [In]. tauto.
  - split; intro H.
    + destruct (G _ H) as [[X _]|[[_ X]|[[_ X]|[[X _]|[X _]]]]]; auto; congruence.
    + apply E1; [auto|now apply U].
  - split; intro H.
    + destruct (G _ H) as [[X _]|[[_ X]|[[X _]|[[_ X]|[X _]]]]]; auto; try congruence; now contradict X.
    + apply E2; [auto|now apply U].
  - split; intro H.
    + destruct (G _ H) as [[X _]|[[_ X]|[[X _]|[[X _]|[_ X]]]]]; auto; try congruence; now contradict X.
    + apply E3; [auto|now apply U].
  - intro H. apply (E1 _ (or_introl eq_refl)). now apply U.
  - intro H. apply (E2 _ (or_intror (or_introl eq_refl))). now apply U.
  - intro H. apply (E3 _ (or_intror (or_intror eq_refl))). now apply U.
Qed.
(* the two groups of steady-state names are the keys of the final steady state, each once; with model variables as keys the share
   reported is at most one *)
Theorem C150_share provided final variables : NoDup provided -> NoDup final -> incl provided final -> incl final variables ->
  let (user, inferred) := reported_ss provided final in
  (forall v, In v user \/ In v inferred <-> In v final) /\ (forall v, ~ (In v user /\ In v inferred)) /\
  length user + length inferred = length final /\ length user + length inferred <= length variables.
Proof.
  intros Np Nf Ip If. unfold reported_ss.
  set (inf := filter (fun v => negb (existsb (chars_eqb v) provided)) final).
  assert (M : forall v, In v inf <-> In v final /\ ~ In v provided).
  { intro v. unfold inf. rewrite filter_In, negb_true_iff. split; intros [A B]; split; auto.
    - intro H. assert (existsb (chars_eqb v) provided = true) by (apply existsb_exists; exists v; split; [exact H|now apply chars_eqb_eq]). congruence.
    - destruct (existsb (chars_eqb v) provided) eqn:E; [|reflexivity]. apply existsb_exists in E. destruct E as [w [Hw E]].
      apply chars_eqb_eq in E. subst w. contradiction. }
  assert (U : forall v, In v provided \/ In v inf <-> In v final).
  { intro v. rewrite M. split; [intros [H|H]; [now apply Ip|tauto]|]. intro H.
    destruct (in_dec (list_eq_dec ascii_dec) v provided); tauto. }
  assert (D : forall v, ~ (In v provided /\ In v inf)) by (intros v [A B]; apply M in B; tauto).
  assert (L : length provided + length inf = length final).
  { rewrite <- app_length. assert (Nd : NoDup (provided ++ inf)).
    { apply Build_Proofs.NoDup_app. split; [exact Np|]. split; [unfold inf; now apply NoDup_filter|]. intros v A B. now apply (D v). }
    apply Nat.le_antisymm; apply NoDup_incl_length; auto; intros v Hv.
    - apply in_app_or in Hv. now apply U.
    - apply in_or_app. now apply U. }
  refine (conj U (conj D (conj L _))). rewrite L. now apply NoDup_incl_length.
Qed.
(* a square model: the report, and a list that is wrapped; and a model with an equation too few *)
Definition case_facts : facts :=
  Facts 4 4 1 4 0 2 1 [str "U_t"] [] [str "theta"] (map str ["A_ss"; "consumption_of_the_household_ss"; "investment_in_capital_ss"]%string) [str "Y_ss"].
Definition short_facts : facts := Facts 1 2 0 0 0 0 0 [] [] [] [] [].
Theorem C150_case :
  plain_facts case_facts /\ fst (build_report case_facts) = None /\
  skipn 4 (lines (snd (build_report case_facts))) =
    [eliminated_header; tabs 3 ++ str "U_t"; tabs 1 ++ str "1 stochastic shock"; tabs 2 ++ str " 1 / 1 has a defined prior.";
     tabs 1 ++ str "4 parameters"; params_header; tabs 3 ++ str "theta"; tabs 2 ++ str " 2 / 4 have a defined prior.";
     tabs 1 ++ str "0 parameters to calibrate."; tabs 1 ++ str "4 / 4 variables have analytical steady-state values.";
     tabs 2 ++ str "3 user-provided: A_ss, consumption_of_the_household_ss, ";
     repeat " "%char 33 ++ str "investment_in_capital_ss"; tabs 2 ++ str "1 inferred: Y_ss"; ready] /\
  plain_facts short_facts /\ length (lines (snd (build_report short_facts))) = 9 /\
  fst (build_report short_facts) = Some (str "The model does not appear correctly specified, there are 1 equation but 2 variables. It will not be possible to solve this model. Please check the specification using available diagnostic tools, and check the GCN file for typos.") /\
  reported_ss [str "A_ss"] [str "A_ss"; str "Y_ss"] = ([str "A_ss"], [str "Y_ss"]).
Proof.
  assert (P : forall l, forallb (fun s => forallb (fun c => negb (Ascii.eqb c ht || Ascii.eqb c lf || Ascii.eqb c cr)) s) l = true -> Forall plain l).
  { intros l H. apply Forall_forall. intros s Hs. apply plain_b. rewrite forallb_forall in H. now apply H. }
  repeat apply conj; first [now apply P | vm_compute; reflexivity].
Qed.
