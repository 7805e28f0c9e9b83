(* C40, C103, C104: what the validation of a parsed model reports.  The notions used are defined in Val_Spec.v. *)
From Coq Require Import Permutation Sorted.
From Verif Require Import Common Expr_Model SymDict_Model SymDict_More Sort_Lib Val_Model Val_Spec Val_Proofs.
Local Open Scope list_scope.

(* C40: the validation finds an error exactly when a control or shock is listed twice in a block, two blocks have the
   same name, or two calibration items give the same parameter. *)
Theorem C40_error_iff_repetition : forall F (m : model F) external_vars external_pars,
  has_errors (full_validation m external_vars external_pars) = false <-> no_repetition m.
Proof. intros. apply model_errors. Qed.

(* Number of issues of a kind: an exact count, repetition by repetition. *)
Definition count {A} (p : A -> bool) (l : list A) : nat := length (filter p l).
Definition control_issue (n b : chars) (i : issue) : bool := match i with DuplicateControl x y => (chars_eqb x n && chars_eqb y b)%bool | _ => false end.
Definition shock_issue (n b : chars) (i : issue) : bool := match i with DuplicateShock x y => (chars_eqb x n && chars_eqb y b)%bool | _ => false end.
Definition calibration_issue (n b : chars) (i : issue) : bool := match i with DuplicateCalibration x y => (chars_eqb x n && chars_eqb y b)%bool | _ => false end.
Definition times (n : chars) (l : list chars) : nat := count (chars_eqb n) l.

Lemma times_occ n l : times n l = count_occ chars_dec l n.
Proof.
  unfold times, count. induction l as [|x l IH]; cbn [filter count_occ length]; [reflexivity|].
  destruct (chars_dec x n) as [->|Hne]; [rewrite chars_eqb_refl; cbn; now rewrite IH|].
  assert (H : chars_eqb n x = false) by (apply chars_eqb_neq; congruence). now rewrite H.
Qed.
Lemma count_app {A} (p : A -> bool) a b : count p (a ++ b) = count p a + count p b.
Proof. unfold count. now rewrite filter_app, app_length. Qed.
Lemma count_none {A} (p : A -> bool) l : (forall x, In x l -> p x = false) -> count p l = 0.
Proof. intro H. unfold count. induction l as [|x l IH]; cbn; [reflexivity|]. rewrite H by now left. apply IH. intros; apply H; now right. Qed.
Lemma count_map {A B} (g : A -> B) p l : count p (map g l) = count (fun x => p (g x)) l.
Proof. unfold count. induction l as [|x l IH]; cbn [map filter]; [reflexivity|]. destruct (p (g x)); cbn; now rewrite IH. Qed.
Lemma count_ext {A} (p q : A -> bool) l : (forall x, p x = q x) -> count p l = count q l.
Proof. intro H. unfold count. f_equal. now apply filter_ext. Qed.
Lemma count_repeats n l : count (fun x => chars_eqb x n) (repeats [] l) = pred (times n l).
Proof.
  assert (H := repeats_count l [] n). change (mem n []) with false in H. cbn iota in H. rewrite times_occ, <- H, <- times_occ. unfold times.
  apply count_ext. intro x. destruct (chars_eqb x n) eqn:E; [apply chars_eqb_eq in E as ->; now rewrite chars_eqb_refl|].
  symmetry. apply chars_eqb_neq. apply chars_eqb_neq in E. congruence.
Qed.

(* Every second and later occurrence of a name is reported, in its own block, once. *)
Theorem C40_counts : forall F (b : block F) n,
  count (control_issue n (b_name b)) (validate_block b) = pred (times n (controls b)) /\
  count (shock_issue n (b_name b)) (validate_block b) = pred (times n (shocks b)) /\
  count (calibration_issue n (b_name b)) (validate_block b) = pred (times n (calibrated b)).
Proof.
  intros F b n.
  assert (H1 : forall p, (forall x, is_error x = false -> p x = false) ->
     count p (match controls b, objective b with _ :: _, [] => [NoObjective (b_name b)] | _, _ => [] end) = 0).
  { intros p Hp. apply count_none. intros x Hx. apply Hp. destruct (controls b), (objective b); cbn in Hx; intuition; now subst. }
  assert (H2 : forall p, (forall x, is_error x = false -> p x = false) ->
     count p (match objective b, constraints b with _ :: _, [] => [NoConstraints (b_name b)] | _, _ => [] end) = 0).
  { intros p Hp. apply count_none. intros x Hx. apply Hp. destruct (constraints b), (objective b); cbn in Hx; intuition; now subst. }
  assert (E : forall x, (chars_eqb x n && chars_eqb (b_name b) (b_name b))%bool = chars_eqb x n) by (intro; rewrite chars_eqb_refl; apply andb_true_r).
  unfold validate_block. rewrite !count_app, !count_map, !H1, !H2 by (intros [] ?; auto; discriminate). cbn [control_issue shock_issue calibration_issue].
  rewrite !(count_none (fun _ => false)) by auto. rewrite !(count_ext _ _ _ E), !count_repeats. lia.
Qed.

(* Two blocks of the same name; a parameter given more than once, with the blocks of all its items in order. *)
Theorem C40_blocks_and_parameters : forall F (m : model F) external_vars external_pars,
  let report := full_validation m external_vars external_pars in
  (forall n, count (fun i => match i with DuplicateBlock x => chars_eqb x n | _ => false end) report = pred (times n (map b_name m))) /\
  (forall p, count (fun i => match i with DefinedTwice x _ => chars_eqb x p | _ => false end) report = if 2 <=? times p (flat_map item_name (items m)) then 1 else 0) /\
  (forall p blocks, In (DefinedTwice p blocks) report ->
     blocks = flat_map (fun b => map (fun _ => b_name b) (filter (chars_eqb p) (calibrated b))) m).
Proof.
  intros F m ev ep report.
  assert (Hsplit : forall p, (forall x y, p (DuplicateControl x y) = false /\ p (DuplicateShock x y) = false /\ p (DuplicateCalibration x y) = false) ->
     (forall x, is_error x = false -> p x = false) ->
     count p report = count p (map DuplicateBlock (repeats [] (map b_name m))) +
        count p (map (fun kv => DefinedTwice (fst kv) (snd kv)) (filter (fun kv => two_or_more (snd kv)) (param_definitions m)))).
  { intros p Hp Hw. unfold report, full_validation, validate_model. rewrite !count_app.
    rewrite (count_none p (flat_map validate_block m)).
    - rewrite (count_none p (check_undefined_variables m ev)), (count_none p (check_undefined_parameters m ep)); [lia| |];
        intros x Hx; apply in_map_iff in Hx as (y & <- & _); now apply Hw.
    - intros x Hx. apply in_flat_map in Hx as (b & _ & Hx). unfold validate_block in Hx. rewrite !in_app_iff, !in_map_iff in Hx.
      destruct Hx as [(y & <- & _)|[(y & <- & _)|[(y & <- & _)|[Hx|Hx]]]]; try (apply Hp).
      + apply Hw. destruct (controls b), (objective b); cbn in Hx; intuition; now subst.
      + apply Hw. destruct (constraints b), (objective b); cbn in Hx; intuition; now subst. }
  split; [|split].
  - intro n. rewrite Hsplit; [|intros; auto|intros [] ?; auto; discriminate]. rewrite !count_map, count_repeats.
    rewrite (count_none (fun _ => false)) by auto. lia.
  - intro p. rewrite Hsplit; [|intros; auto|intros [] ?; auto; discriminate]. rewrite !count_map.
    rewrite (count_none (fun _ => false)) by auto. cbn [fst]. rewrite times_occ, <- def_pairs_names, <- pairs_count.
    destruct (param_definitions_spec m) as [Hn Hs]. destruct (2 <=? length (pairs_of p (def_pairs m))) eqn:E.
    + apply Nat.leb_le in E. unfold count.
      assert (Hin : In (p, pairs_of p (def_pairs m)) (param_definitions m)).
      { apply Hs. split; [reflexivity|]. intro H. rewrite H in E. cbn in E. lia. }
      assert (Hf : In (p, pairs_of p (def_pairs m)) (filter (fun kv => two_or_more (snd kv)) (param_definitions m))).
      { apply filter_In. split; [exact Hin|]. now apply two_or_more_length. }
      assert (Hn2 : NoDup (map fst (filter (fun kv => two_or_more (snd kv)) (param_definitions m)))).
      { clear - Hn. induction (param_definitions m) as [|kv l IH]; cbn; [constructor|]. inversion Hn; subst.
        destruct (two_or_more (snd kv)); cbn; [constructor|]; auto. intro Hx. apply H1. apply in_map_iff in Hx as (y & <- & Hy).
        apply filter_In in Hy as [Hy _]. now apply in_map. }
      clear - Hf Hn2. induction (filter (fun kv => two_or_more (snd kv)) (param_definitions m)) as [|kv l IH]; [destruct Hf|].
      cbn [map] in Hn2. inversion Hn2; subst. cbn [filter]. destruct Hf as [->|Hf].
      * cbn [fst]. rewrite chars_eqb_refl. cbn [length plus]. f_equal. apply (count_none (fun kv : chars * list chars => chars_eqb (fst kv) p)).
        intros x Hx. apply chars_eqb_neq. intro He. apply H1. cbn [fst]. rewrite <- He. now apply in_map.
      * assert (He : chars_eqb (fst kv) p = false).
        { apply chars_eqb_neq. intro He. apply H1. rewrite He. apply in_map_iff. now exists (p, pairs_of p (def_pairs m)). }
        rewrite He. now apply IH.
    + apply Nat.leb_gt in E. rewrite count_none; [lia|]. intros [k v] Hx. apply filter_In in Hx as [Hx Ht]. cbn [snd fst] in *.
      apply chars_eqb_neq. intros ->. apply Hs in Hx as [-> _]. apply two_or_more_length in Ht. lia.
  - intros p blocks H. unfold report, full_validation, validate_model in H. rewrite !in_app_iff in H.
    destruct H as [[H|[H|H]]|[H|H]].
    + apply in_flat_map in H as (b & _ & Hx). unfold validate_block in Hx. rewrite !in_app_iff, !in_map_iff in Hx.
      destruct Hx as [(y & Hy & _)|[(y & Hy & _)|[(y & Hy & _)|[Hx|Hx]]]]; try discriminate.
      * destruct (controls b), (objective b); cbn in Hx; intuition; discriminate.
      * destruct (constraints b), (objective b); cbn in Hx; intuition; discriminate.
    + apply in_map_iff in H as (y & Hy & _). discriminate.
    + apply in_map_iff in H as ([k v] & Hy & Hin). injection Hy as <- <-. apply filter_In in Hin as [Hin _].
      apply (proj2 (param_definitions_spec m)) in Hin as [-> _]. cbn [fst]. unfold def_pairs. clear. induction m as [|b m IH]; [reflexivity|].
      cbn [flat_map]. unfold pairs_of in *. rewrite filter_app, map_app, IH. f_equal. induction (calibrated b) as [|x l IHl]; [reflexivity|].
      cbn [map filter fst]. destruct (chars_eqb x k) eqn:E.
      * apply chars_eqb_eq in E as ->. rewrite chars_eqb_refl. cbn [map snd]. now rewrite IHl.
      * assert (E' : chars_eqb k x = false) by (apply chars_eqb_neq; apply chars_eqb_neq in E; congruence). now rewrite E'.
    + apply in_map_iff in H as (y & Hy & _). discriminate.
    + apply in_map_iff in H as (y & Hy & _). discriminate.
Qed.

(* C103: the warnings about undefined names *)
Theorem C103_undefined_names : forall F (m : model F) external_vars external_pars n,
  let report := full_validation m external_vars external_pars in
  (In (UndefinedVariable n) report <-> variable_used m n /\ ~ variable_defined m n /\ ~ In n external_vars) /\
  (In (UndefinedParameter n) report <-> parameter_used m n /\ ~ parameter_given m n /\ ~ In n external_pars).
Proof.
  intros F m ev ep n report. unfold report. destruct (undefined_only m ev ep n) as [-> ->].
  unfold check_undefined_variables, check_undefined_parameters. rewrite !in_map_iff.
  rewrite <- used_vars_spec, <- defined_vars_spec, <- used_pars_spec, <- given_spec. split; split.
  - intros (x & Hx & Hin). injection Hx as ->. now apply sorted_difference_in.
  - intro H. exists n. split; [reflexivity|]. now apply sorted_difference_in.
  - intros (x & Hx & Hin). injection Hx as ->. now apply sorted_difference_in.
  - intro H. exists n. split; [reflexivity|]. now apply sorted_difference_in.
Qed.
(* each name is warned about once; the names come in alphabetical order; the warnings are never errors *)
Theorem C103_undefined_report : forall F (m : model F) external_vars external_pars,
  let names := flat_map (fun i => match i with UndefinedVariable n => [n] | _ => [] end) (full_validation m external_vars external_pars) in
  let params := flat_map (fun i => match i with UndefinedParameter n => [n] | _ => [] end) (full_validation m external_vars external_pars) in
  NoDup names /\ NoDup params /\
  StronglySorted (fun a b => chars_leb a b = true) names /\ StronglySorted (fun a b => chars_leb a b = true) params /\
  (no_repetition m -> validate m true = inr (full_validation m [] [])).
Proof.
  intros F m ev ep names params.
  assert (Hz : forall g : issue -> list chars, (forall i, is_error i = true -> g i = []) -> (forall b, g (NoObjective b) = [] /\ g (NoConstraints b) = []) ->
     flat_map g (validate_model m) = []).
  { intros g Hg Hw. assert (H : forall i, In i (validate_model m) -> g i = []).
    { intros i Hi. unfold validate_model in Hi. rewrite !in_app_iff, in_flat_map, !in_map_iff in Hi.
      destruct Hi as [(b & _ & Hi)|[(x & <- & _)|(x & <- & _)]]; [|now apply Hg|now apply Hg].
      unfold validate_block in Hi. rewrite !in_app_iff, !in_map_iff in Hi.
      destruct Hi as [(x & <- & _)|[(x & <- & _)|[(x & <- & _)|[Hi|Hi]]]]; try now apply Hg.
      - destruct (controls b), (objective b); cbn in Hi; intuition; subst; apply Hw.
      - destruct (constraints b), (objective b); cbn in Hi; intuition; subst; apply Hw. }
    induction (validate_model m) as [|i l IH]; cbn [flat_map]; [reflexivity|]. rewrite H by now left. apply IH. intros; apply H; now right. }
  assert (Hone : forall l : list chars, flat_map (fun n => [n]) l = l) by (induction l; cbn; congruence).
  assert (Hnil : forall l : list chars, flat_map (fun n => @nil chars) l = []) by (induction l; cbn; congruence).
  assert (Hfm : forall (g : issue -> list chars) (h : chars -> issue) l, flat_map g (map h l) = flat_map (fun n => g (h n)) l)
    by (intros; induction l; cbn; congruence).
  assert (Hv : names = sorted_difference (used_vars m) (defined_vars m) ev).
  { unfold names, full_validation. rewrite !flat_map_app. rewrite Hz; [|intros [] ?; auto; discriminate|auto].
    unfold check_undefined_variables, check_undefined_parameters. rewrite !Hfm, Hone, Hnil. now rewrite app_nil_r. }
  assert (Hp : params = sorted_difference (used_pars m) (flat_map calibrated m) ep).
  { unfold params, full_validation. rewrite !flat_map_app. rewrite Hz; [|intros [] ?; auto; discriminate|auto].
    unfold check_undefined_variables, check_undefined_parameters. rewrite !Hfm, Hone, Hnil. reflexivity. }
  rewrite Hv, Hp. do 4 (split; [first [apply sorted_difference_nodup|apply sorted_difference_sorted]|]).
  intro H. unfold validate. apply (model_errors m [] []) in H. rewrite H. reflexivity.
Qed.

(* C104: validate(raise_on_error=True) raises the first error-level issue of the report and nothing else; with
   raise_on_error=False, and in preprocess whatever its flag, no semantic error is ever raised. *)
Theorem C104_raising : forall F (m : model F),
  (validate m false = inr (full_validation m [] [])) /\
  (forall report, validate m true = inr report -> no_repetition m /\ report = full_validation m [] []) /\
  (forall i, validate m true = inl i <->
     exists before after, full_validation m [] [] = before ++ i :: after /\ is_error i = true /\ forall j, In j before -> is_error j = false) /\
  (~ no_repetition m -> exists i, validate m true = inl i).
Proof.
  intros F m.
  assert (Hfind : forall l i, find is_error l = Some i <-> exists a b, l = a ++ i :: b /\ is_error i = true /\ forall j, In j a -> is_error j = false).
  { induction l as [|x l IH]; intro i; cbn [find].
    - split; [discriminate|]. intros ([|y a] & b & H & _); discriminate.
    - destruct (is_error x) eqn:E.
      + split.
        * intro H. injection H as <-. exists [], l. split; [reflexivity|]. split; [exact E|intros j []].
        * intros ([|y a] & b & H & Hi & Ha); cbn in H; injection H as Hx Hr; [now subst|]. subst y. rewrite Ha in E by now left. discriminate.
      + rewrite IH. split.
        * intros (a & b & -> & Hi & Ha). exists (x :: a), b. split; [reflexivity|]. split; [exact Hi|]. intros j [<-|Hj]; auto.
        * intros ([|y a] & b & H & Hi & Ha); cbn in H; injection H as Hx Hr; [congruence|]. exists a, b. split; [exact Hr|]. split; [exact Hi|].
          intros j Hj. apply Ha. now right. }
  assert (He : existsb is_error (full_validation m [] []) = true <-> exists i, find is_error (full_validation m [] []) = Some i).
  { split.
    - intro H. destruct (find is_error (full_validation m [] [])) eqn:E; [eauto|]. apply existsb_exists in H as (x & Hx & Hi).
      rewrite (find_none _ _ E x Hx) in Hi. discriminate.
    - intros (i & H). apply find_some in H as [H1 H2]. apply existsb_exists. eauto. }
  assert (Hm := model_errors m [] []). unfold validate, has_errors, first_error in *. cbn [andb].
  split; [reflexivity|]. split; [|split].
  - intros report. destruct (existsb is_error (full_validation m [] [])) eqn:E.
    + destruct (proj1 He eq_refl) as (i & Hi). rewrite Hi. discriminate.
    + intro H. injection H as <-. split; [now apply Hm|reflexivity].
  - intro i. rewrite <- Hfind. destruct (existsb is_error (full_validation m [] [])) eqn:E.
    + destruct (proj1 He eq_refl) as (j & Hj). rewrite Hj. split; intro H; injection H as <-; reflexivity.
    + split; [discriminate|]. intro H. assert (Hft : false = true) by (apply He; eauto). discriminate.
  - intro H. destruct (existsb is_error (full_validation m [] [])) eqn:E; [|exfalso; apply H; now apply Hm].
    destruct (proj1 He eq_refl) as (i & ->). eauto.
Qed.
Theorem C104_preprocess_never_raises : forall F (m : model F) flag, preprocess (Ok m) flag = inr (Ok m).
Proof. intros F m [|]; reflexivity. Qed.
(* the documented behaviour (an error is raised when validate=True and the model has semantic errors) is refuted *)
Definition eqn (l r : expr nat) (c : option chars) : equation nat := Eqn l r None c.
Definition blk (n : chars) (ctrl : list chars) (cons idents : list (equation nat)) (cal : list (calibration_item nat)) : block nat :=
  Block n [] ctrl [] cons idents [] cal.
Definition twice : model nat := [blk (str "A") [] [] [] [CDist (str "alpha"); CEq (eqn (Par (str "alpha")) (Num 1) None)]].
Theorem C104_documented_error_refuted :
  ~ no_repetition twice /\ preprocess (Ok twice) true = inr (Ok twice) /\
  validate twice true = inl (DuplicateCalibration (str "alpha") (str "A")).
Proof.
  split; [|split; reflexivity]. intro H. apply (proj2 (C40_error_iff_repetition _ twice [] [])) in H. vm_compute in H. discriminate.
Qed.

(* Parameters calibrated with "-> alpha": not seen by the validation.  Two equations calibrating the same parameter are
   not reported; a properly calibrated parameter is warned about. *)
Definition calibrates (i : calibration_item nat) (p : chars) : Prop := exists e, i = CEq e /\ calibrating e = Some p.
Definition ratio (c : option chars) : calibration_item nat := CEq (eqn (Bin DIV (Var (str "L") TIss) (Var (str "K") TIss)) (Num 1) c).
Definition arrow_twice : model nat := [blk (str "A") [] [] [] [ratio (Some (str "alpha")); ratio (Some (str "alpha"))]].
Definition arrow_once : model nat :=
  [blk (str "A") [] [] [eqn (Var (str "K") (TI 0)) (Par (str "alpha")) None; eqn (Var (str "L") (TI 0)) (Num 1) None] [ratio (Some (str "alpha"))]].
Theorem C40_arrow_duplicates_refuted :
  (forall i, In i (items arrow_twice) -> calibrates i (str "alpha")) /\ length (items arrow_twice) = 2 /\ full_validation arrow_twice [] [] = [].
Proof.
  split; [|split; reflexivity]. intros i Hi. repeat destruct Hi as [<-|Hi]; try contradiction; eexists; split; reflexivity.
Qed.
Theorem C103_calibrated_parameter_warned_refuted :
  (exists i, In i (items arrow_once) /\ calibrates i (str "alpha")) /\ full_validation arrow_once [] [] = [UndefinedParameter (str "alpha")].
Proof. split; [|reflexivity]. eexists. split; [now left|]. eexists. split; reflexivity. Qed.
(* A variable that only occurs on the left of constraints is undefined and goes unnoticed. *)
Definition left_only : model nat :=
  [blk (str "A") [] [eqn (Bin ADD (Var (str "X") (TI 0)) (Num 1)) (Num 2) None] [] []].
Theorem C103_left_hand_side_refuted :
  ~ variable_defined left_only (str "X") /\
  (exists b e, In b left_only /\ system_equation b e /\ within (Var (str "X") (TI 0)) (lhs e)) /\ full_validation left_only [] [] = [].
Proof.
  split; [|split; [|reflexivity]].
  - rewrite <- defined_vars_spec. vm_compute. tauto.
  - eexists _, _. split; [now left|]. split; [right; right; left; now left|]. apply w_left, w_here.
Qed.

(* a case *)
Definition household : block nat :=
  Block (str "H") [] [str "C"; str "K"; str "C"] [eqn (Var (str "U") (TI 0)) (Bin MUL (Par (str "theta")) (Var (str "C") (TI 0))) None]
    [eqn (Var (str "I") (TI 0)) (Bin ADD (Var (str "Z") (TI 1)) (Var (str "Y") (TI 0))) None]
    [] [] [CDist (str "beta"); CEq (eqn (Par (str "delta")) (Num 3) None)].
Definition firm : block nat := blk (str "F") [str "Y"] [] [] [CEq (eqn (Par (str "beta")) (Num 2) None)].
Theorem C40_case :
  full_validation [household; firm] [] [str "theta"] =
    [DuplicateControl (str "C") (str "H"); NoObjective (str "F"); DefinedTwice (str "beta") [str "H"; str "F"]; UndefinedVariable (str "Z")] /\
  validate [household; firm] true = inl (DuplicateControl (str "C") (str "H")).
Proof. split; reflexivity. Qed.
