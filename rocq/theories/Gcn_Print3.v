(* Printed models are texts of the grammar and mean what was printed *)
From Verif Require Import Common Expr_Model Expr_Spec Expr_Lex Expr_Proofs Expr_RoundTrip SymDict_Model Gcn_Lex Gcn_Model Gcn_Basic Gcn_Grammar Gcn_Expr Gcn_Sound Gcn_Complete Gcn_Complete5 Gcn_Meaning Gcn_Build Gcn_Print Gcn_Print2.
From Coq Require Import Permutation.
Local Open Scope list_scope.
Set Default Proof Using "Type".

Lemma last_of_app {A B} (f : A -> option B) l l' d : last_of f (l ++ l') d = last_of f l' (last_of f l d).
Proof. revert d. induction l as [|x l IH]; intro d; [reflexivity|]. cbn [app last_of]. apply IH. Qed.
Lemma last_of_none {F B C} (f : component F -> option B) (mk : list C -> component F) l d : (forall x, f (mk x) = None) -> last_of f (component_list mk l) d = d.
Proof. intro H. destruct l; [reflexivity|]. cbn. now rewrite H. Qed.
Lemma last_of_some {F B C} (f : component F -> option B) (mk : list C -> component F) (g : list C -> B) l d : d = g [] -> (forall x, f (mk x) = Some (g x)) -> last_of f (component_list mk l) d = g l.
Proof. intros -> H. destruct l; [reflexivity|]. cbn. now rewrite H. Qed.
Section P.
Context {F : Type} (fprint fstr : F -> chars) (fread : chars -> F) (farith : dop -> F -> F -> result F).
Lemma items_meaning l : (forall i, In i l -> item_ok fprint fstr fread i) -> Forall2 (item_of fread farith) (map (raw_item fstr) l) (map plain_item l).
Proof.
  induction l as [|i l IH]; intro H; [constructor|]. cbn [map]. constructor; [|apply IH; intros; apply H; now right]. specialize (H i (or_introl eq_refl)). destruct i as [d|e]; cbn; constructor. now apply (dist_meaning fstr fread).
Qed.
Ltac lasts := rewrite is_last_iff, !last_of_app;
  repeat match goal with |- context [last_of ?f (component_list ?mk ?l) ?d] =>
    first [ rewrite (last_of_none f mk l d) by reflexivity | rewrite (last_of_some f mk (fun x => x) l d) by reflexivity | rewrite (last_of_some f mk (fun x => (x, [])) l d) by reflexivity ] end; try reflexivity.
Lemma block_meaning b : block_ok fprint fstr fread b -> block_of fread farith (raw_block fstr b) (plain_block b).
Proof.
  intros (_ & _ & _ & Hi). unfold block_of, raw_block, plain_block. cbn [fst snd b_name definitions controls objective constraints identities shocks shock_dists calibration].
  split; [reflexivity|]. split; [lasts|]. split; [lasts|]. split; [lasts|]. split; [lasts|]. split; [lasts|]. split; [lasts|].
  pose proof (items_meaning _ Hi) as M. split.
  - intros l Hl. exists (map plain_item (calibration b)). repeat (apply in_app_or in Hl as [Hl|Hl]); unfold component_list in Hl; match type of Hl with In _ (match ?x with [] => _ | _ => _ end) => destruct x eqn:E end; try contradiction; destruct Hl as [Hl|[]]; try discriminate.
    injection Hl as <-. exact M.
  - exists (map (raw_item fstr) (calibration b)). split; [lasts|exact M].
Qed.
End P.

(* ---- special blocks ---- *)
Definition option_ok (kv : chars * optval) : Prop :=
  words (fst kv) /\ match snd kv with inl _ => True | inr n => ident n /\ ~ keyword "TRUE" n /\ ~ keyword "FALSE" n end.
Lemma option_print kv : option_ok kv -> writes option_text kv (fst kv ++ str " = " ++ print_optval (snd kv) ++ str ";").
Proof.
  destruct kv as [k v]. cbn [fst snd]. intros [Hk Hv] w Hw. exists w, (str " "), (str " "), (print_optval v), []. cbn [fst snd].
  split; [reflexivity|]. split; [exact Hw|]. split; [exact Hk|]. split; [reflexivity|]. split; [reflexivity|]. split; [|reflexivity].
  destruct v as [[]|n]; cbn [print_optval]; [apply optval_true; reflexivity|apply optval_false; reflexivity|]. destruct Hv as (H1 & H2 & H3). now apply optval_name.
Qed.
Lemma special_print (P : special -> chars -> Prop) {A} (Q : A -> chars -> Prop) kw (l : list A) body (sp : special) : loose Q l body ->
  (forall t s, sequence Q l t -> braces kw t s -> P sp s) ->
  writes P sp (str kw ++ newline ++ str "{" ++ newline ++ body ++ str "};").
Proof.
  intros L Hp w Hw. apply (loose_lead Q newline) in L; [|reflexivity]. apply loose_seq in L as (t & v & E & Hs & Hv). apply (Hp t); [exact Hs|].
  exists w, (str kw), newline, v, []. split; [|split; [exact Hw|]; split; [reflexivity|]; split; [reflexivity|]; split; [exact Hv|reflexivity]].
  rewrite (app_assoc t v). rewrite <- E. repeat rewrite <- app_assoc. reflexivity.
Qed.
Lemma options_print l : (forall kv, In kv l -> option_ok kv) ->
  writes special_text (SOptions l) (join newline ([str "options"; str "{"] ++ map (fun kv => indent ++ fst kv ++ str " = " ++ print_optval (snd kv) ++ str ";") l ++ [str "};"])).
Proof.
  intro H. rewrite app_assoc, join_lines, lines_app. unfold lines at 1. cbn [map concat].
  replace ((((str "options" ++ newline) ++ (str "{" ++ newline) ++ []) ++ lines (map (fun kv => indent ++ fst kv ++ str " = " ++ print_optval (snd kv) ++ str ";") l)) ++ str "};")
    with (str "options" ++ newline ++ str "{" ++ newline ++ lines (map (fun kv => indent ++ fst kv ++ str " = " ++ print_optval (snd kv) ++ str ";") l) ++ str "};") by (repeat rewrite <- app_assoc; reflexivity).
  apply (special_print special_text option_text "options" l).
  - rewrite lines_map. pose proof (loose_map option_text (fun x => x) (fun kv => fst kv ++ str " = " ++ print_optval (snd kv) ++ str ";") indent newline l eq_refl eq_refl) as L.
    rewrite map_id in L. erewrite map_ext in L; [apply L|]; [intros kv Hkv; now apply option_print, H|]. intro x. cbn beta. repeat rewrite <- app_assoc. reflexivity.
  - intros t s Hs Hb. now apply (special_options l t).
Qed.
Definition group_ok (g : chars * list chars) : Prop := In (fst g) gcn_assumptions /\ snd g <> [] /\ forall v, In v (snd g) -> ident v.
Lemma lower_assumptions k : In k gcn_assumptions -> map lower k = k.
Proof. intro H. assert (G : forallb (fun k => chars_eqb (map lower k) k) gcn_assumptions = true) by (vm_compute; reflexivity). apply chars_eqb_eq. exact (proj1 (forallb_forall _ _) G k H). Qed.
Definition print_group (g : chars * list chars) : chars := fst g ++ (newline ++ indent) ++ str "{" ++ (newline ++ indent ++ indent ++ join (str ", ") (snd g)) ++ [] ++ str ";" ++ (newline ++ indent) ++ str "}" ++ [] ++ str ";".
Lemma group_print g : group_ok g -> writes subblock_text g (print_group g).
Proof.
  destruct g as [k vs]. intros (Hk & Hne & Hv) w Hw. cbn [fst snd] in *. exists w, k, (newline ++ indent), (newline ++ indent ++ indent ++ join (str ", ") vs), [], (newline ++ indent), []. cbn [fst snd].
  split; [reflexivity|]. split; [exact Hw|]. split; [exact Hk|]. split; [now apply lower_assumptions|]. split; [reflexivity|]. split; [|split; [reflexivity|]; split; reflexivity].
  pose proof (commas_join assumption_item_text (fun x => x) (fun x => x) vs (newline ++ indent ++ indent) Hne eq_refl) as C. rewrite !map_id in C. repeat rewrite <- app_assoc in C. apply C.
  intros v Hi w' Hw'. right. exists w'. auto.
Qed.
Lemma flat_lines (g : list (chars * list chars)) : lines (flat_map (fun av => [indent ++ fst av; indent ++ str "{"; indent ++ indent ++ join (str ", ") (snd av) ++ str ";"; indent ++ str "};"]) g) =
  concat (map (fun x => indent ++ print_group x ++ newline) g).
Proof.
  induction g as [|x g IH]; [reflexivity|]. cbn [flat_map map concat]. rewrite lines_app, IH. f_equal. unfold lines, print_group. cbn [map concat]. rewrite app_nil_r. repeat rewrite <- app_assoc. reflexivity.
Qed.
Lemma assumptions_print l : (forall g, In g l -> group_ok g) ->
  writes special_text (SAssumptions l) (join newline ([str "assumptions"; str "{"] ++
    flat_map (fun av => [indent ++ fst av; indent ++ str "{"; indent ++ indent ++ join (str ", ") (snd av) ++ str ";"; indent ++ str "};"]) l ++ [str "};"])).
Proof.
  intro H. rewrite app_assoc, join_lines, lines_app, flat_lines. unfold lines. cbn [map concat].
  replace ((((str "assumptions" ++ newline) ++ (str "{" ++ newline) ++ []) ++ concat (map (fun x => indent ++ print_group x ++ newline) l)) ++ str "};")
    with (str "assumptions" ++ newline ++ str "{" ++ newline ++ concat (map (fun x => indent ++ print_group x ++ newline) l) ++ str "};") by (repeat rewrite <- app_assoc; reflexivity).
  apply (special_print special_text subblock_text "assumptions" l).
  - pose proof (loose_map subblock_text (fun x => x) print_group indent newline l eq_refl eq_refl) as L. rewrite map_id in L. apply L. intros g Hg. now apply group_print, H.
  - intros t s Hs Hb. now apply (special_assumptions l t).
Qed.

(* ---- grouping by kind ---- *)
Definition listed (g : list (chars * list chars)) (k v : chars) : Prop := exists vs, In (k, vs) g /\ In v vs.
Definition assumed (d : list (chars * list (chars * bool))) (v k : chars) : Prop := exists a, In (v, a) d /\ In (k, true) a.
Definition group_step (d : list (chars * list chars)) (av : chars * chars) : list (chars * list chars) :=
  match dget chars_eqb (fst av) d with
  | Some vs => dset chars_eqb (fst av) (vs ++ [snd av]) d
  | None => dset chars_eqb (fst av) [snd av] d
  end.
Definition good_groups (g : list (chars * list chars)) : Prop := NoDup (map fst g) /\ forall k vs, In (k, vs) g -> vs <> [].
Lemma group_step_ok g k v : good_groups g -> good_groups (group_step g (k, v)) /\ forall k' v', listed (group_step g (k, v)) k' v' <-> listed g k' v' \/ (k' = k /\ v' = v).
Proof.
  intros [Hn Hne]. unfold group_step. cbn [fst snd]. destruct (dget chars_eqb k g) as [vs|] eqn:E.
  - apply dget_In in E; [|exact Hn]. split; [split|].
    + rewrite dset_map_fst. destruct (existsb (chars_eqb k) (map fst g)) eqn:X; [exact Hn|]. exfalso. rewrite <- not_true_iff_false in X. apply X, existsb_exists. exists k. split; [apply in_map_iff; exists (k, vs); auto|apply chars_eqb_refl].
    + intros k' vs' H. apply dset_In in H as [[-> ->]|[_ H]]; [intro Z; now apply app_eq_nil in Z as [_ Z]|eauto|exact Hn].
    + intros k' v'. unfold listed. split.
      * intros (vs' & H & Hv). apply dset_In in H as [[-> ->]|[Hk H]]; [|left; eauto|exact Hn]. apply in_app_or in Hv as [Hv|[<-|[]]]; [left; eauto|now right].
      * intros [(vs' & H & Hv)|[-> ->]].
        -- destruct (list_eq_dec ascii_dec k' k) as [->|Hk]; [|exists vs'; split; [apply dset_In; auto|exact Hv]]. assert (vs' = vs) as -> by (apply dget_In in E, H; [congruence|exact Hn|exact Hn]). exists (vs ++ [v]). split; [apply dset_In; auto|]. apply in_or_app. now left.
        -- exists (vs ++ [v]). split; [apply dset_In; auto|]. apply in_or_app. right. now left.
  - apply dget_None in E. split; [split|].
    + rewrite dset_map_fst. destruct (existsb (chars_eqb k) (map fst g)); [exact Hn|]. apply (Permutation_NoDup (Permutation_cons_append _ _)). now constructor.
    + intros k' vs' H. apply dset_In in H as [[-> ->]|[_ H]]; [discriminate|eauto|exact Hn].
    + intros k' v'. unfold listed. split.
      * intros (vs' & H & Hv). apply dset_In in H as [[-> ->]|[Hk H]]; [|left; eauto|exact Hn]. destruct Hv as [<-|[]]. now right.
      * intros [(vs' & H & Hv)|[-> ->]]; [|exists [v]; split; [apply dset_In; auto|now left]]. exists vs'. split; [|exact Hv]. apply dset_In; [exact Hn|]. right. split; [|exact H]. intros ->. apply E, in_map_iff. exists (k, vs'). auto.
Qed.
Lemma group_fold l : forall g, good_groups g -> good_groups (fold_left group_step l g) /\ forall k v, listed (fold_left group_step l g) k v <-> listed g k v \/ In (k, v) l.
Proof.
  induction l as [|[k v] l IH]; intros g Hg; cbn [fold_left]; [split; [exact Hg|intros; cbn; tauto]|]. destruct (group_step_ok g k v Hg) as [H1 H2]. destruct (IH _ H1) as [H3 H4]. split; [exact H3|].
  intros k' v'. rewrite H4, H2. cbn [In]. split; [intros [[H|[-> ->]]|H]; auto|intros [H|[H|H]]; auto]. injection H as -> ->. auto.
Qed.
Lemma groups_ok d : good_groups (group_assumptions d) /\ forall k v, listed (group_assumptions d) k v <-> assumed d v k.
Proof.
  unfold group_assumptions. fold group_step. match goal with |- good_groups (fold_left _ ?l []) /\ _ => destruct (group_fold l []) as [H1 H2] end; [split; [constructor|intros k vs []]|]. split; [exact H1|].
  intros k v. rewrite H2. unfold listed, assumed. rewrite in_flat_map. split.
  - intros [(vs & [] & _)|([v0 a] & Hi & H)]. cbn [fst snd] in H. apply in_flat_map in H as ([k0 []] & Hk & H); cbn in H; [|contradiction]. destruct H as [H|[]]. injection H as -> ->. eauto.
  - intros (a & Hi & Hk). right. exists (v, a). split; [exact Hi|]. cbn [fst snd]. apply in_flat_map. exists (k, true). split; [exact Hk|now left].
Qed.

Definition assumptions_ok (d : list (chars * list (chars * bool))) : Prop :=
  (forall v k, assumed d v k -> ident v /\ In k gcn_assumptions /\ assumed d v (str "real") /\ (k = str "unit_interval" -> assumed d v (str "positive"))).
Lemma listing_self k : In k gcn_assumptions -> forall k', In k' (listing k) <-> k' = k \/ (k = str "unit_interval" /\ k' = str "positive").
Proof.
  intros H k'. unfold listing. rewrite (lower_assumptions k H). destruct (chars_eqb k (str "unit_interval")) eqn:E.
  - apply chars_eqb_eq in E. subst k. cbn [In]. intuition.
  - cbn [In]. assert (k <> str "unit_interval") by (intros ->; discriminate E). intuition.
Qed.
Lemma kinds_In l v k : In k (kinds l v) <-> exists s, In s l /\ In v (snd s) /\ In k (listing (fst s)).
Proof.
  unfold kinds. rewrite in_flat_map. split.
  - intros (s & Hs & H). apply in_flat_map in H as (x & Hx & H). destruct (chars_eqb x v) eqn:E; [|contradiction]. apply chars_eqb_eq in E. subst. eauto.
  - intros (s & Hs & Hv & H). exists s. split; [exact Hs|]. apply in_flat_map. exists v. split; [exact Hv|]. now rewrite chars_eqb_refl.
Qed.
Lemma assumptions_again (sort : list chars -> list chars) d d' : (forall l, Permutation (sort l) l) -> assumptions_ok d ->
  assumptions_of (map (fun g => (fst g, sort (snd g))) (group_assumptions d)) d' -> forall v k, assumed d' v k <-> assumed d v k.
Proof.
  intros Hsort Hok [E H] v k. destruct (groups_ok d) as [Hg Hl]. set (L := map (fun g => (fst g, sort (snd g))) (group_assumptions d)) in *.
  assert (HL : forall k v, listed L k v <-> assumed d v k).
  { intros k' v'. rewrite <- Hl. unfold listed, L. split.
    - intros (vs & Hi & Hv). apply in_map_iff in Hi as ([k0 vs0] & X & Hi). injection X as -> <-. exists vs0. split; [exact Hi|]. now apply (Permutation_in _ (Hsort vs0)).
    - intros (vs & Hi & Hv). exists (sort vs). split; [apply in_map_iff; exists (k', vs); auto|]. now apply (Permutation_in _ (Permutation_sym (Hsort vs))). }
  assert (HK : forall v k, In k (kinds L v) <-> assumed d v k).
  { intros v' k'. rewrite kinds_In. split.
    - intros ([k0 vs] & Hi & Hv & Hk). cbn [fst snd] in *. assert (A : assumed d v' k0) by (apply HL; exists vs; auto). destruct (Hok _ _ A) as (_ & Hin & _ & Hu). apply (listing_self k0 Hin) in Hk as [-> | [Hk ->]]; auto.
    - intro A. pose proof A as B. apply HL in B as (vs & Hi & Hv). exists (k', vs). split; [exact Hi|]. split; [exact Hv|]. apply listing_self; [apply (Hok _ _ A)|now left]. }
  assert (Hv : In v (map fst d') <-> exists k, assumed d v k).
  { rewrite E, firsts_In, in_concat. split.
    - intros (vs & Hi & Hv). apply in_map_iff in Hi as ([k0 vs0] & X & Hi). cbn in X. subst vs0. exists k0. apply HL. exists vs. auto.
    - intros [k0 A]. apply HL in A as (vs & Hi & Hv). exists vs. split; [apply in_map_iff; exists (k0, vs); auto|exact Hv]. }
  split.
  - intros (a & Hi & Hk). pose proof (H v a Hi) as ->. apply in_map_iff in Hk as (k0 & X & Hk). injection X as ->. apply (proj1 (firsts_In _ _)) in Hk. destruct Hk as [Hk|Hk]; [|exact (proj1 (HK v _) Hk)]. subst. assert (I : In v (map fst d')) by (apply in_map_iff; eexists (v, _); split; [reflexivity|exact Hi]). apply Hv in I as [k1 A]. now apply (Hok _ _ A).
  - intro A. assert (I : In v (map fst d')) by (apply Hv; eauto). apply in_map_iff in I as ([v0 a] & X & Hi). cbn in X. subst v0. exists a. split; [exact Hi|]. rewrite (H v a Hi). apply in_map_iff. exists k. split; [reflexivity|]. apply firsts_In. right. now apply HK.
Qed.

(* ---- files ---- *)
Lemma join_sep sep S B : B <> [] -> join sep (S ++ B) = concat (map (fun x => x ++ sep) S) ++ join sep B.
Proof.
  intro HB. induction S as [|x S IH]; [reflexivity|]. cbn [app map concat]. repeat rewrite <- app_assoc. rewrite <- IH. destruct S, B; try congruence; reflexivity.
Qed.
Lemma join_loose {A B} (P : A -> chars -> Prop) (f : B -> A) (p : B -> chars) sep l : ws sep -> (forall b, In b l -> writes P (f b) (p b)) -> loose P (map f l) (join sep (map p l)).
Proof.
  intros Hs H. induction l as [|b l IH]; [now apply loose_nil|]. cbn [map]. destruct l as [|c l].
  - change (join sep [p b]) with (p b). rewrite <- (app_nil_r (p b)). change (p b ++ []) with ([] ++ p b ++ []). apply loose_cons; [reflexivity|apply H; now left|now apply loose_nil].
  - change (join sep (p b :: map p (c :: l))) with ([] ++ p b ++ sep ++ join sep (map p (c :: l))). apply loose_cons; [reflexivity|apply H; now left|]. apply loose_lead; [exact Hs|]. apply IH. intros x Hx. apply H. now right.
Qed.
Section M.
Context {F : Type} (fprint fstr : F -> chars) (fread : chars -> F) (farith : dop -> F -> F -> result F) (sort : list chars -> list chars).
Hypothesis Hsort : forall l, Permutation (sort l) l.
Definition model_ok (m : gmodel F) : Prop :=
  blocks m <> [] /\ (forall b, In b (blocks m) -> block_ok fprint fstr fread b) /\
  NoDup (map fst (options m)) /\ (forall kv, In kv (options m) -> option_ok kv) /\ tryreduce m = [] /\ assumptions_ok (assumptions m).
Definition one {A} (mk : list A -> special) (l : list A) : list special := match l with [] => [] | _ => [mk l] end.
Definition raw_model (m : gmodel F) : list special * list (chars * list (component F)) :=
  (one SOptions (options m) ++ one SAssumptions (map (fun g => (fst g, sort (snd g))) (group_assumptions (assumptions m))), map (raw_block fstr) (blocks m)).
Definition print_special (s : special) : chars :=
  match s with
  | SOptions l => join newline ([str "options"; str "{"] ++ map (fun kv => indent ++ fst kv ++ str " = " ++ print_optval (snd kv) ++ str ";") l ++ [str "};"])
  | STryreduce l => []
  | SAssumptions l => join newline ([str "assumptions"; str "{"] ++ flat_map (fun av => [indent ++ fst av; indent ++ str "{"; indent ++ indent ++ join (str ", ") (snd av) ++ str ";"; indent ++ str "};"]) l ++ [str "};"])
  end.
Lemma flat_map_map {A B C} (f : A -> B) (g : B -> list C) l : flat_map g (map f l) = flat_map (fun x => g (f x)) l.
Proof. induction l as [|x l IH]; [reflexivity|]. cbn. now rewrite IH. Qed.
Lemma print_model_eq m : tryreduce m = [] ->
  print_model fprint fstr sort m = join (newline ++ newline) (map print_special (fst (raw_model m)) ++ map (print_block fprint fstr) (blocks m)).
Proof.
  intro Ht. unfold print_model. rewrite Ht. f_equal. rewrite app_nil_l, app_assoc. f_equal. unfold raw_model. cbn [fst]. rewrite map_app. f_equal.
  - unfold one. destruct (options m); reflexivity.
  - unfold one. destruct (group_assumptions (assumptions m)) as [|g0 g]; [reflexivity|]. cbn [map print_special]. change ((fst g0, sort (snd g0)) :: map (fun g => (fst g, sort (snd g))) g) with (map (fun g => (fst g, sort (snd g))) (g0 :: g)). rewrite flat_map_map. reflexivity.
Qed.
Lemma groups_printable d : assumptions_ok d -> forall g, In g (map (fun g => (fst g, sort (snd g))) (group_assumptions d)) -> group_ok g.
Proof using Hsort.
  intros Hd g Hi. apply in_map_iff in Hi as ([k vs] & <- & Hi). destruct (groups_ok d) as [[_ Hne] Hl]. cbn [fst snd]. pose proof (Hne k vs Hi) as Hvs.
  assert (A : forall v, In v vs -> assumed d v k) by (intros v Hv; apply Hl; exists vs; auto). split; [|split]; cbn [fst snd].
  - destruct vs as [|v vs]; [congruence|]. apply (Hd v k (A v (or_introl eq_refl))).
  - intro E. pose proof (Hsort vs) as P. rewrite E in P. apply Permutation_nil in P. contradiction.
  - intros v Hv. apply (Permutation_in _ (Hsort vs)) in Hv. apply (Hd v k (A v Hv)).
Qed.
Lemma model_print m : model_ok m -> file_text fread (raw_model m) (print_model fprint fstr sort m).
Proof using Hsort.
  intros (Hb & Hbs & _ & Ho & Ht & Ha). rewrite (print_model_eq m Ht). rewrite join_sep; [|intro E; apply map_eq_nil in E; contradiction].
  assert (L1 : loose special_text (fst (raw_model m)) (concat (map (fun x => x ++ newline ++ newline) (map print_special (fst (raw_model m)))))).
  { rewrite map_map. pose proof (loose_map special_text (fun x => x) print_special [] (newline ++ newline) (fst (raw_model m)) eq_refl eq_refl) as L. rewrite map_id in L. apply L.
    intros s Hs. unfold raw_model in Hs. cbn [fst] in Hs. apply in_app_or in Hs as [Hs|Hs]; unfold one in Hs; match type of Hs with In _ (match ?x with [] => _ | _ => _ end) => destruct x eqn:E end; try contradiction; destruct Hs as [<-|[]]; rewrite <- E.
    - apply options_print. rewrite E; exact Ho.
    - apply assumptions_print. now apply groups_printable. }
  assert (L2 : loose (block_text fread) (snd (raw_model m)) (join (newline ++ newline) (map (print_block fprint fstr) (blocks m)))).
  { unfold raw_model. cbn [snd]. apply join_loose; [reflexivity|]. intros b Hi. apply block_print. auto. }
  apply loose_seq in L1 as (t1 & v1 & -> & Hs1 & Hv1). apply (loose_lead _ v1) in L2; [|exact Hv1]. apply loose_seq in L2 as (t2 & v2 & E & Hs2 & Hv2).
  exists t1, t2, v2. split; [now rewrite <- app_assoc, E|]. split; [exact Hs1|]. split; [exact Hs2|]. split; [|exact Hv2]. unfold raw_model. cbn [snd]. intro X. apply map_eq_nil in X. contradiction.
Qed.
Lemma model_meaning m m' : model_ok m -> model_of fread farith (raw_model m) m' ->
  blocks m' = map plain_block (blocks m) /\ options m' = options m /\ tryreduce m' = [] /\ forall v k, assumed (assumptions m') v k <-> assumed (assumptions m) v k.
Proof using Hsort.
  intros (Hb & Hbs & Hn & Ho & Ht & Ha) (M1 & (lo & M2 & M3) & M4 & (la & M5 & M6)). unfold raw_model in *. cbn [fst snd] in *. rewrite is_last_iff, last_of_app in M2. rewrite is_last_iff, last_of_app in M4. rewrite is_last_iff, last_of_app in M5. split; [|split; [|split]].
  - clear -M1 Hbs. revert M1 Hbs. generalize (blocks m'). induction (blocks m) as [|b l IH]; intros l' H Hb; cbn [map] in H; inversion H as [|? b' ? l'' H1 H2]; subst; [reflexivity|]. cbn [map]. f_equal; [|apply IH; [exact H2|intros; apply Hb; now right]].
    pose proof (block_meaning fprint fstr fread farith b (Hb b (or_introl eq_refl))) as H3. apply build_block_iff in H1, H3. congruence.
  - assert (lo = options m) as ->.
    { rewrite M2. destruct (map (fun g => (fst g, sort (snd g))) (group_assumptions (assumptions m))), (options m); reflexivity. }
    pose proof (dict_id _ Hn) as D. apply dict_of_iff in M3, D. congruence.
  - rewrite M4. destruct (map (fun g => (fst g, sort (snd g))) (group_assumptions (assumptions m))), (options m); reflexivity.
  - assert (la = map (fun g => (fst g, sort (snd g))) (group_assumptions (assumptions m))) as ->.
    { rewrite M5. destruct (map (fun g => (fst g, sort (snd g))) (group_assumptions (assumptions m))), (options m); reflexivity. }
    now apply assumptions_again with (sort := sort).
Qed.
Lemma blocks_total m : model_ok m -> exists bs, Forall2 (block_of fread farith) (map (raw_block fstr) (blocks m)) bs.
Proof.
  intros (_ & Hbs & _). exists (map plain_block (blocks m)). induction (blocks m) as [|b l IH]; [constructor|]. cbn [map]. constructor; [apply (block_meaning fprint); apply Hbs; now left|apply IH; intros; apply Hbs; now right].
Qed.
End M.
