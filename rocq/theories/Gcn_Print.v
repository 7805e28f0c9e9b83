(* Printed equations, distributions, blocks and models are texts of the grammar *)
From Verif Require Import Common Expr_Model Expr_Spec Expr_Lex Expr_RoundTrip SymDict_Model Gcn_Lex Gcn_Model Gcn_Basic Gcn_Grammar Gcn_Sound Gcn_Complete Gcn_Complete5 Gcn_Meaning Gcn_Build.
Local Open Scope list_scope.
Set Default Proof Using "Type".

(* ---- layout of printed text ---- *)
Section Loose.
Context {A : Type} (P : A -> chars -> Prop).
(* [s] writes [a] whatever blanks precede it *)
Definition writes (a : A) (s : chars) : Prop := forall w, ws w -> P a (w ++ s).
Inductive loose : list A -> chars -> Prop :=
| loose_nil w : ws w -> loose [] w
| loose_cons w a s l ss : ws w -> writes a s -> loose l ss -> loose (a :: l) (w ++ s ++ ss).
Lemma loose_lead w l s : ws w -> loose l s -> loose l (w ++ s).
Proof.
  intros Hw [v Hv|v a t l' ss Hv Ha Hl]; [apply loose_nil; now apply ws_app|]. rewrite app_assoc. apply loose_cons; auto. now apply ws_app.
Qed.
Lemma loose_app l s l' s' : loose l s -> loose l' s' -> loose (l ++ l') (s ++ s').
Proof.
  induction 1 as [w Hw|w a t l ss Hw Ha Hl IH]; intro H'; [now apply loose_lead|]. cbn [app]. repeat rewrite <- app_assoc. apply loose_cons; auto.
Qed.
Lemma loose_seq l s : loose l s -> exists t v, s = t ++ v /\ sequence P l t /\ ws v.
Proof.
  induction 1 as [w Hw|w a t l ss Hw Ha Hl (t' & v & -> & Hs & Hv)]; [exists [], w; split; [reflexivity|]; split; [constructor|exact Hw]|].
  exists ((w ++ t) ++ t'), v. split; [now repeat rewrite <- app_assoc|]. split; [|exact Hv]. constructor; [now apply Ha|exact Hs].
Qed.
Lemma loose_map {B} (f : B -> A) (pr : B -> chars) pre post l : ws pre -> ws post -> (forall b, In b l -> writes (f b) (pr b)) ->
  loose (map f l) (concat (map (fun b => pre ++ pr b ++ post) l)).
Proof.
  intros H1 H2. induction l as [|b l IH]; intro H; [now apply loose_nil|]. cbn [map concat]. repeat rewrite <- app_assoc. apply loose_cons; [exact H1|apply H; now left|]. apply loose_lead; [exact H2|]. apply IH. intros c Hc. apply H. now right.
Qed.
End Loose.
Lemma join_nl l last : join newline (l ++ [last]) = concat (map (fun x => x ++ newline) l) ++ last.
Proof.
  induction l as [|x l IH]; [reflexivity|]. cbn [app map concat]. repeat rewrite <- app_assoc. rewrite <- IH. destruct l; reflexivity.
Qed.
Lemma lead_varref w v s : ws w -> varref_text v s -> varref_text v (w ++ s).
Proof. intros Hw (w0 & w1 & ti & -> & H0 & H1 & H2 & H3). exists (w ++ w0), w1, ti. split; [now rewrite <- app_assoc|]. split; [now apply ws_app|auto]. Qed.
Lemma lead_commas {A} (P : A -> chars -> Prop) w l s : (forall a t, P a t -> P a (w ++ t)) -> commas P l s -> commas P l (w ++ s).
Proof. intros Hl [a t Ha|a t v l' ss Ha Hv Hs]; [constructor; now apply Hl|]. rewrite app_assoc. constructor; auto. Qed.
Lemma commas_lead {A B} (P : A -> chars -> Prop) (f : B -> A) (pr : B -> chars) l : forall b w, ws w -> (forall x, In x (b :: l) -> writes P (f x) (pr x)) ->
  commas P (map f (b :: l)) (w ++ join (str ", ") (map pr (b :: l))).
Proof.
  induction l as [|e l IH]; intros b w Hw Hb; [constructor; apply (Hb b); [now left|exact Hw]|].
  change (join (str ", ") (map pr (b :: e :: l))) with (pr b ++ str ", " ++ join (str ", ") (map pr (e :: l))). rewrite app_assoc.
  change (str ", " ++ join (str ", ") (map pr (e :: l))) with ([] ++ str "," ++ (str " " ++ join (str ", ") (map pr (e :: l)))).
  apply (commas_cons P (f b) (w ++ pr b) [] (map f (e :: l))); [apply (Hb b); [now left|exact Hw]|reflexivity|]. apply IH; [reflexivity|]. intros x Hx. apply Hb. now right.
Qed.
Lemma commas_join {A B} (P : A -> chars -> Prop) (f : B -> A) (pr : B -> chars) l w : l <> [] -> ws w -> (forall b, In b l -> writes P (f b) (pr b)) ->
  commas P (map f l) (w ++ join (str ", ") (map pr l)).
Proof. intros Hne Hw H. destruct l as [|b l]; [congruence|]. now apply commas_lead. Qed.
Lemma firsts_id l : NoDup l -> firsts l = l.
Proof.
  induction 1 as [|x l Hx Hn IH]; [reflexivity|]. cbn. rewrite IH. f_equal. clear -Hx. induction l as [|y l IH]; [reflexivity|]. cbn. destruct (chars_eqb x y) eqn:E; [apply chars_eqb_eq in E; subst; exfalso; apply Hx; now left|].
  cbn. f_equal. apply IH. intro. apply Hx. now right.
Qed.
Lemma dict_id {V} (l : list (chars * V)) : NoDup (map fst l) -> dict_of l l.
Proof.
  intro H. split; [symmetry; now apply firsts_id|]. intros k v. split.
  - intro Hi. apply in_split in Hi as (l1 & l2 & ->). exists l1, l2. split; [reflexivity|]. rewrite map_app in H. cbn in H. apply NoDup_remove_2 in H. rewrite in_app_iff in H. tauto.
  - intros (l1 & l2 & -> & _). apply in_or_app. right. now left.
Qed.
(* ---- equations ---- *)
Section P.
Context {F : Type} (fprint fstr : F -> chars) (fread : chars -> F).
Notation pr := (print_expression fprint).
Definition name_ok (o : option chars) : Prop := match o with Some n => ident n | None => True end.
Definition printable (e : equation F) : Prop :=
  wf fprint fread (lhs e) /\ paren_safe (lhs e) = true /\ wf fprint fread (rhs e) /\ paren_safe (rhs e) = true /\ name_ok (multiplier e) /\ name_ok (calibrating e).
Definition untagged (e : equation F) : equation F := Eqn (lhs e) (rhs e) (multiplier e) (calibrating e) [].
Lemma side_text e w : ws w -> wf fprint fread e -> paren_safe e = true -> Text fread LAdd e (w ++ pr e 0).
Proof.
  intros Hw H1 H2. apply (proj1 (lead_ws fread)); [|exact Hw]. eapply text_weaken; [|now apply (safe_text fprint fread e 0)].
  destruct (plev e 0); cbn; lia.
Qed.
Lemma equation_print e : printable e -> writes (equation_text fread) (untagged e) (print_equation fprint e ++ str ";").
Proof.
  destruct e as [l r m c ts]. intros (H1 & H2 & H3 & H4 & H5 & H6) w Hw. cbn [lhs rhs multiplier calibrating] in *. unfold untagged, print_equation. cbn [lhs rhs multiplier calibrating].
  set (mt := match m with Some n => str " " ++ str ":" ++ str " " ++ n ++ str "[]" | None => [] end). set (ct := match c with Some n => str " " ++ str "->" ++ str " " ++ n | None => [] end).
  match goal with |- equation_text _ _ ?t => assert (E : t = [] ++ (w ++ pr l 0) ++ str " " ++ str "=" ++ (str " " ++ pr r 0) ++ mt ++ ct ++ [] ++ str ";") end.
  { unfold mt, ct. destruct m as [[|a m]|]; [contradiction| |]; (destruct c as [[|b c]|]; [contradiction| |]); cbn [name_ok] in *; rewrite ?app_nil_r, ?app_nil_l; repeat rewrite <- app_assoc; reflexivity. }
  rewrite E. change (@nil tag) with (tag_set []). apply equation_parts.
  - constructor.
  - now left.
  - now apply side_text.
  - reflexivity.
  - now apply side_text.
  - unfold mt. destruct m as [n|]; [|constructor]. apply (mult_some (str " ") n (TI 0)); [reflexivity|]. exists (str " "), [], []. split; [reflexivity|]. split; [reflexivity|]. split; [exact H5|]. split; [reflexivity|]. now constructor.
  - unfold ct. destruct c as [n|]; [|constructor]. apply (cal_some (str " ") (str " ") n); (reflexivity || exact H6).
  - reflexivity.
Qed.
(* ---- variables ---- *)
Lemma var_print v : ident (fst v) -> writes varref_text v (print_var v).
Proof.
  intros Hn w Hw. destruct (tix_str_text (snd v)) as (ti & E & Ht). unfold print_var. rewrite E. exists w, [], ti. split; [reflexivity|]. split; [exact Hw|]. split; [exact Hn|]. split; [reflexivity|exact Ht].
Qed.
(* ---- distributions ---- *)
Definition number_ok (v : F) : Prop := dnumber (fstr v) /\ fread (fstr v) = v.
Definition value_ok (v : dval F) : Prop := match v with VNum x => number_ok x | VNone => True | VName n => ident n /\ n <> str "None" end.
Definition kwargs_ok (l : list (chars * dval F)) : Prop := NoDup (map fst l) /\ forall k v, In (k, v) l -> ident k /\ value_ok v.
Definition dist_ok (d : dist F) : Prop :=
  ident (d_par d) /\ In (d_name d) preliz_dists /\ kwargs_ok (d_args d) /\ kwargs_ok (d_wargs d) /\
  (match d_wrapper d with Some w => In w preliz_wrappers | None => d_wargs d = [] end) /\
  (match d_init d with Some v => number_ok v | None => True end).
Definition raw_arg (kv : chars * dval F) : chars * darg := (fst kv, match snd kv with VNum x => ANum (DN (fstr x)) | VNone => ANone | VName n => AName n end).
Definition raw_of (d : dist F) : rawdist :=
  RawDist (d_par d) (d_name d) (map raw_arg (d_args d)) (option_map (fun w => (w, map raw_arg (d_wargs d))) (d_wrapper d)) (option_map (fun v => DN (fstr v)) (d_init d)).
Lemma number_print x w : ws w -> number_ok x -> arith_text 4 (DN (fstr x)) (w ++ fstr x).
Proof. intros Hw [H _]. do 4 (apply arith_up; [lia|]). now constructor. Qed.
Lemma arg_print kv : ident (fst kv) -> value_ok (snd kv) -> writes darg_text (raw_arg kv) (fst kv ++ str "=" ++ print_dval fstr (snd kv)).
Proof.
  destruct kv as [k v]. cbn [fst snd]. intros Hk Hv w Hw. exists w, [], (print_dval fstr v). cbn [raw_arg fst snd]. split; [reflexivity|]. split; [exact Hw|]. split; [exact Hk|]. split; [reflexivity|].
  destruct v as [x| |n]; cbn [print_dval value_ok] in *.
  - apply value_num. now apply (number_print x []).
  - now apply (value_none []).
  - destruct Hv. now apply (value_name []).
Qed.
Lemma kwargs_print l w : kwargs_ok l -> ws w -> l <> [] -> commas darg_text (map raw_arg l) (w ++ print_kwargs fstr l).
Proof.
  intros [_ H] Hw Hne. unfold print_kwargs. apply commas_join; auto. intros [k v] Hi. destruct (H k v Hi). now apply arg_print.
Qed.
Lemma call_print d w : dist_ok d -> ws w -> call_text (d_name d, map raw_arg (d_args d)) (w ++ d_name d ++ str "(" ++ print_kwargs fstr (d_args d) ++ str ")").
Proof.
  intros (_ & Hn & Ha & _) Hw. exists w, [], (print_kwargs fstr (d_args d)), []. cbn [fst snd]. split; [reflexivity|]. split; [exact Hw|]. split; [exact Hn|]. split; [reflexivity|]. split; [|reflexivity].
  destruct (d_args d) as [|a l] eqn:E; [left; auto|right]. apply (kwargs_print (a :: l) []); auto; [reflexivity|discriminate].
Qed.
Lemma join_nonempty l : l <> [] -> (forall x, In x l -> x <> []) -> join (str ", ") l <> [].
Proof. intros H1 H2 E. destruct l as [|x l]; [congruence|]. specialize (H2 x (or_introl eq_refl)). destruct x as [|c x]; [congruence|]. destruct l; discriminate. Qed.
Lemma dist_print d : dist_ok d -> writes distribution_text (raw_of d) (print_distribution fstr d ++ str ";").
Proof.
  intros Hd w Hw. pose proof Hd as (Hp & Hn & Ha & Hwa & Hwr & Hi). unfold print_distribution.
  set (ds := d_name d ++ str "(" ++ print_kwargs fstr (d_args d) ++ str ")"). set (it := match d_init d with Some v => str " = " ++ fstr v | None => [] end).
  set (c := match d_wrapper d with Some (c :: w0) => match print_kwargs fstr (d_wargs d) with [] => (c :: w0) ++ str "(" ++ ds ++ str ")" | k => (c :: w0) ++ str "(" ++ ds ++ str ", " ++ k ++ str ")" end | _ => ds end).
  exists w, (str " "), (str " " ++ c), it, []. cbn [raw_of rd_par rd_name rd_args rd_wrapper rd_init]. split; [repeat rewrite <- app_assoc; reflexivity|]. split; [exact Hw|]. split; [exact Hp|]. split; [reflexivity|]. split; [|split; [|reflexivity]].
  - unfold c. destruct (d_wrapper d) as [x|] eqn:Ew; cbn [option_map].
    + destruct x as [|x0 x]; [apply wrappers_ident in Hwr; contradiction|]. destruct (print_kwargs fstr (d_wargs d)) as [|k0 k] eqn:Ek.
      * assert (d_wargs d = []) as ->.
        { destruct (d_wargs d) as [|[a v] l] eqn:El; [reflexivity|]. exfalso. revert Ek. unfold print_kwargs. apply join_nonempty; [discriminate|]. intros y Hy. apply in_map_iff in Hy as ([k v'] & <- & Hi'). destruct Hwa as [_ Hwa]. destruct (Hwa k v' Hi') as [Hk _]. destruct k; [contradiction|discriminate]. }
        change (str " " ++ (x0 :: x) ++ str "(" ++ ds ++ str ")") with (str " " ++ (x0 :: x) ++ [] ++ str "(" ++ ds ++ [] ++ [] ++ str ")"). apply dist_wrapped; auto; try reflexivity. exact (call_print d [] Hd eq_refl).
      * replace (str " " ++ (x0 :: x) ++ str "(" ++ ds ++ str ", " ++ (k0 :: k) ++ str ")") with (str " " ++ (x0 :: x) ++ [] ++ str "(" ++ ds ++ ([] ++ str "," ++ (str " " ++ k0 :: k)) ++ [] ++ str ")") by (cbn [app]; repeat rewrite <- app_assoc; reflexivity).
        apply dist_wrapped; auto; try reflexivity; [exact (call_print d [] Hd eq_refl)|]. right. exists [], (str " " ++ k0 :: k). split; [reflexivity|]. split; [reflexivity|]. rewrite <- Ek. apply kwargs_print; [exact Hwa|reflexivity|]. intros E. rewrite E in Ek. discriminate.
    + constructor. now apply (call_print d (str " ")).
  - unfold it, init_text. destruct (d_init d) as [v|]; cbn [option_map]; [|reflexivity]. exists (str " "), (str " " ++ fstr v). split; [reflexivity|]. split; [reflexivity|]. now apply number_print.
Qed.
Context (farith : dop -> F -> F -> result F).
Lemma number_meaning v : number_ok v -> value_of fread farith (DN (fstr v)) v.
Proof. intros [_ E]. rewrite <- E at 2. constructor. Qed.
Lemma kwargs_meaning l : kwargs_ok l -> args_meaning fread farith (map raw_arg l) l.
Proof.
  intros [Hn H]. exists l. split; [|now apply dict_id]. clear Hn. induction l as [|[k v] l IH]; [constructor|]. cbn [map]. constructor; [|apply IH; intros; apply H; now right].
  destruct (H k v (or_introl eq_refl)) as [_ Hv]. destruct v as [x| |n]; unfold raw_arg; cbn [fst snd]; constructor. now apply number_meaning.
Qed.
Lemma dist_meaning d : dist_ok d -> dist_of fread farith (raw_of d) d.
Proof.
  intros (Hp & Hn & Ha & Hwa & Hwr & Hi). unfold dist_of. cbn [raw_of rd_par rd_name rd_args rd_wrapper rd_init]. split; [reflexivity|]. split; [reflexivity|]. split; [now apply kwargs_meaning|]. split.
  - destruct (d_wrapper d); cbn [option_map]; [split; [reflexivity|now apply kwargs_meaning]|auto].
  - destruct (d_init d) as [v|]; cbn [option_map]; [exists v; split; [reflexivity|now apply number_meaning]|reflexivity].
Qed.
End P.
