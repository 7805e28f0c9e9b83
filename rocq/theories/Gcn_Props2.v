(* C107-C110: which texts are accepted and what they mean *)
From Verif Require Import Common Expr_Model Expr_Spec Expr_Lex SymDict_Model Expr_RoundTrip Gcn_Lex Gcn_Model Gcn_Spec Gcn_Basic Gcn_Expr Gcn_Proofs Gcn_Props Gcn_Grammar Gcn_Sound Gcn_Complete Gcn_Complete2 Gcn_Complete3 Gcn_Complete4 Gcn_Complete5 Gcn_Meaning Gcn_Build.
Local Open Scope list_scope.
Local Open Scope parser_scope.
Set Default Proof Using "Type".

Lemma strip_nohash s : nohash (strip_comments s) = true.
Proof.
  unfold strip_comments. assert (G : forall b, nohash (strip_in b s) = true); [|apply G]. induction s as [|c s IH]; intro b; [reflexivity|]. cbn [strip_in]. destruct b.
  - destruct (Ascii.eqb c newline_char) eqn:E; [apply Ascii.eqb_eq in E; subst; apply (IH false)|apply IH].
  - destruct (Ascii.eqb c "#") eqn:E; [apply IH|]. unfold nohash in *. cbn [forallb]. rewrite E. apply (IH false).
Qed.
Lemma strip_id s : nohash s = true -> strip_comments s = s.
Proof.
  unfold strip_comments, nohash. induction s as [|c s IH]; intro H; [reflexivity|]. cbn [forallb strip_in] in *. apply andb_true_iff in H as [H1 H2]. apply negb_true_iff in H1. rewrite H1. f_equal. now apply IH.
Qed.
Section C107.
Context {F : Type} (fread : chars -> F) (farith : dop -> F -> F -> result F).
Lemma file_end0 s x r : p_file skip fread s = POk x r -> r = [].
Proof. intro H. pose proof (file_c fread x s (file_s fread s x r H)) as E. congruence. Qed.
Lemma gcn_grammar text : parse_gcn fread farith text = match p_file skip fread (strip_comments text) with POk x _ => build_model fread farith x | POut => Err RecursionError | _ => Err (GEconError 0) end.
Proof. rewrite <- (C39_comments fread farith text). unfold parse_gcn. now rewrite (file_nohash fread _ (strip_nohash text)). Qed.
(* ---- C107 ---- *)
Theorem C107_file text m :
  parse_gcn fread farith text = Ok m <-> exists raw, file_text fread raw (strip_comments text) /\ model_of fread farith raw m.
Proof.
  rewrite gcn_grammar. split.
  - destruct (p_file skip fread (strip_comments text)) as [x r| | |] eqn:E; try discriminate. intro H. exists x. split; [now apply file_s in E|now apply build_model_iff].
  - intros (raw & Hf & Hm). apply file_c in Hf. rewrite Hf. now apply build_model_iff.
Qed.
Lemma full_nohash {A} (p p' : parser A) s : nohash s = true -> p s = p' s -> (forall a r, p' s = POk a r -> exists t, s = t ++ r) ->
  (x <~ p ; t_end skipc >> ret x) s = (x <~ p' ; t_end skip >> ret x) s.
Proof.
  intros Hn E Hs. unfold seq at 1 3. rewrite E. destruct (p' s) as [a r| | |]; try reflexivity. destruct (Hs a r eq_refl) as [t ->]. unfold seq, t_end. rewrite skipc_skip; [reflexivity|].
  unfold nohash in *. rewrite forallb_app in Hn. now apply andb_true_iff in Hn as [_ ?].
Qed.
Theorem C107_equation text e :
  parse_equation fread text = Ok e <-> exists t w, strip_comments text = t ++ w /\ equation_text fread e t /\ ws w.
Proof.
  rewrite <- (C39_comments_equation fread text). unfold parse_equation. rewrite (full_nohash _ (p_equation skip fread)); [|apply strip_nohash|apply equation_nohash, strip_nohash|intros a r H; apply equation_s in H as (t & E & _); eauto].
  split.
  - destruct ((x <~ p_equation skip fread; t_end skip >> ret x) (strip_comments text)) as [x r| | |] eqn:E; try discriminate. intro H. injection H as ->. exact (equation_full_s fread _ _ _ E).
  - intros (t & w & -> & He & Hw). rewrite (full_c _ e t w); [reflexivity|now apply equation_c|exact Hw].
Qed.
Theorem C107_block text b :
  parse_block_from_text fread farith text = Ok b <-> exists raw t w, strip_comments text = t ++ w /\ block_text fread raw t /\ ws w /\ block_of fread farith raw b.
Proof.
  rewrite <- (C39_comments_block fread farith text). unfold parse_block_from_text. rewrite (full_nohash _ (p_block skip fread)); [|apply strip_nohash|apply block_nohash, strip_nohash|intros a r H; apply block_s in H as (t & E & _); eauto].
  split.
  - destruct ((x <~ p_block skip fread; t_end skip >> ret x) (strip_comments text)) as [x r| | |] eqn:E; try discriminate. intro H. apply build_block_iff in H. apply block_full_s in E as (t & w & -> & H1 & H2). eauto 8.
  - intros (raw & t & w & -> & He & Hw & Hb). rewrite (full_c _ raw t w); [now apply build_block_iff|now apply block_c|exact Hw].
Qed.
(* a text has at most one reading *)
Theorem C107_unambiguous raw raw' s : file_text fread raw s -> file_text fread raw' s -> raw = raw'.
Proof. intros H H'. apply file_c in H, H'. congruence. Qed.
Theorem C107_one_equation e e' s : equation_text fread e s -> equation_text fread e' s -> e = e'.
Proof. intros H H'. pose proof (equation_c fread e s [] H). pose proof (equation_c fread e' s [] H'). congruence. Qed.
End C107.
Theorem C107_case : exists raw m, file_text (fun t => t) raw (strip_comments commented) /\ model_of (fun t => t) demo_arith raw m /\
  map b_name (blocks m) = [str "HOUSEHOLD"] /\ map (fun b => length (identities b)) (blocks m) = [1] /\ map (fun b => length (calibration b)) (blocks m) = [1].
Proof.
  destruct (parse_gcn (fun t => t) demo_arith commented) as [m|] eqn:E; [|vm_compute in E; discriminate]. destruct (proj1 (C107_file (fun t => t) demo_arith commented m) E) as (raw & H1 & H2). exists raw, m. split; [exact H1|]. split; [exact H2|].
  assert (E' : match parse_gcn (fun t => t) demo_arith commented with Ok m => map b_name (blocks m) = [str "HOUSEHOLD"] /\ map (fun b => length (identities b)) (blocks m) = [1] /\ map (fun b => length (calibration b)) (blocks m) = [1] | Err _ => False end) by (vm_compute; auto).
  rewrite E in E'. exact E'.
Qed.
(* what the grammar does not allow *)
Theorem C107_rejected :
  let bad t := parse_gcn (fun t => t) demo_arith (str t) = Err (GEconError 0) in
  bad "options { a = TRUE; };"%string /\                                        (* no model block *)
  bad "block B { identities { Y[] = 1 }; };"%string /\                          (* missing semicolon *)
  bad "block B { identities { Y[] = 1; } };"%string /\
  bad "block B { identities { @unknown Y[] = 1; }; };"%string /\                (* unknown tag *)
  bad "block B { equations { Y[] = 1; }; };"%string /\                          (* unknown component *)
  bad "block B { identities { Y[t] = 1; }; };"%string /\                        (* not a time index *)
  bad "identities { Y[] = 1; };"%string /\                                      (* component outside a block *)
  bad "assumptions { even { C; }; }; block B { };"%string /\                    (* unknown kind *)
  bad "block B { calibration { a ~ Student(nu = 3); }; };"%string.              (* unknown distribution *)
Proof. cbv zeta. vm_compute. repeat split. Qed.

(* ---- C108 ---- *)
Ltac fin := match goal with H : forall _, ~ _ |- _ => eapply H; eassumption | H : forall _ _, ~ _ |- _ => eapply H; eassumption end.
Section C108.
Context {F : Type} (fread : chars -> F) (farith : dop -> F -> F -> result F).
(* of several components of one kind only the last one is kept *)
Theorem C108_last_component text n cs t w b : strip_comments text = t ++ w -> block_text fread (n, cs) t -> ws w -> parse_block_from_text fread farith text = Ok b ->
  b_name b = n /\
  (forall cs1 l cs2, cs = cs1 ++ CDefinitions l :: cs2 -> (forall l', ~ In (CDefinitions l') cs2) -> definitions b = l) /\
  (forall cs1 l cs2, cs = cs1 ++ CControls l :: cs2 -> (forall l', ~ In (CControls l') cs2) -> controls b = l) /\
  (forall cs1 l cs2, cs = cs1 ++ CObjective l :: cs2 -> (forall l', ~ In (CObjective l') cs2) -> objective b = l) /\
  (forall cs1 l cs2, cs = cs1 ++ CConstraints l :: cs2 -> (forall l', ~ In (CConstraints l') cs2) -> constraints b = l) /\
  (forall cs1 l cs2, cs = cs1 ++ CIdentities l :: cs2 -> (forall l', ~ In (CIdentities l') cs2) -> identities b = l) /\
  (forall cs1 v d cs2, cs = cs1 ++ CShocks v d :: cs2 -> (forall v' d', ~ In (CShocks v' d') cs2) -> shocks b = v) /\
  (forall cs1 l cs2, cs = cs1 ++ CCalibration l :: cs2 -> (forall l', ~ In (CCalibration l') cs2) -> Forall2 (item_of fread farith) l (calibration b)).
Proof.
  intros Ht Hb Hw Hp. apply C107_block in Hp as (raw & t' & w' & E & Hb' & Hw' & Hm).
  assert (raw = (n, cs)).
  { assert (E1 : (x <~ p_block skip fread; t_end skip >> ret x) (t ++ w) = POk (n, cs) []) by (apply full_c; [now apply block_c|exact Hw]).
    assert (E2 : (x <~ p_block skip fread; t_end skip >> ret x) (t' ++ w') = POk raw []) by (apply full_c; [now apply block_c|exact Hw']).
    rewrite <- E, Ht in E2. congruence. }
  subst raw. destruct Hm as (Hn & H1 & H2 & H3 & H4 & H5 & H6 & _ & (lc & H7 & H8)). cbn [fst snd] in *.
  assert (U : forall {A} (f : component F -> option A) d a cs1 c cs2 v, is_last f cs d a -> cs = cs1 ++ c :: cs2 -> f c = Some v -> (forall y, In y cs2 -> f y = None) -> a = v).
  { intros A f d a cs1 c cs2 v Hl Ec Hc Hn2. assert (Hl' : is_last f cs d v) by (left; eauto 6). apply is_last_iff in Hl, Hl'. congruence. }
  split; [exact Hn|].
  split; [intros; eapply U; [exact H1|eassumption|reflexivity|]; intros y Hy; destruct y; try reflexivity; exfalso; fin|].
  split; [intros; eapply U; [exact H2|eassumption|reflexivity|]; intros y Hy; destruct y; try reflexivity; exfalso; fin|].
  split; [intros; eapply U; [exact H3|eassumption|reflexivity|]; intros y Hy; destruct y; try reflexivity; exfalso; fin|].
  split; [intros; eapply U; [exact H4|eassumption|reflexivity|]; intros y Hy; destruct y; try reflexivity; exfalso; fin|].
  split; [intros; eapply U; [exact H5|eassumption|reflexivity|]; intros y Hy; destruct y; try reflexivity; exfalso; fin|].
  split.
  - intros cs1 v d cs2 Ec Hn2. assert ((shocks b, shock_dists b) = (v, d)); [|congruence]. eapply U; [exact H6|eassumption|reflexivity|]; intros y Hy; destruct y; try reflexivity; exfalso; fin.
  - intros cs1 l cs2 Ec Hn2. assert (lc = l) as <-; [|exact H8]. eapply U; [exact H7|eassumption|reflexivity|]; intros y Hy; destruct y; try reflexivity; exfalso; fin.
Qed.
(* options, tryreduce and assumptions are only read in front of the model blocks *)
Theorem C108_special_first raw s sp u : file_text fread raw s -> special_text sp u -> ~ In "#"%char (s ++ u) -> parse_gcn fread farith (s ++ u) = Err (GEconError 0).
Proof.
  intros Hf Hu Hh. rewrite gcn_grammar. assert (nohash (s ++ u) = true) as Hn.
  { unfold nohash. apply forallb_forall. intros c Hc. apply negb_true_iff, Ascii.eqb_neq. intros ->. contradiction. }
  rewrite (strip_id _ Hn). destruct raw as [sps bs]. destruct Hf as (t1 & t2 & w & -> & H1 & H2 & Hne & Hw). cbn [fst snd] in *. destruct H2 as [|b s bs ss Hb Hbs]; [congruence|].
  assert (Hs : exists kw body, braces kw body (w ++ u) /\ word kw /\ kwok kw /\ map lower (str "block") <> map lower (str kw) /\
    (forall k, In k ["DEFINITIONS"; "CONTROLS"; "OBJECTIVE"; "CONSTRAINTS"; "IDENTITIES"; "SHOCKS"; "CALIBRATION"]%string -> map lower (str k) <> map lower (str kw))).
  { assert (L : forall kw body, braces kw body u -> braces kw body (w ++ u)).
    { intros kw body (v & k & v1 & v2 & v3 & -> & Hv & Hk & Hv1 & Hv2 & Hv3). exists (w ++ v), k, v1, v2, v3. split; [now rewrite <- app_assoc|]. split; [now apply ws_app|auto]. }
    destruct Hu as [l body u Hl Hb'|l body u Hl Hb'|l body u Hl Hb'].
    - exists "options"%string, body. split; [now apply L|]. split; [reflexivity|]. split; [reflexivity|]. split; [vm_compute; discriminate|]. intros k Hk. cbn in Hk. intuition subst; vm_compute; discriminate.
    - exists "tryreduce"%string, body. split; [now apply L|]. split; [reflexivity|]. split; [reflexivity|]. split; [vm_compute; discriminate|]. intros k Hk. cbn in Hk. intuition subst; vm_compute; discriminate.
    - exists "assumptions"%string, body. split; [now apply L|]. split; [reflexivity|]. split; [reflexivity|]. split; [vm_compute; discriminate|]. intros k Hk. cbn in Hk. intuition subst; vm_compute; discriminate. }
  destruct Hs as (kw & body & Hbr & Hkw & Hko & Hbl & Hck).
  assert (Htop : p_top skip fread (w ++ u) = PFail).
  { unfold p_top, p_block, component_keyword. rewrite <- (app_nil_r (w ++ u)). rewrite alt_r; [eapply (braces_f kw body); [exact Hbr|reflexivity|exact Hkw|exact Hko|exact Hbl]|]. apply seq_f.
    repeat (rewrite alt_r); apply kwc_alone; (eapply (braces_f kw body); [exact Hbr|reflexivity|exact Hkw|exact Hko|apply Hck; cbn; tauto]). }
  assert (Hend : t_end skip (w ++ u) = PFail).
  { destruct Hbr as (v & k & v1 & v2 & v3 & -> & Hv & Hk & _). unfold t_end. rewrite skip_ws by exact Hv. destruct k as [|c k]; [unfold kwok, keyword in *; destruct (str kw); [contradiction|discriminate]|].
    cbn [app]. rewrite skip_nonws; [reflexivity|]. unfold kwok, keyword in *. destruct (str kw) as [|d y]; [contradiction|]. injection Hk as Hk _. now rewrite (lower_not_ws c d Hk). }
  assert (E : p_file skip fread ((t1 ++ (s ++ ss) ++ w) ++ u) = PFail); [|now rewrite E]. repeat rewrite <- app_assoc. unfold p_file.
  rewrite (seq_c _ _ _ sps (s ++ ss ++ w ++ u)); [|apply (many_c _ special_text); auto; [exact (proj1 (r_special skip skip_len (fun t => t)))|intros; now apply special_c|now apply (special_block fread b)]].
  rewrite (seq_c _ _ _ b _ (top_c fread b s _ Hb)). rewrite (seq_c _ _ _ bs (w ++ u)); [now apply seq_f|].
  apply (many_c _ (block_text fread)); auto; [exact (proj1 (r_top skip skip_len fread))|intros; now apply top_c].
Qed.
End C108.
(* two identities components: the equations of the first are lost without a word *)
Theorem C108_components_accumulate_refuted :
  match parse_block_from_text (fun t => t) demo_arith (str "block B { identities { Y[] = 1; }; identities { C[] = 2; }; };") with
  | Ok b => identities b = [Eqn (Var (str "C") (TI 0)) (Num (str "2")) None None []]
  | Err _ => False
  end.
Proof. vm_compute. reflexivity. Qed.
Theorem C108_case : parse_gcn (fun t => t) demo_arith (str "block B { identities { Y[] = 1; }; }; options { output latex = TRUE; };") = Err (GEconError 0).
Proof. vm_compute. reflexivity. Qed.

(* ---- C109 ---- *)
(* v is listed under the kind in the last assumptions block *)
Definition listed (l : list (chars * list chars)) (kind v : chars) : Prop := exists vs, In (kind, vs) l /\ In v vs.
Lemma kinds_In l v k : (forall a vs, In (a, vs) l -> In a gcn_assumptions) ->
  (In k (kinds l v) <-> listed l k v \/ (k = str "positive" /\ listed l (str "unit_interval") v)).
Proof.
  intro Hg. unfold kinds, listed. rewrite in_flat_map. split.
  - intros ([a vs] & Hi & Hk). cbn [fst snd] in Hk. apply in_flat_map in Hk as (x & Hx & Hk). destruct (chars_eqb x v) eqn:E; [|contradiction]. apply chars_eqb_eq in E. subst x.
    destruct (assumptions_ident a (Hg a vs Hi)) as [_ El]. unfold listing in Hk. rewrite El in Hk. destruct (chars_eqb a (str "unit_interval")) eqn:Eu.
    + apply chars_eqb_eq in Eu. subst a. destruct Hk as [<-|[<-|[]]]; [left; eauto|right; split; [reflexivity|eauto]].
    + destruct Hk as [<-|[]]. left. eauto.
  - assert (G : forall a, (exists vs, In (a, vs) l /\ In v vs) -> forall k, In k (listing a) -> exists x, In x l /\ In k (flat_map (fun x0 => if chars_eqb x0 v then listing (fst x) else []) (snd x))).
    { intros a (vs & Hi & Hv) k' Hk. exists (a, vs). split; [exact Hi|]. cbn [fst snd]. apply in_flat_map. exists v. split; [exact Hv|]. now rewrite chars_eqb_refl. }
    intros [H|[-> H]].
    + apply (G k H). destruct H as (vs & Hi & _). destruct (assumptions_ident k (Hg k vs Hi)) as [_ El]. unfold listing. rewrite El. destruct (chars_eqb k (str "unit_interval")) eqn:Eu; [apply chars_eqb_eq in Eu; left; auto|now left].
    + apply (G _ H). right. now left.
Qed.
Section C109.
Context {F : Type} (fread : chars -> F) (farith : dop -> F -> F -> result F).
Theorem C109_assumptions text m : parse_gcn fread farith text = Ok m ->
  exists raw l, file_text fread raw (strip_comments text) /\ is_last (fun s => match s with SAssumptions l => Some l | _ => None end) (fst raw) [] l /\
    NoDup (map fst (assumptions m)) /\
    (forall v, In v (map fst (assumptions m)) <-> exists k, listed l k v) /\
    (forall v a, In (v, a) (assumptions m) -> NoDup (map fst a) /\
       forall k b, In (k, b) a <-> b = true /\ (k = str "real" \/ listed l k v \/ (k = str "positive" /\ listed l (str "unit_interval") v))).
Proof.
  intro H. apply C107_file in H as (raw & Hf & (_ & _ & _ & (l & Hl & Ha))). exists raw, l. split; [exact Hf|]. split; [exact Hl|]. destruct Ha as [H1 H2].
  assert (Hg : forall a vs, In (a, vs) l -> In a gcn_assumptions).
  { destruct Hf as (t1 & t2 & w & _ & Hs & _). assert (G : forall l', In (SAssumptions l') (fst raw) -> forall a vs, In (a, vs) l' -> In a gcn_assumptions).
    { clear -Hs. induction Hs as [|x s xs ss Hx Hs IH]; [intros ? []|]. intros l' [-> |Hi]; [|now apply IH]. inversion Hx as [| |l0 b s0 Hl Hb]; subst. clear -Hl. intros a vs Hi. induction Hl as [|y u ys us Hy Hl IH]; [contradiction|].
      destruct Hi as [-> |Hi]; [|now apply IH]. destruct Hy as (w & k & w1 & t & w2 & w3 & w4 & _ & _ & Hi & _). exact Hi. }
    destruct Hl as [(l1 & x & l2 & E & Ex & _)|[_ ->]]; [|intros a vs []]. destruct x as [| |l']; try discriminate. injection Ex as ->. apply G. rewrite E. apply in_or_app. right. now left. }
  split; [rewrite H1; apply firsts_NoDup|]. split.
  - intro v. rewrite H1, firsts_In. unfold listed. rewrite in_concat. split.
    + intros (vs & Hi & Hv). apply in_map_iff in Hi as ([a vs'] & E & Hi). cbn in E. subst vs'. eauto.
    + intros (k & vs & Hi & Hv). exists vs. split; [|exact Hv]. apply in_map_iff. now exists (k, vs).
  - intros v a Hi. rewrite (H2 v a Hi). fold (trues (firsts (str "real" :: kinds l v))). split; [rewrite trues_fst; apply firsts_NoDup|]. intros k b. unfold trues. rewrite in_map_iff. rewrite <- (kinds_In l v k Hg). split.
    + intros (x & E & Hx). injection E as -> <-. split; [reflexivity|]. apply (proj1 (firsts_In _ _)) in Hx. destruct Hx as [<-|Hx]; auto.
    + intros [-> Hk]. exists k. split; [reflexivity|]. apply firsts_In. destruct Hk as [-> |Hk]; [now left|now right].
Qed.
End C109.
Theorem C109_case : match parse_gcn (fun t => t) demo_arith (str "assumptions { Unit_Interval { h[], alpha; }; negative { C; }; }; block B { };") with
  | Ok m => assumptions m = [(str "h", [(str "real", true); (str "unit_interval", true); (str "positive", true)]);
                             (str "alpha", [(str "real", true); (str "unit_interval", true); (str "positive", true)]);
                             (str "C", [(str "real", true); (str "negative", true)])]
  | Err _ => False end.
Proof. vm_compute. reflexivity. Qed.
(* contradictory kinds are accepted *)
Theorem C109_consistent_refuted : match parse_gcn (fun t => t) demo_arith (str "assumptions { positive { C[]; }; negative { C[]; }; }; block B { };") with
  | Ok m => assumptions m = [(str "C", [(str "real", true); (str "positive", true); (str "negative", true)])]
  | Err _ => False end.
Proof. vm_compute. reflexivity. Qed.

(* ---- C110 ---- *)
(* arithmetic nested in arithmetic *)
Inductive nested : dnum -> Prop :=
| nested_first o o' a l l' : nested (DOp o (DOp o' a l) l')
| nested_later o a l o' b l' : In (DOp o' b l') l -> nested (DOp o a l).
Definition arg_nested (l : list (chars * darg)) : Prop := exists k e, In (k, ANum e) l /\ nested e.
Definition dist_nested (d : rawdist) : Prop :=
  arg_nested (rd_args d) \/ (exists w l, rd_wrapper d = Some (w, l) /\ arg_nested l) \/ (exists e, rd_init d = Some e /\ nested e).
Section C110.
Context {F : Type} (fread : chars -> F) (farith : dop -> F -> F -> result F).
Lemma nested_no e v : nested e -> ~ value_of fread farith e v.
Proof.
  intros [o o' a l l'|o a l o' b l' Hi] H; inversion H as [|o0 t ts v0 Hc]; subst.
  apply in_map_iff in Hi as (x & E & _). discriminate.
Qed.
Lemma args_no l d : arg_nested l -> ~ args_meaning fread farith l d.
Proof.
  intros (k & e & Hi & He) (vs & Hf & _). apply in_split in Hi as (l1 & l2 & ->). apply Forall2_app_inv_l in Hf as (v1 & v2 & _ & Hf & _). inversion Hf as [|? y ? ? Ha Hr]; subst. inversion Ha; subst. eapply nested_no; eassumption.
Qed.
(* a distribution with nested arithmetic in any calibration component makes the whole text fail *)
Theorem C110_nested_rejected text raw n cs l d : file_text fread raw (strip_comments text) -> In (n, cs) (snd raw) -> In (CCalibration l) cs -> In (inl d) l -> dist_nested d ->
  forall m, parse_gcn fread farith text <> Ok m.
Proof.
  intros Hf Hb Hc Hd Hn m H. apply C107_file in H as (raw' & Hf' & (Hm & _)). pose proof (C107_unambiguous fread raw raw' _ Hf Hf'). subst raw'. apply in_split in Hb as (b1 & b2 & E). rewrite E in Hm.
  apply Forall2_app_inv_l in Hm as (v1 & v2 & _ & Hm & _). inversion Hm as [|? b ? ? Hbo Hr]; subst. destruct Hbo as (_ & _ & _ & _ & _ & _ & _ & Hall & _). destruct (Hall l Hc) as [r Hit].
  apply in_split in Hd as (i1 & i2 & ->). apply Forall2_app_inv_l in Hit as (w1 & w2 & _ & Hit & _). inversion Hit as [|? y ? ? Hy Hr']; subst. inversion Hy as [? d' Hd|]; subst.
  destruct Hd as (_ & _ & Ha & Hw & Hi). destruct Hn as [Hn|[(w & lw & Ew & Hn)|(e & Ee & Hn)]].
  - eapply args_no; eassumption.
  - rewrite Ew in Hw. destruct Hw as [_ Hw]. eapply args_no; eassumption.
  - rewrite Ee in Hi. destruct Hi as (v & _ & Hv). eapply nested_no; eassumption.
Qed.
(* numbers joined by one operator are computed from the left; every operator has its own precedence *)
Theorem C110_flat e v : eval_dnum fread farith e = Ok v <->
  (exists t, e = DN t /\ v = fread t) \/ (exists o t ts, e = DOp o (DN t) (map DN ts) /\ fold_left (fun acc t => match acc with Ok a => farith o a (fread t) | x => x end) ts (Ok (fread t)) = Ok v).
Proof.
  rewrite eval_dnum_iff. assert (G : forall o ts v0 w, chain fread farith o v0 ts w <-> fold_left (fun acc t => match acc with Ok a => farith o a (fread t) | x => x end) ts (Ok v0) = Ok w).
  { intros o ts. assert (X : forall x, fold_left (fun acc t => match acc with Ok a => farith o a (fread t) | y => y end) ts (Err x) = Err x) by (intro x; induction ts as [|t ts IH]; [reflexivity|exact IH]).
    induction ts as [|t ts IH]; intros v0 w; cbn.
    - split; [intro H; now inversion H|intro H; injection H as <-; constructor].
    - assert (X' : forall x, fold_left (fun acc t => match acc with Ok a => farith o a (fread t) | y => y end) ts (Err x) = Err x) by (intro x; specialize (X x); exact X).
      split; [intro H; inversion H as [|v1 t1 ts1 v' v'' E H']; subst; rewrite E; now apply (IH X')|]. intro H. destruct (farith o v0 (fread t)) as [v'|x] eqn:E; [|rewrite X' in H; discriminate]. apply (chain_next _ _ _ _ _ _ v'); [exact E|now apply (IH X')]. }
  split.
  - intro H. inversion H as [t|o t ts w Hc]; subst; [left; eauto|right]. exists o, t, ts. split; [reflexivity|now apply G].
  - intros [(t & -> & ->)|(o & t & ts & -> & H)]; [constructor|]. constructor. now apply G.
Qed.
End C110.
Definition prior (e : string) : chars := str "block B { calibration { a ~ Normal(mu = " ++ str e ++ str ", sigma = 1); }; };".
Theorem C110_arithmetic_refuted : forall e, In e ["1+2*3"; "10-2+3"; "8/2*3"; "2*3/4"; "(1+2)*3"; "1 - 2 * 3"]%string -> parse_gcn (fun t => t) demo_arith (prior e) = Err TypeError.
Proof. intros e H. cbn in H. intuition subst; vm_compute; reflexivity. Qed.
Theorem C110_case : match parse_gcn (fun t => t) demo_arith (prior "1/3/2") with
  | Ok m => map (fun b => map (fun i => match i with IDist d => d_args d | _ => [] end) (calibration b)) (blocks m) = [[[(str "mu", VNum (str "132")); (str "sigma", VNum (str "1"))]]]
  | Err _ => False end.
Proof. vm_compute. reflexivity. Qed.
