(* Texts of the grammar hold no comment sign, so removing comments leaves them as they are *)
From Verif Require Import Common Expr_Model Expr_Spec SymDict_Model Gcn_Lex Gcn_Model Gcn_Basic Gcn_Grammar Gcn_Expr.
Local Open Scope list_scope.
Set Default Proof Using "Type".

Definition clean (s : chars) : Prop := nohash s = true.
Lemma clean_app s t : clean s -> clean t -> clean (s ++ t).
Proof. unfold clean, nohash. intros. rewrite forallb_app. now apply andb_true_iff. Qed.
Lemma clean_class (f : ascii -> bool) s : f "#"%char = false -> forallb f s = true -> clean s.
Proof.
  intros Hf. induction s as [|c s IH]; [reflexivity|]. cbn [forallb]. intro H. apply andb_true_iff in H as [H1 H2]. unfold clean, nohash in *. cbn [forallb]. rewrite (IH H2), andb_true_r.
  destruct (Ascii.eqb c "#") eqn:E; [apply Ascii.eqb_eq in E; subst c; congruence|reflexivity].
Qed.
Lemma clean_ws s : ws s -> clean s.
Proof. now apply clean_class. Qed.
Lemma clean_digits s : digits s -> clean s.
Proof. now apply clean_class. Qed.
Lemma clean_digits1 s : digits1 s -> clean s.
Proof. intros [_ H]. now apply clean_digits. Qed.
Lemma clean_cons c s : Ascii.eqb c "#" = false -> clean s -> clean (c :: s).
Proof. intros Hc Hs. unfold clean, nohash in *. cbn [forallb]. now rewrite Hc, Hs. Qed.
Lemma clean_ident s : ident s -> clean s.
Proof.
  destruct s as [|c s]; [contradiction|]. intros [H1 H2]. apply clean_cons; [|now apply (clean_class is_idc)].
  destruct (Ascii.eqb c "#") eqn:E; [apply Ascii.eqb_eq in E; subst c; discriminate H1|reflexivity].
Qed.
Lemma clean_lower s t : map lower s = t -> clean t -> clean s.
Proof.
  intros <-. induction s as [|c s IH]; [reflexivity|]. unfold clean, nohash in *. cbn [map forallb]. intro H. apply andb_true_iff in H as [H1 H2]. rewrite (IH H2), andb_true_r.
  destruct (Ascii.eqb c "#") eqn:E; [apply Ascii.eqb_eq in E; subst c; discriminate H1|reflexivity].
Qed.
Lemma clean_in l s : forallb nohash l = true -> In s l -> clean s.
Proof. intros H Hi. now apply (proj1 (forallb_forall _ _) H). Qed.
Lemma clean_dist s : In s preliz_dists -> clean s.
Proof. now apply clean_in. Qed.
Lemma clean_wrap s : In s preliz_wrappers -> clean s.
Proof. now apply clean_in. Qed.
Lemma clean_assumption s : In s gcn_assumptions -> clean s.
Proof. now apply clean_in. Qed.
Lemma clean_exp s : exponent s -> clean s.
Proof.
  destruct 1 as [|e sg d He Hs Hd]; [reflexivity|]. apply clean_cons; [destruct He; subst; reflexivity|]. apply clean_app; [|now apply clean_digits1]. destruct Hs as [->|[->| ->]]; reflexivity.
Qed.
Lemma clean_num s : numlit s -> clean s.
Proof.
  intros (m & e & -> & Hm & He). apply clean_app; [|now apply clean_exp]. destruct Hm as [d Hd|d1 d2 H1 H2|d Hd]; [now apply clean_digits1| |apply clean_cons; [reflexivity|now apply clean_digits1]].
  apply clean_app; [now apply clean_digits1|]. apply clean_cons; [reflexivity|now apply clean_digits].
Qed.
Lemma clean_lit s : nohash (str s) = true -> clean (str s).
Proof. exact (fun H => H). Qed.
Lemma clean_sign s : s = [] \/ s = str "+" \/ s = str "-" -> clean s.
Proof. intros [->|[->| ->]]; reflexivity. Qed.
Lemma clean_op o s : op_text o s -> clean s.
Proof. destruct 1; reflexivity. Qed.
Lemma clean_kw k s : nohash (map lower (str k)) = true -> keyword k s -> clean s.
Proof. intros H1 H2. exact (clean_lower s _ H2 H1). Qed.
Ltac clean1 := first [ assumption | reflexivity | apply clean_ws; assumption | apply clean_ident; assumption | apply clean_digits1; assumption | apply clean_digits; assumption
  | apply clean_exp; assumption | apply clean_num; assumption | apply clean_sign; assumption | eapply clean_op; eassumption
  | apply clean_dist; assumption | apply clean_wrap; assumption | eapply clean_kw; [|eassumption]; reflexivity | apply clean_cons; [reflexivity|] | apply clean_app ].
Ltac cleans := repeat clean1.
Lemma clean_tix t s : tix_text t s -> clean s.
Proof. destruct 1; cleans. Qed.
Lemma clean_var v s : varref_text v s -> clean s.
Proof. intros (w & w1 & ti & -> & H1 & H2 & H3 & H4). apply clean_tix in H4. cleans. Qed.
Section T.
Context {F : Type} (fread : chars -> F).
Lemma clean_texts : (forall l e s, Text fread l e s -> clean s) /\ (forall es s, Texts fread es s -> clean s).
Proof.
  apply Text_Texts_ind; intros; cleans. eapply clean_tix; eassumption.
Qed.
Lemma clean_commas {A} (P : A -> chars -> Prop) : (forall a s, P a s -> clean s) -> forall l s, commas P l s -> clean s.
Proof. intros H l s. induction 1 as [a s Ha|a s w l ss Ha Hw Hs IH]; [eauto|]. apply H in Ha. cleans. Qed.
Lemma clean_seq {A} (P : A -> chars -> Prop) : (forall a s, P a s -> clean s) -> forall l s, sequence P l s -> clean s.
Proof. intros H l s. induction 1 as [|a s l ss Ha Hs IH]; [reflexivity|]. apply H in Ha. cleans. Qed.
Lemma clean_tag t s : tag_text t s -> clean s.
Proof. intros (w & n & -> & H1 & H2 & _). cleans. Qed.
Lemma clean_equation e s : equation_text fread e s -> clean s.
Proof.
  destruct 1 as [ts tt l lt w r rt m mt c ct w1 H1 _ H2 H3 H4 H5 H6 H7]. apply (clean_seq _ clean_tag) in H1. apply (proj1 clean_texts) in H2, H4.
  assert (clean mt) by (destruct H5 as [|? ? ? ? ? Hv]; [reflexivity|apply clean_var in Hv; cleans]). assert (clean ct) by (destruct H6; cleans). cleans.
Qed.
Lemma clean_dnumber s : dnumber s -> clean s.
Proof. destruct 1; cleans. Qed.
Scheme arith_ind2 := Minimality for arith_text Sort Prop with arith_rest_ind2 := Minimality for arith_rest Sort Prop.
Combined Scheme arith_both from arith_ind2, arith_rest_ind2.
Lemma clean_arith : (forall n e s, arith_text n e s -> clean s) /\ (forall o l s, arith_rest o l s -> clean s).
Proof. apply arith_both; intros; cleans; try (now apply clean_dnumber). destruct o; reflexivity. Qed.
Lemma clean_darg a s : darg_text a s -> clean s.
Proof.
  intros (w & w1 & v & -> & H1 & H2 & H3 & H4). assert (clean v) by (destruct H4 as [e s H| |]; [now apply (proj1 clean_arith) in H| |]; cleans). cleans.
Qed.
Lemma clean_call c s : call_text c s -> clean s.
Proof.
  intros (w & w1 & a & w2 & -> & H1 & H2 & H3 & H4 & H5). assert (clean a) by (destruct H4 as [[_ ->]|H4]; [reflexivity|now apply (clean_commas _ clean_darg) in H4]). cleans.
Qed.
Lemma clean_dist_call c x s : dist_call_text c x s -> clean s.
Proof.
  destruct 1 as [c s H|w x w1 c s l a w2 H1 H2 H3 H4 H5 H6]; [now apply clean_call in H|]. apply clean_call in H4.
  assert (clean a) by (destruct H5 as [[_ ->]|(w3 & a' & -> & H7 & H8)]; [reflexivity|apply (clean_commas _ clean_darg) in H8; cleans]). cleans.
Qed.
Lemma clean_init {A} (P : A -> chars -> Prop) i s : (forall a t, P a t -> clean t) -> init_text P i s -> clean s.
Proof. intros H. destruct i; cbn; [|now intros ->]. intros (w & t & -> & H1 & H2). apply H in H2. cleans. Qed.
Lemma clean_distribution d s : distribution_text d s -> clean s.
Proof. intros (w & w1 & c & i & w2 & -> & H1 & H2 & H3 & H4 & H5 & H6). apply clean_dist_call in H4. apply clean_init in H5; [|intros a t Ht; now apply (proj1 clean_arith) in Ht]. cleans. Qed.
Lemma clean_item i s : cal_item_text fread i s -> clean s.
Proof. destruct 1 as [d s H|e s H _]; [now apply clean_distribution in H|now apply clean_equation in H]. Qed.
Lemma clean_shock l s : shock_text l s -> clean s.
Proof.
  destruct 1 as [l s w H Hw|v s w c i w1 d H1 H2 H3 H4 H5 H6]; [apply (clean_commas _ clean_var) in H; cleans|]. apply clean_var in H1. apply clean_dist_call in H4.
  apply clean_init in H5; [cleans|]. intros a t (w0 & t0 & _ & -> & A & B). cleans.
Qed.
Lemma clean_optlist l s : opt_list_text l s -> clean s.
Proof. intros [[_ ->]|(t & w & -> & H & Hw)]; [reflexivity|]. apply (clean_commas _ clean_var) in H. cleans. Qed.
Lemma clean_braces k b s : nohash (map lower (str k)) = true -> clean b -> braces k b s -> clean s.
Proof. intros Hk Hb (w & k' & w1 & w2 & w3 & -> & H1 & H2 & H3 & H4 & H5). assert (clean k') by (eapply clean_kw; [|exact H2]; exact Hk). cleans. Qed.
Lemma clean_component c s : component_text fread c s -> clean s.
Proof.
  destruct 1 as [l b s H Hb|l b s H Hb|l b s H Hb|l b s H Hb|l b s H Hb|l b s H Hb|l b s H Hb]; (eapply clean_braces; [| |exact Hb]; [reflexivity|]);
  first [now apply (clean_seq _ clean_equation) in H | now apply clean_optlist in H | now apply (clean_seq _ clean_shock) in H | now apply (clean_seq _ clean_item) in H].
Qed.
Lemma clean_block b s : block_text fread b s -> clean s.
Proof.
  intros (w & k & w1 & w2 & body & w3 & w4 & -> & H1 & H2 & H3 & _ & H4 & H5 & H6 & H7 & H8). apply (clean_seq _ clean_component) in H6. cleans.
Qed.
Lemma clean_words s : words s -> clean s.
Proof. induction 1 as [|n sp s H1 _ H2 _ IH]; cleans. now apply (clean_class (Ascii.eqb " ")). Qed.
Lemma clean_optval v s : optval_text v s -> clean s.
Proof. destruct 1; cleans. Qed.
Lemma clean_option o s : option_text o s -> clean s.
Proof. intros (w & w1 & w2 & v & w3 & -> & H1 & H2 & H3 & H4 & H5 & H6). apply clean_words in H2. apply clean_optval in H5. cleans. Qed.
Lemma clean_assumed n s : assumption_item_text n s -> clean s.
Proof. intros [[t H]|(w & -> & H1 & H2)]; [now apply clean_var in H|cleans]. Qed.
Lemma clean_subblock a s : subblock_text a s -> clean s.
Proof.
  intros (w & k & w1 & t & w2 & w3 & w4 & -> & H1 & H2 & H3 & H4 & H5 & H6 & H7 & H8). apply clean_assumption in H2. apply (clean_lower _ _ H3) in H2. apply (clean_commas _ clean_assumed) in H5. cleans.
Qed.
Lemma clean_special p s : special_text p s -> clean s.
Proof.
  destruct 1 as [l b s H Hb|l b s H Hb|l b s H Hb]; (eapply clean_braces; [| |exact Hb]; [reflexivity|]);
  first [now apply (clean_seq _ clean_option) in H | now apply clean_optlist in H | now apply (clean_seq _ clean_subblock) in H].
Qed.
Lemma clean_file f s : file_text fread f s -> clean s.
Proof. intros (t1 & t2 & w & -> & H1 & H2 & _ & H3). apply (clean_seq _ clean_special) in H1. apply (clean_seq _ clean_block) in H2. cleans. Qed.
End T.
