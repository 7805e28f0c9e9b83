(* Comments and layout: from the simulation to the parsing functions *)
From Verif Require Import Common Expr_Model Expr_Spec Expr_Lex SymDict_Model Gcn_Lex Gcn_Model Gcn_Spec Gcn_Basic Gcn_Sim Gcn_Layout Gcn_Closed.
Local Open Scope list_scope.
Local Open Scope parser_scope.

Lemma relayout_sym w s s' : relayout w s s' -> relayout w s' s.
Proof.
  induction 1 as [w g g' Hg Hg'|w c s s' Hc _ IH|w g g' c s s' Hg Hg' Hn Hn' Hc Hs _ IH]; [now apply relayout_end|now apply relayout_char|].
  apply relayout_gap; try assumption. intros H1 H2 [H3|H3]; symmetry; apply Hs; auto.
Qed.
Lemma same_text_sym s s' : same_text s s' -> same_text s' s.
Proof. intros (g & g' & t & t' & Hg & Hg' & E & E' & H). exists g', g, t', t. repeat split; try assumption. now apply relayout_sym. Qed.
Lemma same_text_refl_relayout s s' : relayout false s s' -> same_text s s'.
Proof. intro H. exists [], [], s, s'. repeat split; [constructor|constructor|exact H]. Qed.

Definition lay0 (s s' : chars) : Prop := exists g g' t t', gap g /\ gap g' /\ s = g ++ t /\ s' = g' ++ t' /\ lay t t'.
Lemma lay_lay0 s s' : lay s s' -> lay0 s s'.
Proof. intro H. exists [], [], s, s'. repeat split; try constructor; apply H. Qed.
Lemma lay0_skip s s' : lay0 s s' -> lay (skipc s) (skipc s').
Proof. intros (g & g' & t & t' & Hg & Hg' & -> & -> & H). rewrite !skipc_gap by assumption. now apply lay_skip. Qed.
Lemma lay0_end s s' : lay0 s s' -> (skipc s = [] <-> skipc s' = []) /\ lay0 [] [].
Proof.
  intros (g & g' & t & t' & Hg & Hg' & -> & -> & H). rewrite !skipc_gap by assumption. apply lay_end in H as [H1 H2]. split; [exact H1|now apply lay_lay0].
Qed.
Lemma codes_gap g s : gap g -> codes (g ++ s) = codes s.
Proof. intro H. rewrite <- codes_skipc, skipc_gap, codes_skipc by exact H. reflexivity. Qed.

(* a rule as a whole text *)
Definition whole {A} (p : parser A) (s : chars) : option A := match p s with POk a _ => Some a | _ => None end.
Lemma whole_layout {A} (p : parser A) : sim lay0 p p -> bal p -> (forall s a r, p s = POk a r -> r = []) ->
  forall s s', same_text s s' -> whole p s = whole p s'.
Proof.
  intros Hr Hb Hend s s' Hs. unfold whole.
  assert (G : forall s s' a r, same_text s s' -> p s = POk a r -> exists r', p s' = POk a r').
  { clear s s' Hs. intros s s' a r (g & g' & t & t' & Hg1 & Hg2 & -> & -> & Hl) E.
    pose proof (Hend _ _ _ E) as ->. destruct (Hb _ _ _ E) as (u & Eu & Hu). cbn in Eu. rewrite app_nil_r, codes_gap in Eu by exact Hg1.
    assert (L : lay0 (g ++ t) (g' ++ t')).
    { exists g, g', t, t'. do 4 (split; [assumption || reflexivity|]). split; [now exists false|now rewrite Eu]. }
    specialize (Hr _ _ L). rewrite E in Hr. destruct (p (g' ++ t')) as [b r'| | |]; try contradiction. destruct Hr as [<- _]. now exists r'. }
  destruct (p s) as [a r| | |] eqn:E.
  1: destruct (G _ _ _ _ Hs E) as (r' & ->); reflexivity.
  all: destruct (p s') as [a' r'| | |] eqn:E'; try reflexivity; destruct (G _ _ _ _ (same_text_sym _ _ Hs) E') as (r2 & E2); congruence.
Qed.

Section Whole.
Context {F : Type} (fread : chars -> F) (farith : dop -> F -> F -> result F).
Definition full {A} (p : parser A) : parser A := x <~ p ; t_end skipc >> ret x.
Lemma full_end {A} (p : parser A) s a r : full p s = POk a r -> r = [].
Proof.
  unfold full, seq, t_end. destruct (p s) as [x r'| | |]; try discriminate. destruct (skipc r'); [|discriminate]. intro H. now injection H as _ <-.
Qed.
Lemma file_end s a r : p_file skipc fread s = POk a r -> r = [].
Proof.
  unfold p_file. unfold seq at 1. destruct (many _ s) as [x r'| | |]; try discriminate. unfold seq at 1. destruct (p_top _ _ r') as [y r2| | |]; try discriminate.
  unfold seq at 1. destruct (many _ r2) as [z r3| | |]; try discriminate. unfold seq, t_end. destruct (skipc r3); [|discriminate]. intro H. now injection H as _ <-.
Qed.
Lemma sim0_file : sim lay0 (p_file skipc fread) (p_file skipc fread).
Proof. exact (sim_file lay0 lay lay_head skipc skipc skipc_len skipc_len lay_lay0 lay0_skip lay_bad lay0_end lay_words fread). Qed.
Lemma sim0_full {A} (p : parser A) : sim lay0 p p -> sim lay0 (full p) (full p).
Proof.
  intro H. unfold full. apply sim_seq; [exact H|intro]. apply sim_seq; [exact (sim_end lay0 skipc skipc lay0_end)|intro; apply sim_ret].
Qed.
Lemma sim0_equation : sim lay0 (p_equation skipc fread) (p_equation skipc fread).
Proof. exact (sim_equation lay0 lay lay_head skipc skipc skipc_len skipc_len lay_lay0 lay0_skip lay_bad fread). Qed.
Lemma sim0_block : sim lay0 (p_block skipc fread) (p_block skipc fread).
Proof. exact (sim_block lay0 lay lay_head skipc skipc skipc_len skipc_len lay_lay0 lay0_skip lay_bad fread). Qed.
Lemma bal_full {A} (p : parser A) : bal p -> bal (full p).
Proof. intro H. unfold full. apply bal_seq; [exact H|intro]. apply bal_seq; [apply bal_end|intro; apply bal_ret]. Qed.
Lemma nout_full {A} (p : parser A) : nout p -> nout (full p).
Proof. intro H. unfold full. apply nout_seq; [exact H|intro]. apply nout_seq; [apply nout_end|intro; apply nout_ret]. Qed.

Lemma gcn_whole s : parse_gcn fread farith s = match whole (p_file skipc fread) s with Some x => build_model fread farith x | None => Err (GEconError 0) end.
Proof.
  unfold parse_gcn, whole. pose proof (proj2 (r_file skipc skipc_len fread) s) as H. destruct (p_file skipc fread s); try reflexivity. congruence.
Qed.
Lemma equation_whole s : parse_equation fread s = match whole (full (p_equation skipc fread)) s with Some x => Ok x | None => Err (GEconError 0) end.
Proof.
  unfold parse_equation, whole. pose proof (nout_full _ (proj2 (r_equation skipc skipc_len fread)) s) as H. unfold full in *.
  destruct (seq _ _ s); try reflexivity. congruence.
Qed.
Lemma block_whole s : parse_block_from_text fread farith s = match whole (full (p_block skipc fread)) s with Some x => build_block fread farith x | None => Err (GEconError 0) end.
Proof.
  unfold parse_block_from_text, whole. pose proof (nout_full _ (proj2 (r_block skipc skipc_len fread)) s) as H. unfold full in *.
  destruct (seq _ _ s); try reflexivity. congruence.
Qed.
Lemma gcn_layout s s' : same_text s s' -> parse_gcn fread farith s = parse_gcn fread farith s'.
Proof. intro H. rewrite !gcn_whole. now rewrite (whole_layout _ sim0_file (bal_file fread) file_end _ _ H). Qed.
Lemma equation_layout s s' : same_text s s' -> parse_equation fread s = parse_equation fread s'.
Proof. intro H. rewrite !equation_whole. now rewrite (whole_layout _ (sim0_full _ sim0_equation) (bal_full _ (bal_equation fread)) (full_end _) _ _ H). Qed.
Lemma block_layout s s' : same_text s s' -> parse_block_from_text fread farith s = parse_block_from_text fread farith s'.
Proof. intro H. rewrite !block_whole. now rewrite (whole_layout _ (sim0_full _ sim0_block) (bal_full _ (bal_block fread)) (full_end _) _ _ H). Qed.
End Whole.

(* ---- removing comments is a change of layout ---- *)
Lemma strip_comment l g : ~ In newline_char l -> strip_in true (l ++ newline_char :: g) = newline_char :: strip_comments g.
Proof.
  induction l as [|c l IH]; intro H; [reflexivity|]. cbn [app strip_in]. replace (Ascii.eqb c newline_char) with false; [apply IH; intro; apply H; now right|].
  symmetry. apply Ascii.eqb_neq. intros ->. apply H. now left.
Qed.
Lemma strip_open l : ~ In newline_char l -> strip_in true l = [].
Proof.
  induction l as [|c l IH]; intro H; [reflexivity|]. cbn [strip_in]. replace (Ascii.eqb c newline_char) with false; [apply IH; intro; apply H; now right|].
  symmetry. apply Ascii.eqb_neq. intros ->. apply H. now left.
Qed.
Lemma strip_gap g s : gap g -> exists g', strip_comments (g ++ s) = g' ++ strip_comments s /\ gap g' /\ (g <> [] -> g' <> []) /\ (only_spaces g \/ only_spaces g' -> g = g').
Proof.
  unfold strip_comments. induction 1 as [|c g Hc Hg (g' & E & IH & Hn & Hs)|l g Hl Hg (g' & E & IH & Hn & Hs)].
  - exists []. repeat split; try constructor; auto.
  - exists (c :: g'). assert (Ascii.eqb c "#" = false) as Hh by (apply Ascii.eqb_neq; intros ->; discriminate). cbn [app strip_in]. rewrite Hh, E. repeat split.
    + now apply gap_blank.
    + intros _. discriminate.
    + intro H. f_equal. apply Hs. destruct H as [H|H]; [left|right]; intros x Hx; apply H; now right.
  - exists (newline_char :: g'). cbn [app]. rewrite <- app_assoc. cbn [app]. change (strip_in false ("#"%char :: l ++ newline_char :: g ++ s)) with (strip_in true (l ++ newline_char :: g ++ s)).
    rewrite strip_comment by exact Hl. unfold strip_comments. rewrite E. repeat split.
    + now apply gap_blank.
    + discriminate.
    + intros [H|H]; exfalso; [specialize (H "#"%char (or_introl eq_refl))|specialize (H newline_char (or_introl eq_refl))]; discriminate.
Qed.
Lemma split_text n : forall s, length s <= n ->
  (last_gap s) \/ (exists g c t, s = g ++ c :: t /\ gap g /\ visible c).
Proof.
  induction n as [|n IH]; intros s Hs; [destruct s; [left; constructor; constructor|cbn in Hs; lia]|].
  destruct s as [|c s]; [left; constructor; constructor|]. cbn in Hs. destruct (is_ws c) eqn:Ew.
  - destruct (IH s ltac:(lia)) as [H|(g & d & t & -> & Hg & Hd)].
    + left. destruct H as [g H|g l H Hl]; [constructor; now apply gap_blank|]. rewrite app_comm_cons. apply last_gap_open; [now apply gap_blank|exact Hl].
    + right. exists (c :: g), d, t. repeat split; try apply Hd. now apply gap_blank.
  - destruct (Ascii.eqb c "#") eqn:Eh.
    + apply Ascii.eqb_eq in Eh as ->. destruct (span (fun x => negb (Ascii.eqb x newline_char)) s) as [l r] eqn:E. apply span_sound in E as (-> & Hl & Hr).
      assert (Hl' : ~ In newline_char l) by (intro K; now apply (proj1 (forallb_forall _ _) Hl) in K).
      destruct r as [|d r]; [left; rewrite app_nil_r; apply (last_gap_open []); [constructor|exact Hl']|].
      specialize (Hr d r eq_refl). apply negb_false_iff, Ascii.eqb_eq in Hr as ->. rewrite app_length in Hs. cbn in Hs.
      destruct (IH r ltac:(lia)) as [H|(g & d & t & -> & Hg & Hd)].
      * left. destruct H as [g H|g l2 H Hl2]; [constructor; now apply gap_comment|].
        replace ("#"%char :: l ++ newline_char :: g ++ "#"%char :: l2) with (("#"%char :: l ++ newline_char :: g) ++ "#"%char :: l2) by (cbn; now rewrite <- app_assoc).
        apply last_gap_open; [now apply gap_comment|exact Hl2].
      * right. exists ("#"%char :: l ++ newline_char :: g), d, t. split; [cbn; now rewrite <- app_assoc|]. split; [now apply gap_comment|exact Hd].
    + right. exists [], c, s. repeat split; [constructor|exact Ew|]. now apply Ascii.eqb_neq.
Qed.
Lemma strip_relayout n : forall s w, length s <= n -> relayout w s (strip_comments s).
Proof.
  induction n as [|n IH]; intros s w Hs; [destruct s; [apply relayout_end; constructor; constructor|cbn in Hs; lia]|].
  destruct (split_text (length s) s (le_n _)) as [H|(g & c & t & -> & Hg & Hc)].
  - apply relayout_end; [exact H|]. destruct H as [g H|g l H Hl].
    + destruct (strip_gap g [] H) as (g' & E & Hg' & _). rewrite app_nil_r in E. rewrite E. cbn. rewrite app_nil_r. now constructor.
    + destruct (strip_gap g ("#"%char :: l) H) as (g' & E & Hg' & _). rewrite E. unfold strip_comments. cbn. rewrite strip_open by exact Hl. rewrite app_nil_r. now constructor.
  - destruct (strip_gap g (c :: t) Hg) as (g' & E & Hg' & Hn & Hsp). rewrite E. rewrite app_length in Hs. cbn in Hs.
    assert (Ec : strip_comments (c :: t) = c :: strip_comments t).
    { unfold strip_comments. cbn. destruct Hc as [_ Hc]. apply Ascii.eqb_neq in Hc. now rewrite Hc. }
    rewrite Ec. destruct g as [|d g].
    + assert (g' = []) as -> by (symmetry; apply Hsp; left; intros ? []). apply relayout_char; [exact Hc|]. apply IH. lia.
    + apply relayout_gap; try assumption; [discriminate|apply Hn; discriminate|intros; now apply Hsp|]. apply IH. cbn in Hs. lia.
Qed.
Lemma strip_same s : same_text s (strip_comments s).
Proof. apply same_text_refl_relayout, (strip_relayout (length s)). lia. Qed.
