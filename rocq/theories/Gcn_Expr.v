(* Without comments the expression rule of the file grammar is the expression parser of Expr_Model, and its completeness carries over. *)
From Verif Require Import Common Expr_Model Expr_Spec Expr_Lex Expr_Proofs SymDict_Model Gcn_Lex Gcn_Model Gcn_Basic Gcn_Sim.
Local Open Scope list_scope.
Local Open Scope parser_scope.

Definition ofo {A} (o : option (A * chars)) : pres A := match o with Some (a, r) => POk a r | None => PFail end.
Lemma lit_eq w s : t_lit skip w s = match lit w s with Some r => POk tt r | None => PFail end.
Proof. unfold t_lit, of_opt, lit. destruct (eat (str w) (skip s)); reflexivity. Qed.
Lemma ident_eq s : t_ident skip s = ofo (p_ident s). Proof. reflexivity. Qed.
Lemma number_eq s : t_number skip s = ofo (p_number s).
Proof. unfold t_number, of_opt, ofo, p_number, raw_number. reflexivity. Qed.
Lemma int_eq s : t_int skip s = ofo (p_int s).
Proof. reflexivity. Qed.
Lemma tix_eq s : p_tix skip s = ofo (p_time_index s).
Proof.
  unfold p_tix, p_time_index, raw_tix. unfold seq at 1. rewrite lit_eq. destruct (lit "[" s) as [r|]; [|reflexivity]. unfold p_tix_content. unfold alt, seq.
  rewrite int_eq. destruct (p_int r) as [[z r']|]; cbn [ofo].
  - unfold ret. rewrite lit_eq. destruct (lit "]" r'); reflexivity.
  - unfold t_kw, of_opt, p_kw. change (lit "ss" r) with (eat (str "ss") (skip r)). destruct (eat (str "ss") (skip r)) as [r'|] eqn:E.
    + apply eat_sound in E. unfold kw_end. destruct r' as [|c r'].
      * unfold ret. rewrite lit_eq. destruct (lit "]" []); reflexivity.
      * destruct (is_idc c) eqn:Ec; cbn [orb negb].
        { unfold ret. rewrite lit_eq. destruct (lit "]" r); reflexivity. }
        destruct (Ascii.eqb c "$") eqn:Ed; cbn [negb]; unfold ret; rewrite lit_eq; [|destruct (lit "]" (c :: r')); reflexivity].
        apply Ascii.eqb_eq in Ed as ->. unfold lit. rewrite E. reflexivity.
    + unfold ret. rewrite lit_eq. destruct (lit "]" r); reflexivity.
Qed.
Section Expr.
Context {F : Type} (fread : chars -> F).
Lemma op_eq l s : g_op skip l s = ofo (p_op l s).
Proof.
  destruct l; unfold g_op, p_op, alt, seq, ret; rewrite ?lit_eq; try reflexivity;
    [destruct (lit "+" s); [reflexivity|]; destruct (lit "-" s); reflexivity
    |destruct (lit "*" s); [reflexivity|]; destruct (lit "/" s); reflexivity
    |destruct (lit "**" s); [reflexivity|]; destruct (lit "^" s); reflexivity].
Qed.
Lemma variable_eq s : g_variable (F := F) skip s = ofo (p_variable s).
Proof.
  unfold g_variable, p_variable, seq. rewrite ident_eq. destruct (p_ident s) as [[n r]|]; [|reflexivity]. cbn [ofo]. rewrite tix_eq.
  destruct (p_time_index r) as [[t r']|]; reflexivity.
Qed.
Lemma parameter_eq s : g_parameter (F := F) skip s = ofo (p_parameter s).
Proof.
  unfold g_parameter, p_parameter, seq, nota, alt. rewrite ident_eq. destruct (p_ident s) as [[n r]|]; [|reflexivity]. cbn [ofo]. rewrite !lit_eq.
  destruct (lit "[" r); [reflexivity|]. destruct (lit "(" r); reflexivity.
Qed.
Lemma bad_eq s : (t_ident skip >> t_lit skip "[" >> t_bad_index skip >> @fatal (expr F)) s = if p_invalid_time_index s then PFatal else PFail.
Proof.
  unfold seq, p_invalid_time_index. rewrite ident_eq. destruct (p_ident s) as [[n r]|]; [|reflexivity]. cbn [ofo]. rewrite lit_eq. unfold lit.
  destruct (eat (str "[") (skip r)) as [r'|]; [|reflexivity]. unfold t_bad_index, raw_bad_index.
  destruct (span (fun c => negb (Ascii.eqb c "]")) (skip r')) as [[|a b] [|c d]]; reflexivity.
Qed.
Lemma expr_eq_all f :
  (forall l s, g_expr skip fread f l s = p_expr fread f l s) /\ (forall l a s, g_loop skip fread f l a s = p_loop fread f l a s) /\
  (forall s, g_args skip fread f s = p_args fread f s).
Proof.
  induction f as [|f (IHe & IHl & IHa)]; [repeat split|]. split; [|split].
  - intros l s. rewrite (g_expr_S skip fread f l), p_expr_S. destruct l.
    1,2,3: unfold seq; rewrite IHe; destruct (p_expr fread f _ s); try reflexivity; apply IHl.
    + unfold alt, seq. rewrite lit_eq. destruct (lit "-" s) as [r|]; [|apply IHe]. rewrite IHe. destruct (p_expr fread f LUn r); try reflexivity. apply IHe.
    + unfold g_atom. unfold alt at 1 2 3 4 5 6 7. rewrite variable_eq, bad_eq, parameter_eq. unfold seq, cut, peek, ret, p_expectation_open, p_func_open. rewrite !lit_eq, !number_eq, !ident_eq.
      destruct (lit "E[][" s) as [r|].
      { rewrite IHe. destruct (p_expr fread f LAdd r) as [a r'| | |]; try reflexivity. rewrite lit_eq. destruct (lit "]" r'); reflexivity. }
      destruct (p_ident s) as [[n r]|] eqn:Ei; cbn [ofo].
      * rewrite lit_eq. destruct (lit "(" r) as [r'|] eqn:El.
        { rewrite lit_eq. destruct (lit ")" r'); [reflexivity|]. rewrite IHa. destruct (p_args fread f r') as [l r2| | |]; try reflexivity. rewrite lit_eq. destruct (lit ")" r2); reflexivity. }
        destruct (p_variable s) as [[v r']|]; [reflexivity|]. cbn [ofo]. destruct (p_invalid_time_index s); [reflexivity|].
        destruct (p_number s) as [[t r']|]; [reflexivity|]. cbn [ofo]. destruct (p_parameter s) as [[v r']|]; [reflexivity|]. cbn [ofo].
        destruct (lit "(" s) as [r'|]; [|reflexivity]. rewrite IHe. destruct (p_expr fread f LAdd r') as [a r2| | |]; try reflexivity. rewrite lit_eq. destruct (lit ")" r2); reflexivity.
      * destruct (p_variable s) as [[v r']|]; [reflexivity|]. cbn [ofo]. destruct (p_invalid_time_index s); [reflexivity|].
        destruct (p_number s) as [[t r']|]; [reflexivity|]. cbn [ofo]. destruct (p_parameter s) as [[v r']|]; [reflexivity|]. cbn [ofo].
        destruct (lit "(" s) as [r'|]; [|reflexivity]. rewrite IHe. destruct (p_expr fread f LAdd r') as [a r2| | |]; try reflexivity. rewrite lit_eq. destruct (lit ")" r2); reflexivity.
  - intros l a s. rewrite (g_loop_S skip fread f l a), p_loop_S. unfold seq, opt. rewrite op_eq. destruct (p_op l s) as [[o r]|]; cbn [ofo]; [|reflexivity].
    rewrite IHe. destruct (p_expr fread f _ r); try reflexivity. apply IHl.
  - intros s. rewrite (g_args_S skip fread f), p_args_S. unfold seq, opt. rewrite IHe. destruct (p_expr fread f LAdd s) as [a r| | |]; try reflexivity. rewrite lit_eq.
    destruct (lit "," r) as [r'|]; [|reflexivity]. rewrite IHa. destruct (p_args fread f r'); reflexivity.
Qed.
Lemma ex_eq s : p_ex skip fread s = p_expr fread (enough_fuel s) LAdd s. Proof. apply expr_eq_all. Qed.
(* what may follow an expression *)
Lemma ex_ev s x : ev fread LAdd s x -> p_ex skip fread s = x.
Proof.
  intros [Hx (f0 & H0)]. rewrite ex_eq.
  assert (Hn : p_expr fread (enough_fuel s) LAdd s <> POut) by (apply (proj1 (no_out fread _)); unfold enough_fuel; cbn [rank]; lia).
  rewrite <- (fuel_mono fread (enough_fuel s) (f0 + enough_fuel s) LAdd s (Nat.le_add_l _ _) Hn). apply H0. lia.
Qed.
Lemma ex_complete e t rest : Text fread LAdd e t -> follow_ok LAdd rest = true -> p_ex skip fread (t ++ rest) = POk e rest.
Proof. intros Ht Hf. apply ex_ev, goal_ev; [|exact Hf]. apply (proj1 (complete_all fread) _ _ _ Ht). Qed.
Lemma ex_complete_loop e t rest : Text fread LAdd e t -> follow_ok LMul rest = true -> ev_loop fread LAdd e rest (POk e rest) -> p_ex skip fread (t ++ rest) = POk e rest.
Proof. intros Ht Hf Hl. apply ex_ev. apply (proj1 (complete_all fread) _ _ _ Ht); assumption. Qed.
(* an arrow ends an expression although it begins with a minus sign *)
Lemma arrow_follow e w r : ws w -> follow_ok LMul (w ++ str "->" ++ r) = true /\ ev_loop fread LAdd e (w ++ str "->" ++ r) (POk e (w ++ str "->" ++ r)).
Proof.
  intro Hw. split; [unfold follow_ok; rewrite skip_ws by exact Hw; reflexivity|]. split; [discriminate|]. exists 10. intros f Hf.
  do 10 (destruct f as [|f]; [lia|]). rewrite p_loop_S. unfold p_op, lit. rewrite skip_ws by exact Hw. cbn [str list_ascii_of_string app skip]. cbn [eat Ascii.eqb Bool.eqb].
  cbn. reflexivity.
Qed.
Lemma ex_sound s e r : p_ex skip fread s = POk e r -> exists t, s = t ++ r /\ Text fread LAdd e t.
Proof. rewrite ex_eq. intro H. apply (proj1 (sound_all fread _)) in H as (t & -> & Ht). now exists t. Qed.
End Expr.

(* ---- texts without '#' ---- *)
Definition nohash (s : chars) : bool := forallb (fun c => negb (Ascii.eqb c "#")) s.
Definition same (s s' : chars) : Prop := s = s' /\ nohash s = true.
Lemma skipc_skip s : nohash s = true -> skipc s = skip s.
Proof.
  unfold skipc. induction s as [|c s IH]; intro H; [reflexivity|]. cbn in H. apply andb_true_iff in H as [H1 H2]. apply negb_true_iff in H1. cbn [skipc_in skip].
  destruct (is_ws c); [now apply IH|]. now rewrite H1.
Qed.
Lemma skip_nohash s : nohash s = true -> nohash (skip s) = true.
Proof. induction s as [|c s IH]; intro H; [reflexivity|]. cbn [skip]. destruct (is_ws c); [|exact H]. cbn in H. apply andb_true_iff in H as [_ H]. now apply IH. Qed.
Lemma same_head s s' : same s s' -> (exists c t t', s = c :: t /\ s' = c :: t' /\ code c = true /\ same t t') \/ (nocode s /\ nocode s').
Proof.
  intros [<- H]. destruct s as [|c s]; [right; split; exact I|]. cbn in H. apply andb_true_iff in H as [H1 H2]. destruct (code c) eqn:E; [left|right; split; exact E].
  exists c, s, s. repeat split; auto.
Qed.
Lemma same_skip s s' : same s s' -> same (skipc s) (skip s').
Proof. intros [<- H]. rewrite skipc_skip by exact H. split; [reflexivity|now apply skip_nohash]. Qed.
Lemma same_bad s s' : same ("["%char :: s) ("["%char :: s') -> raw_bad_index (skipc s) = raw_bad_index (skip s').
Proof. intros [E H]. injection E as <-. now rewrite skipc_skip. Qed.
Lemma same_end s s' : same s s' -> (skipc s = [] <-> skip s' = []) /\ same [] [].
Proof. intros [<- H]. rewrite skipc_skip by exact H. split; [tauto|split; reflexivity]. Qed.
Lemma same_words c s s' : is_idc c = true -> same (c :: s) (c :: s') ->
  let '(sp, r) := span (Ascii.eqb " ") s in let '(sp', r') := span (Ascii.eqb " ") s' in
  (sp = sp' /\ sp <> [] /\ same r r') \/ ((sp = [] \/ raw_ident r = None) /\ (sp' = [] \/ raw_ident r' = None)).
Proof.
  intros _ [E H]. injection E as <-. destruct (span (Ascii.eqb " ") s) as [sp r] eqn:E. apply span_sound in E as (-> & _ & _). destruct sp as [|x sp]; [right; auto|].
  left. split; [reflexivity|]. split; [discriminate|]. split; [reflexivity|]. cbn in H. apply andb_true_iff in H as [_ H]. unfold nohash in H. rewrite forallb_app in H.
  apply andb_true_iff in H as [_ H]. exact (proj2 (proj1 (andb_true_iff _ _) H)).
Qed.
Section NoHash.
Context {F : Type} (fread : chars -> F).
Lemma file_nohash s : nohash s = true -> p_file skipc fread s = p_file skip fread s.
Proof.
  intro H. pose proof (sim_file same same same_head skipc skip skipc_len skip_len (fun _ _ h => h) same_skip same_bad same_end same_words fread s s (conj eq_refl H)) as K.
  destruct (p_file skipc fread s), (p_file skip fread s); try contradiction; try reflexivity. destruct K as [-> [-> _]]. reflexivity.
Qed.
Lemma equation_nohash s : nohash s = true -> p_equation skipc fread s = p_equation skip fread s.
Proof.
  intro H. pose proof (sim_equation same same same_head skipc skip skipc_len skip_len (fun _ _ h => h) same_skip same_bad fread s s (conj eq_refl H)) as K.
  destruct (p_equation skipc fread s), (p_equation skip fread s); try contradiction; try reflexivity. destruct K as [-> [-> _]]. reflexivity.
Qed.
Lemma block_nohash s : nohash s = true -> p_block skipc fread s = p_block skip fread s.
Proof.
  intro H. pose proof (sim_block same same same_head skipc skip skipc_len skip_len (fun _ _ h => h) same_skip same_bad fread s s (conj eq_refl H)) as K.
  destruct (p_block skipc fread s), (p_block skip fread s); try contradiction; try reflexivity. destruct K as [-> [-> _]]. reflexivity.
Qed.
Lemma ex_nohash s : nohash s = true -> p_ex skipc fread s = p_ex skip fread s.
Proof.
  intro H. pose proof (sim_ex same same same_head skipc skip skipc_len skip_len (fun _ _ h => h) same_skip same_bad fread s s (conj eq_refl H)) as K.
  destruct (p_ex skipc fread s), (p_ex skip fread s); try contradiction; try reflexivity. destruct K as [-> [-> _]]. reflexivity.
Qed.
End NoHash.
