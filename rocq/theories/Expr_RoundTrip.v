(* The print/parse round trip: exact characterisation, and value preservation. *)
From Verif Require Import Common Expr_Model Expr_Spec Expr_Lex Expr_Proofs.
Local Open Scope list_scope.

Section ExprInd.
Context {F : Type} (P : expr F -> Prop).
Hypothesis Hnum : forall v, P (Num v).
Hypothesis Hpar : forall n, P (Par n).
Hypothesis Hvar : forall n t, P (Var n t).
Hypothesis Hneg : forall e, P e -> P (Neg e).
Hypothesis Hbin : forall o a b, P a -> P b -> P (Bin o a b).
Hypothesis Hfun : forall f args, Forall P args -> P (Fun f args).
Hypothesis Hexp : forall e, P e -> P (Expec e).
Fixpoint expr_ind' (e : expr F) : P e :=
  match e with
  | Num v => Hnum v | Par n => Hpar n | Var n t => Hvar n t
  | Neg a => Hneg a (expr_ind' a)
  | Bin o a b => Hbin o a b (expr_ind' a) (expr_ind' b)
  | Fun f args => Hfun f args ((fix all (l : list (expr F)) : Forall P l :=
        match l with [] => Forall_nil P | x :: l' => Forall_cons x (expr_ind' x) (all l') end) args)
  | Expec a => Hexp a (expr_ind' a)
  end.
End ExprInd.

Section RT.
Context {F : Type} (fprint : F -> chars) (fread : chars -> F).
Notation Text := (Text fread). Notation Texts := (Texts fread).
Notation pr := (print_expression fprint).

Lemma ws_app a b : ws a -> ws b -> ws (a ++ b).
Proof. unfold ws. rewrite forallb_app. intros -> ->. reflexivity. Qed.

Lemma lead_ws : (forall l e s, Text l e s -> forall v, ws v -> Text l e (v ++ s)) /\
  (forall es s, Texts es s -> forall v, ws v -> Texts es (v ++ s)).
Proof.
  apply Text_Texts_ind; intros; rewrite ?app_assoc.
  - apply T_num; [apply ws_app|]; assumption.
  - apply T_par; [apply ws_app|]; assumption.
  - rewrite <- ?app_assoc. rewrite (app_assoc v). apply T_var; try assumption. apply ws_app; assumption.
  - rewrite <- ?app_assoc. rewrite (app_assoc v). apply T_fun; try assumption. apply ws_app; assumption.
  - rewrite <- ?app_assoc. rewrite (app_assoc v). apply T_expec; try assumption. apply ws_app; assumption.
  - rewrite <- ?app_assoc. rewrite (app_assoc v). apply T_paren; try assumption. apply ws_app; assumption.
  - rewrite <- ?app_assoc. rewrite (app_assoc v). apply T_neg; try assumption. apply ws_app; assumption.
  - rewrite <- ?app_assoc. rewrite (app_assoc v). apply T_bin; auto.
  - apply T_up; auto.
  - apply Ts_one; auto.
  - rewrite <- ?app_assoc. rewrite (app_assoc v). apply Ts_cons; auto.
Qed.

Lemma text_weaken l l' e s : rank l <= rank l' -> Text l e s -> Text l' e s.
Proof.
  intros Hr H.
  assert (G : forall n l', rank l' = rank l + n -> Text l' e s).
  { intro n. induction n as [|n IH]; intros l0 E.
    - assert (l0 = l) as -> by (destruct l0, l; cbn in E; try lia; reflexivity). exact H.
    - apply T_up; [intros ->; cbn in E; lia|]. apply IH. destruct l0; cbn [rank tighter] in *; lia. }
  apply (G (rank l' - rank l)). lia.
Qed.

(* The level at which a printed expression can be read back. *)
Definition plev (e : expr F) (p : nat) : lvl :=
  match e with
  | Bin o _ _ => if Nat.ltb (prec o) p then LAtom else op_lvl o
  | _ => LUn
  end.
Definition lv (p : nat) : lvl := match p with 0 | 1 => LAdd | 2 => LMul | 3 => LPow | _ => LUn end.
Lemma plev_lv e p : p <= 4 -> rank (plev e p) <= rank (lv p).
Proof.
  intro Hp. assert (p = 0 \/ p = 1 \/ p = 2 \/ p = 3 \/ p = 4) as Hc by lia.
  destruct e as [| | | |[] ? ?| |]; destruct Hc as [->|[->|[->|[->| ->]]]]; cbn; lia.
Qed.

Lemma op_str_text o : op_text o (op_str o).
Proof. destruct o; constructor. Qed.
Lemma op_str_one o a b l1 s1 s2 : Text (left_lvl o) a s1 -> Text (right_lvl o) b s2 -> l1 = op_lvl o ->
  Text l1 (Bin o a b) (s1 ++ str " " ++ op_str o ++ str " " ++ s2).
Proof.
  intros Ha Hb ->. apply T_bin; [exact Ha|reflexivity|apply op_str_text|]. apply (proj1 lead_ws); [exact Hb|reflexivity].
Qed.

Lemma tix_str_text t : exists ti, tix_str t = str "[" ++ ti ++ str "]" /\ tix_text t ti.
Proof.
  destruct t as [z|].
  - cbn [tix_str]. destruct (Z.eqb_spec z 0) as [->|Hz].
    + exists []. split; [reflexivity|]. apply (tix_now []). reflexivity.
    + destruct (Z.ltb_spec 0 z).
      * exists (dec (Z.to_N z)). split; [reflexivity|].
        replace (TI z) with (TI (Z.of_N (Z.to_N z))) by (f_equal; lia).
        rewrite <- (app_nil_r (dec (Z.to_N z))). change (dec (Z.to_N z) ++ []) with ([] ++ dec (Z.to_N z) ++ []).
        apply tix_nonneg; try reflexivity; [|apply undec_dec].
        split; [apply dec_nonempty|apply dec_digits].
      * exists (str "-" ++ dec (Z.abs_N z)). split; [reflexivity|].
        replace (TI z) with (TI (- Z.of_N (Z.abs_N z))) by (f_equal; lia).
        replace (str "-" ++ dec (Z.abs_N z)) with ([] ++ "-"%char :: dec (Z.abs_N z) ++ []) by (rewrite app_nil_r; reflexivity).
        apply tix_neg; try reflexivity; [|apply undec_dec].
        split; [apply dec_nonempty|apply dec_digits].
  - exists (str "ss"). split; [reflexivity|]. apply (tix_ss [] []); reflexivity.
Qed.

Lemma atom_un e s : Text LAtom e s -> Text LUn e s.
Proof. apply text_weaken. cbn. lia. Qed.

Fixpoint wf_list (l : list (expr F)) : Prop := match l with [] => True | x :: l' => wf fprint fread x /\ wf_list l' end.
Lemma wf_fun f args : wf fprint fread (Fun f args) <-> ident f /\ args <> [] /\ wf_list args.
Proof.
  cbn [wf]. assert (forall l, (fix all (l : list (expr F)) : Prop := match l with [] => True | x :: l' => wf fprint fread x /\ all l' end) l <-> wf_list l) as H.
  { induction l as [|x l IH]; cbn; [tauto|]. rewrite IH. tauto. }
  rewrite H. tauto.
Qed.
Definition safe_list (l : list (expr F)) : bool := forallb paren_safe l.
Lemma safe_fun f args : paren_safe (Fun f args) = safe_list args.
Proof. cbn [paren_safe]. induction args as [|x l IH]; cbn; [reflexivity|]. rewrite IH. reflexivity. Qed.
Definition vsafe_list (l : list (expr F)) : bool := forallb value_safe l.
Lemma vsafe_fun f args : value_safe (Fun f args) = vsafe_list args.
Proof. cbn [value_safe]. induction args as [|x l IH]; cbn; [reflexivity|]. rewrite IH. reflexivity. Qed.

Lemma print_fun f args p : pr (Fun f args) p = f ++ str "(" ++ join (str ", ") (map (fun a => pr a 0) args) ++ str ")".
Proof. reflexivity. Qed.

(* Printing a binary node, with the operand precedences spelled out. *)
Definition rprec (o : bop) : nat := match o with POW => 2 | _ => prec o end.
Lemma print_bin o a b p : pr (Bin o a b) p =
  let res := pr a (prec o) ++ str " " ++ op_str o ++ str " " ++ pr b (rprec o) in
  if Nat.ltb (prec o) p then str "(" ++ res ++ str ")" else res.
Proof. destruct o; reflexivity. Qed.

Lemma print_var n t p : pr (Var n t) p = n ++ tix_str t. Proof. reflexivity. Qed.
Lemma var_text n t : ident n -> Text LUn (Var n t) (n ++ tix_str t).
Proof.
  intro Hn. destruct (tix_str_text t) as (ti & E & Ht). rewrite E. apply atom_un.
  apply (T_var fread [] n [] t ti); (assumption || reflexivity).
Qed.
Lemma paren_text e s : Text LAdd e s -> Text LAtom e (str "(" ++ s ++ str ")").
Proof. intro H. apply (T_paren fread [] e s []); (assumption || reflexivity). Qed.

Lemma op_rank_add o : rank (op_lvl o) <= 4. Proof. destruct o; cbn; lia. Qed.

Lemma right_rank o e : match o with ADD | SUB => is_addsub e = false | MUL | DIV => is_muldiv e = false | POW => is_muldiv e = false end ->
  rank (plev e (rprec o)) <= rank (right_lvl o).
Proof. destruct o, e as [| | | |[] ? ?| |]; cbn; intro H; try discriminate H; lia. Qed.
Lemma left_rank o e : match o with POW => is_pow e = false | _ => True end -> rank (plev e (prec o)) <= rank (left_lvl o).
Proof. destruct o, e as [| | | |[] ? ?| |]; cbn; intro H; try discriminate H; lia. Qed.

Lemma safe_text e : forall p, wf fprint fread e -> paren_safe e = true -> Text (plev e p) e (pr e p).
Proof.
  induction e as [v|n|n t|a IH|o a b IHa IHb|f args IH|a IH] using expr_ind'; intros p Hw Hs.
  - destruct Hw as [Hl Hr]. cbn [print_expression plev]. apply atom_un. rewrite <- Hr at 1.
    apply (T_num fread []); [reflexivity|exact Hl].
  - apply atom_un. apply (T_par fread []); [reflexivity|exact Hw].
  - apply var_text. exact Hw.
  - cbn [print_expression plev]. apply (T_neg fread []); [reflexivity|].
    eapply text_weaken; [|apply IH; assumption]. apply (plev_lv a 4). lia.
  - rewrite print_bin. destruct Hw as [Hwa Hwb]. cbn [paren_safe] in Hs.
    apply andb_true_iff in Hs as [Hs Hsb]. apply andb_true_iff in Hs as [Ho Hsa].
    assert (HT : Text (op_lvl o) (Bin o a b) (pr a (prec o) ++ str " " ++ op_str o ++ str " " ++ pr b (rprec o))).
    { apply op_str_one; [| |reflexivity].
      - eapply text_weaken; [|apply IHa; assumption]. apply left_rank.
        destruct o; auto. apply andb_true_iff in Ho as [Ho _]. apply negb_true_iff, Ho.
      - eapply text_weaken; [|apply IHb; assumption]. apply right_rank.
        destruct o; try (apply negb_true_iff, Ho). apply andb_true_iff in Ho as [_ Ho]. apply negb_true_iff, Ho. }
    cbn [plev]. cbv zeta. destruct (Nat.ltb (prec o) p); [|exact HT].
    apply paren_text. eapply text_weaken; [|exact HT]. apply op_rank_add.
  - rewrite print_fun. apply wf_fun in Hw as (Hf & Hne & Hwl). rewrite safe_fun in Hs. cbn [plev]. apply atom_un.
    apply (T_fun fread [] f [] args _ []); try assumption; try reflexivity.
    clear p Hf f. induction args as [|x args IHl]; [congruence|]. inversion IH as [|? ? Hx Hrest]; subst.
    destruct Hwl as [Hwx Hwl]. cbn in Hs. apply andb_true_iff in Hs as [Hsx Hs].
    assert (HT : Text LAdd x (pr x 0)).
    { eapply text_weaken; [|apply Hx; assumption]. apply (plev_lv x 0). lia. }
    destruct args as [|y args]; [apply Ts_one; exact HT|].
    change (join (str ", ") (map (fun a => pr a 0) (x :: y :: args)))
      with (pr x 0 ++ [] ++ str "," ++ str " " ++ join (str ", ") (map (fun a => pr a 0) (y :: args))).
    apply Ts_cons; [exact HT|reflexivity|]. apply (proj2 lead_ws); [|reflexivity].
    apply IHl; auto. discriminate.
  - cbn [print_expression plev]. apply atom_un. apply (T_expec fread [] a _ []); try reflexivity.
    eapply text_weaken; [|apply IH; assumption]. apply (plev_lv a 0). lia.
Qed.

Lemma roundtrip e : wf fprint fread e -> paren_safe e = true -> parse_expression fread (pr e 0) = Ok e.
Proof.
  intros Hw Hs. rewrite <- (app_nil_r (pr e 0)). apply parse_complete; [|reflexivity].
  eapply text_weaken; [|apply safe_text; assumption]. apply (plev_lv e 0). lia.
Qed.

(* ---- counting parentheses: a text of e needs at least [req e l] of them ---- *)
Definition cnt (s : chars) : nat := length (filter (Ascii.eqb "(") s).
Lemma cnt_app a b : cnt (a ++ b) = cnt a + cnt b.
Proof. unfold cnt. rewrite filter_app, app_length. reflexivity. Qed.
Fixpoint req (e : expr F) (l : lvl) : nat :=
  match e with
  | Num _ | Par _ | Var _ _ => 0
  | Neg a => (match l with LAtom => 1 | _ => 0 end) + req a LUn
  | Bin o a b => (if Nat.leb (rank (op_lvl o)) (rank l) then 0 else 1) + req a (left_lvl o) + req b (right_lvl o)
  | Fun _ args => 1 + (fix sum (l : list (expr F)) := match l with [] => 0 | x :: l' => req x LAdd + sum l' end) args
  | Expec a => req a LAdd
  end.
Fixpoint req_list (l : list (expr F)) : nat := match l with [] => 0 | x :: l' => req x LAdd + req_list l' end.
Lemma req_fun f args l : req (Fun f args) l = 1 + req_list args.
Proof. reflexivity. Qed.
Lemma req_mono e l l' : rank l <= rank l' -> req e l' <= req e l.
Proof.
  intro H. destruct e as [v|n|n t|a|o a b|f args|a]; cbn [req]; try apply Nat.le_refl.
  - destruct l, l'; cbn in *; lia.
  - destruct (Nat.leb_spec (rank (op_lvl o)) (rank l)), (Nat.leb_spec (rank (op_lvl o)) (rank l')); lia.
Qed.
Lemma req_paren e l l' : req e l <= S (req e l').
Proof.
  destruct e as [v|n|n t|a|o a b|f args|a]; cbn [req]; try (apply Nat.le_succ_diag_r).
  - destruct l, l'; lia.
  - destruct (Nat.leb (rank (op_lvl o)) (rank l)), (Nat.leb (rank (op_lvl o)) (rank l')); lia.
Qed.
Lemma text_needs : (forall l e s, Text l e s -> req e l <= cnt s) /\ (forall es s, Texts es s -> req_list es <= cnt s).
Proof.
  apply Text_Texts_ind; intros; rewrite ?cnt_app.
  - cbn. lia.
  - cbn. lia.
  - cbn. lia.
  - rewrite req_fun. assert (cnt (str "(") = 1) by reflexivity. lia.
  - cbn [req]. lia.
  - assert (cnt (str "(") = 1) by reflexivity. pose proof (req_paren e LAtom LAdd). lia.
  - cbn [req]. lia.
  - cbn [req]. rewrite Nat.leb_refl. lia.
  - match goal with |- req ?e ?l <= _ => pose proof (req_mono e (tighter l) l ltac:(destruct l; cbn; lia)) end. lia.
  - cbn. lia.
  - cbn [req_list]. lia.
Qed.

Lemma cnt_none (f : ascii -> bool) s : f "("%char = false -> forallb f s = true -> cnt s = 0.
Proof.
  intros Hf H. induction s as [|c s IH]; [reflexivity|]. cbn in H. apply andb_true_iff in H as [Hc H].
  change (c :: s) with ([c] ++ s). rewrite cnt_app, IH by exact H. unfold cnt. cbn [filter].
  destruct (Ascii.eqb_spec "(" c) as [<-|]; [congruence|reflexivity].
Qed.
Lemma cnt_ident n : ident n -> cnt n = 0.
Proof.
  destruct n as [|c r]; [contradiction|]. intros [Hc Hr]. apply (cnt_none is_idc); [reflexivity|]. cbn. rewrite (id0_idc _ Hc), Hr. reflexivity.
Qed.
Lemma cnt_digits d : digits d -> cnt d = 0.
Proof. apply cnt_none. reflexivity. Qed.
Lemma cnt_numlit t : numlit t -> cnt t = 0.
Proof.
  intros (m & e & -> & Hm & He). rewrite cnt_app.
  assert (cnt m = 0) as ->.
  { destruct Hm as [d [_ H]|d1 d2 [_ H1] H2|d [_ H]].
    - apply cnt_digits, H.
    - change ("."%char :: d2) with (["."%char] ++ d2). rewrite !cnt_app, (cnt_digits _ H1), (cnt_digits _ H2). reflexivity.
    - change ("."%char :: d) with (["."%char] ++ d). rewrite cnt_app, (cnt_digits _ H). reflexivity. }
  destruct He as [|e sg d He Hsg [_ Hd]]; [reflexivity|].
  change (e :: sg ++ d) with ([e] ++ sg ++ d). rewrite !cnt_app, (cnt_digits _ Hd).
  destruct He as [->| ->], Hsg as [->|[->| ->]]; reflexivity.
Qed.
Lemma cnt_dec n : cnt (dec n) = 0. Proof. apply cnt_digits, dec_digits. Qed.
Lemma cnt_tix t : cnt (tix_str t) = 0.
Proof.
  destruct t as [z|]; [|reflexivity]. unfold tix_str. destruct (Z.eqb z 0); [reflexivity|].
  destruct (Z.ltb 0 z); rewrite !cnt_app, cnt_dec; reflexivity.
Qed.
Lemma req_bin_add o a b l : rank (op_lvl o) <= rank l ->
  req (Bin o a b) l = req a (left_lvl o) + req b (right_lvl o).
Proof. intro H. cbn [req]. apply Nat.leb_le in H. rewrite H. reflexivity. Qed.

Lemma right_req o b : req b (lv (rprec o)) <= req b (right_lvl o).
Proof. apply req_mono. destruct o; cbn; lia. Qed.
Lemma left_req o a : req a (lv (prec o)) <= req a (left_lvl o).
Proof. apply req_mono. destruct o; cbn; lia. Qed.

Lemma print_cnt e : wf fprint fread e -> forall p, p <= 4 ->
  cnt (pr e p) <= req e (lv p) /\ (paren_safe e = false -> cnt (pr e p) < req e (lv p)).
Proof.
  induction e as [v|n|n t|a IH|o a b IHa IHb|f args IH|a IH] using expr_ind'; intros Hw p Hp.
  - destruct Hw as [Hl _]. cbn [print_expression req paren_safe]. rewrite cnt_numlit by exact Hl. split; [lia|discriminate].
  - cbn [print_expression req paren_safe]. rewrite cnt_ident by exact Hw. split; [lia|discriminate].
  - cbn [print_expression req paren_safe]. rewrite cnt_app, cnt_tix, cnt_ident by exact Hw. split; [lia|discriminate].
  - cbn [print_expression req paren_safe]. rewrite cnt_app. change (cnt (str "-")) with 0.
    destruct (IH Hw 4 ltac:(lia)) as [H1 H2]. cbn [lv] in H1, H2. split; [lia|]. intro H. specialize (H2 H). lia.
  - rewrite print_bin. destruct Hw as [Hwa Hwb].
    destruct (IHa Hwa (prec o) ltac:(destruct o; cbn; lia)) as [A1 A2].
    destruct (IHb Hwb (rprec o) ltac:(destruct o; cbn; lia)) as [B1 B2].
    pose proof (left_req o a) as LA. pose proof (right_req o b) as RB.
    assert (Hcnt : cnt (pr a (prec o) ++ str " " ++ op_str o ++ str " " ++ pr b (rprec o)) = cnt (pr a (prec o)) + cnt (pr b (rprec o))).
    { rewrite !cnt_app. change (cnt (str " ")) with 0. assert (cnt (op_str o) = 0) as -> by (destruct o; reflexivity). lia. }
    assert (Hstrict : paren_safe (Bin o a b) = false ->
        cnt (pr a (prec o)) + cnt (pr b (rprec o)) < req a (left_lvl o) + req b (right_lvl o)).
    { cbn [paren_safe]. intro H. apply andb_false_iff in H as [H|H]; [|specialize (B2 H); lia].
      apply andb_false_iff in H as [H|H]; [|specialize (A2 H); lia].
      assert (Hr : (match o with ADD | SUB => is_addsub b | _ => is_muldiv b end = true -> req b (lv (rprec o)) < req b (right_lvl o))).
      { intro Hb. destruct o, b as [| | | |[] ? ?| |]; cbn in Hb; try discriminate Hb; cbn [req lv rprec prec right_lvl op_lvl rank Nat.leb]; lia. }
      assert (Hl : o = POW -> is_pow a = true -> req a (lv (prec o)) < req a (left_lvl o)).
      { intros -> Ha. destruct a as [| | | |[] ? ?| |]; cbn in Ha; try discriminate Ha; cbn [req lv rprec prec left_lvl op_lvl rank Nat.leb]; lia. }
      destruct o; try (apply negb_false_iff in H; specialize (Hr H); lia).
      apply andb_false_iff in H as [H|H]; apply negb_false_iff in H; [specialize (Hl eq_refl H)|specialize (Hr H)]; lia. }
    assert (Hb : req (Bin o a b) (lv p) = (if Nat.ltb (prec o) p then 1 else 0) + (req a (left_lvl o) + req b (right_lvl o))).
    { cbn [req]. assert (p = 0 \/ p = 1 \/ p = 2 \/ p = 3 \/ p = 4) as Hc by lia.
      destruct o; destruct Hc as [->|[->|[->|[->| ->]]]]; cbn; lia. }
    rewrite Hb. cbv zeta. destruct (Nat.ltb (prec o) p); [rewrite (cnt_app (str "(")), (cnt_app _ (str ")"))|]; rewrite Hcnt.
    + change (cnt (str "(")) with 1. change (cnt (str ")")) with 0. split; [lia|]. intro H. specialize (Hstrict H). lia.
    + split; [lia|]. intro H. specialize (Hstrict H). lia.
  - rewrite print_fun, req_fun, safe_fun, !cnt_app. apply wf_fun in Hw as (Hf & Hne & Hwl). rewrite (cnt_ident _ Hf).
    change (cnt (str "(")) with 1. change (cnt (str ")")) with 0.
    assert (G : cnt (join (str ", ") (map (fun a => pr a 0) args)) <= req_list args /\
               (safe_list args = false -> cnt (join (str ", ") (map (fun a => pr a 0) args)) < req_list args)).
    { clear Hne Hf f p Hp. induction args as [|x args IHl]; [split; [cbn; lia|discriminate]|].
      inversion IH as [|? ? Hx Hrest]; subst. destruct Hwl as [Hwx Hwl].
      destruct (Hx Hwx 0 ltac:(lia)) as [X1 X2]. destruct (IHl Hrest Hwl) as [L1 L2].
      assert (Hc : cnt (join (str ", ") (map (fun a => pr a 0) (x :: args))) = cnt (pr x 0) + cnt (join (str ", ") (map (fun a => pr a 0) args))).
      { destruct args as [|y args]; [cbn [map join]; change (cnt []) with 0; lia|].
        change (join (str ", ") (map (fun a => pr a 0) (x :: y :: args)))
          with (pr x 0 ++ str ", " ++ join (str ", ") (map (fun a => pr a 0) (y :: args))).
        rewrite !cnt_app. reflexivity. }
      rewrite Hc. cbn [req_list safe_list forallb]. cbn [lv] in X1, X2. split; [lia|].
      intro H. apply andb_false_iff in H as [H|H]; [specialize (X2 H)|specialize (L2 H)]; lia. }
    destruct G as [G1 G2]. split; [lia|]. intro H. specialize (G2 H). lia.
  - cbn [print_expression req paren_safe]. rewrite !cnt_app. change (cnt (str "E[][")) with 0. change (cnt (str "]")) with 0.
    destruct (IH Hw 0 ltac:(lia)) as [H1 H2]. cbn [lv] in H1, H2. split; [lia|]. intro H. specialize (H2 H). lia.
Qed.

Lemma roundtrip_only_if e : wf fprint fread e -> parse_expression fread (pr e 0) = Ok e -> paren_safe e = true.
Proof.
  intros Hw H. destruct (paren_safe e) eqn:Hs; [reflexivity|]. exfalso.
  apply parse_sound in H as (t & w & E & Ht & _).
  pose proof (proj2 (print_cnt e Hw 0 ltac:(lia)) Hs) as Hlt. cbn [lv] in Hlt.
  apply (proj1 text_needs) in Ht. rewrite E, cnt_app in Hlt.
  assert (cnt w = 0 \/ True) by auto. lia.
Qed.
Lemma roundtrip_iff e : wf fprint fread e -> (parse_expression fread (pr e 0) = Ok e <-> paren_safe e = true).
Proof. intro Hw. split; [apply roundtrip_only_if, Hw|apply roundtrip, Hw]. Qed.

(* ---- value preservation ---- *)
Section Value.
Context {V : Type} (al : algebra V) (Hal : assoc_laws al) (vnum : F -> V) (vpar : chars -> V) (vvar : chars -> tix -> V).
Notation ev := (eval al vnum vpar vvar).

Lemma chain_add a s1 (Ha : Text LAdd a s1) : forall l b s2, Text l b s2 -> l = LAdd ->
  exists c, Text LAdd c (s1 ++ str " " ++ op_str ADD ++ s2) /\ ev c = ev (Bin ADD a b).
Proof.
  apply (Text_ind2 fread (fun l b s2 => l = LAdd -> exists c, Text LAdd c (s1 ++ str " " ++ op_str ADD ++ s2) /\ ev c = ev (Bin ADD a b)) (fun _ _ => True));
    try (intros; exact I); try (intros; discriminate).
  1: intros o x y t1 w t t2 Hx IHx Hw Hop Hy IHy El.
  2: intros l e s Hl Ht IH El.
  - destruct o; cbn in El; try discriminate El; destruct (IHx eq_refl) as (c & Hc & Ec).
    + exists (Bin ADD c y). split.
      * replace (s1 ++ str " " ++ op_str ADD ++ t1 ++ w ++ t ++ t2) with ((s1 ++ str " " ++ op_str ADD ++ t1) ++ w ++ t ++ t2) by (rewrite <- !app_assoc; reflexivity).
        apply (T_bin fread ADD); assumption.
      * cbn [eval abin] in *. rewrite Ec. rewrite (law_add _ Hal). reflexivity.
    + exists (Bin SUB c y). split.
      * replace (s1 ++ str " " ++ op_str ADD ++ t1 ++ w ++ t ++ t2) with ((s1 ++ str " " ++ op_str ADD ++ t1) ++ w ++ t ++ t2) by (rewrite <- !app_assoc; reflexivity).
        apply (T_bin fread SUB); assumption.
      * cbn [eval abin] in *. rewrite Ec. rewrite (law_addsub _ Hal). reflexivity.
  - subst l. exists (Bin ADD a e). split; [|reflexivity]. apply (T_bin fread ADD); try assumption; [reflexivity|constructor].
Qed.
Lemma chain_mul a s1 (Ha : Text LMul a s1) : forall l b s2, Text l b s2 -> l = LMul ->
  exists c, Text LMul c (s1 ++ str " " ++ op_str MUL ++ s2) /\ ev c = ev (Bin MUL a b).
Proof.
  apply (Text_ind2 fread (fun l b s2 => l = LMul -> exists c, Text LMul c (s1 ++ str " " ++ op_str MUL ++ s2) /\ ev c = ev (Bin MUL a b)) (fun _ _ => True));
    try (intros; exact I); try (intros; discriminate).
  1: intros o x y t1 w t t2 Hx IHx Hw Hop Hy IHy El.
  2: intros l e s Hl Ht IH El.
  - destruct o; cbn in El; try discriminate El; destruct (IHx eq_refl) as (c & Hc & Ec).
    + exists (Bin MUL c y). split.
      * replace (s1 ++ str " " ++ op_str MUL ++ t1 ++ w ++ t ++ t2) with ((s1 ++ str " " ++ op_str MUL ++ t1) ++ w ++ t ++ t2) by (rewrite <- !app_assoc; reflexivity).
        apply (T_bin fread MUL); assumption.
      * cbn [eval abin] in *. rewrite Ec. rewrite (law_mul _ Hal). reflexivity.
    + exists (Bin DIV c y). split.
      * replace (s1 ++ str " " ++ op_str MUL ++ t1 ++ w ++ t ++ t2) with ((s1 ++ str " " ++ op_str MUL ++ t1) ++ w ++ t ++ t2) by (rewrite <- !app_assoc; reflexivity).
        apply (T_bin fread DIV); assumption.
      * cbn [eval abin] in *. rewrite Ec. rewrite (law_muldiv _ Hal). reflexivity.
  - subst l. exists (Bin MUL a e). split; [|reflexivity]. apply (T_bin fread MUL); try assumption; [reflexivity|constructor].
Qed.

Lemma value_text e : forall p, wf fprint fread e -> value_safe e = true ->
  exists e', Text (plev e p) e' (pr e p) /\ ev e' = ev e.
Proof.
  induction e as [v|n|n t|a IH|o a b IHa IHb|f args IH|a IH] using expr_ind'; intros p Hw Hs.
  - exists (Num v). split; [|reflexivity]. apply (safe_text (Num v)); [exact Hw|reflexivity].
  - exists (Par n). split; [|reflexivity]. apply (safe_text (Par n)); [exact Hw|reflexivity].
  - exists (Var n t). split; [|reflexivity]. apply (safe_text (Var n t)); [exact Hw|reflexivity].
  - destruct (IH 4 Hw Hs) as (a' & Ha & Ea). exists (Neg a'). split; [|cbn [eval]; rewrite Ea; reflexivity].
    cbn [print_expression plev]. apply (T_neg fread []); [reflexivity|].
    eapply text_weaken; [|exact Ha]. apply (plev_lv a 4). lia.
  - rewrite print_bin. destruct Hw as [Hwa Hwb]. cbn [value_safe] in Hs.
    apply andb_true_iff in Hs as [Hs Hsb]. apply andb_true_iff in Hs as [Ho Hsa].
    destruct (IHa (prec o) Hwa Hsa) as (a' & Ha & Ea). destruct (IHb (rprec o) Hwb Hsb) as (b' & Hb & Eb).
    assert (HT : exists c, Text (op_lvl o) c (pr a (prec o) ++ str " " ++ op_str o ++ str " " ++ pr b (rprec o)) /\ ev c = ev (Bin o a b)).
    { assert (Hdirect : rank (plev a (prec o)) <= rank (left_lvl o) -> rank (plev b (rprec o)) <= rank (right_lvl o) ->
         exists c, Text (op_lvl o) c (pr a (prec o) ++ str " " ++ op_str o ++ str " " ++ pr b (rprec o)) /\ ev c = ev (Bin o a b)).
      { intros Hl Hr. exists (Bin o a' b'). split; [|cbn [eval]; rewrite Ea, Eb; reflexivity].
        apply op_str_one; [| |reflexivity]; (eapply text_weaken; [|eassumption]; assumption). }
      destruct o.
      - destruct (chain_add a' (pr a 1)) with (l := LAdd) (b := b') (s2 := str " " ++ pr b 1) as (c & Hc & Ec).
        + eapply text_weaken; [|exact Ha]. apply (plev_lv a 1). lia.
        + apply (proj1 lead_ws); [|reflexivity]. eapply text_weaken; [|exact Hb]. apply (plev_lv b 1). lia.
        + reflexivity.
        + exists c. split; [exact Hc|]. rewrite Ec. cbn [eval]. rewrite Ea, Eb. reflexivity.
      - apply Hdirect; [apply left_rank; exact I|apply right_rank, negb_true_iff, Ho].
      - destruct (chain_mul a' (pr a 2)) with (l := LMul) (b := b') (s2 := str " " ++ pr b 2) as (c & Hc & Ec).
        + eapply text_weaken; [|exact Ha]. apply (plev_lv a 2). lia.
        + apply (proj1 lead_ws); [|reflexivity]. eapply text_weaken; [|exact Hb]. apply (plev_lv b 2). lia.
        + reflexivity.
        + exists c. split; [exact Hc|]. rewrite Ec. cbn [eval]. rewrite Ea, Eb. reflexivity.
      - apply Hdirect; [apply left_rank; exact I|apply right_rank, negb_true_iff, Ho].
      - apply andb_true_iff in Ho as [H1 H2].
        apply Hdirect; [apply left_rank, negb_true_iff, H1|apply right_rank, negb_true_iff, H2]. }
    destruct HT as (c & Hc & Ec). exists c. split; [|exact Ec]. cbn [plev]. cbv zeta.
    destruct (Nat.ltb (prec o) p); [|exact Hc]. apply paren_text. eapply text_weaken; [|exact Hc]. apply op_rank_add.
  - rewrite print_fun. apply wf_fun in Hw as (Hf & Hne & Hwl). rewrite vsafe_fun in Hs.
    assert (G : exists args', Texts args' (join (str ", ") (map (fun a => pr a 0) args)) /\ map ev args' = map ev args).
    { clear p Hf f. induction args as [|x args IHl]; [congruence|]. inversion IH as [|? ? Hx Hrest]; subst.
      destruct Hwl as [Hwx Hwl]. cbn in Hs. apply andb_true_iff in Hs as [Hsx Hs].
      destruct (Hx 0 Hwx Hsx) as (x' & Hx' & Ex).
      assert (HT : Text LAdd x' (pr x 0)) by (eapply text_weaken; [|exact Hx']; apply (plev_lv x 0); lia).
      destruct args as [|y args].
      - exists [x']. split; [apply Ts_one; exact HT|cbn; rewrite Ex; reflexivity].
      - destruct IHl as (args' & Hargs & Eargs); auto; [discriminate|].
        exists (x' :: args'). split; [|cbn [map]; rewrite Ex, Eargs; reflexivity].
        change (join (str ", ") (map (fun a => pr a 0) (x :: y :: args)))
          with (pr x 0 ++ [] ++ str "," ++ str " " ++ join (str ", ") (map (fun a => pr a 0) (y :: args))).
        apply Ts_cons; [exact HT|reflexivity|]. apply (proj2 lead_ws); [exact Hargs|reflexivity]. }
    destruct G as (args' & Hargs & Eargs). exists (Fun f args'). split; [|cbn [eval]; rewrite Eargs; reflexivity].
    cbn [plev]. apply atom_un. apply (T_fun fread [] f [] args' _ []); try assumption; reflexivity.
  - destruct (IH 0 Hw Hs) as (a' & Ha & Ea). exists (Expec a'). split; [|cbn [eval]; rewrite Ea; reflexivity].
    cbn [print_expression plev]. apply atom_un. apply (T_expec fread [] a' _ []); try reflexivity.
    eapply text_weaken; [|exact Ha]. apply (plev_lv a 0). lia.
Qed.
Lemma value_roundtrip e : wf fprint fread e -> value_safe e = true ->
  exists e', parse_expression fread (pr e 0) = Ok e' /\ ev e' = ev e.
Proof.
  intros Hw Hs. destruct (value_text e 0 Hw Hs) as (e' & Ht & Ee). exists e'. split; [|exact Ee].
  rewrite <- (app_nil_r (pr e 0)). apply parse_complete; [|reflexivity].
  eapply text_weaken; [|exact Ht]. apply (plev_lv e 0). lia.
Qed.
End Value.
End RT.
