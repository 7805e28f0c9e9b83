From Verif Require Import Common Sym_Model Sym_Spec Sym_Proofs Sym_Flatten SymDict_Model SymDict_More
  Block_Model Block_Spec Block_Proofs Block_Solve.
From Coq Require Import Permutation.
Local Open Scope list_scope.

(* ---------- validation, exactly ---------- *)
Lemma check_flags_iff fl io ic d :
  check_flags fl io ic d = Ok tt <->
  forall k e, In (k, e) d -> exists f, nget k fl = Some f /\ fl_cal f = false /\ (ic = false -> fl_exclude f = false) /\
    (io = false -> fl_min f = false /\ fl_max f = false).
Proof.
  split; [apply check_flags_ok|]. induction d as [|[k0 e0] d IH]; intro H; [reflexivity|].
  cbn [check_flags]. destruct (H k0 e0 (or_introl eq_refl)) as (f & E & H1 & H2 & H3). rewrite E.
  unfold fl_ok. rewrite H1. cbn [andb bind].
  assert (X2 : (fl_exclude f && negb ic)%bool = false) by (destruct ic; [apply andb_false_r|rewrite H2; reflexivity]). rewrite X2. cbn [bind].
  assert (X3 : (fl_min f && negb io)%bool = false) by (destruct io; [apply andb_false_r|rewrite (proj1 (H3 eq_refl)); reflexivity]). rewrite X3. cbn [bind].
  assert (X4 : (fl_max f && negb io)%bool = false) by (destruct io; [apply andb_false_r|rewrite (proj2 (H3 eq_refl)); reflexivity]). rewrite X4. cbn [bind].
  apply IH. intros; apply (H k e); now right.
Qed.
Lemma check_flags_cases fl io ic d : (forall k e, In (k, e) d -> nget k fl <> None) ->
  check_flags fl io ic d = Ok tt \/ check_flags fl io ic d = Err ValueError.
Proof.
  induction d as [|[k0 e0] d IH]; intro H; [now left|]. cbn [check_flags].
  destruct (nget k0 fl) as [f|] eqn:E; [|exfalso; exact (H k0 e0 (or_introl eq_refl) E)].
  unfold fl_ok. destruct (fl_cal f && negb false)%bool; cbn [bind]; [now right|].
  destruct (fl_exclude f && negb ic)%bool; cbn [bind]; [now right|].
  destruct (fl_min f && negb io)%bool; cbn [bind]; [now right|].
  destruct (fl_max f && negb io)%bool; cbn [bind]; [now right|]. apply IH. intros; apply (H k e); now right.
Qed.
Lemma numbered_In {A} n (l : list A) k x : In (k, x) (numbered n l) <-> exists i, k = (n + i)%nat /\ nth_error l i = Some x.
Proof.
  split.
  - revert n. induction l as [|y l IH]; intros n H; [destruct H|]. unfold numbered in H. cbn [length seq combine] in H. destruct H as [H|H].
    + injection H as <- <-. exists 0%nat. split; [lia|reflexivity].
    + destruct (IH (S n) H) as (i & -> & Hi). exists (S i). split; [lia|exact Hi].
  - intros (i & -> & H). now apply in_numbered.
Qed.
Lemma check_comp a pre l suf io ic : ab_defs a ++ ab_obj a ++ ab_cons a ++ ab_ids a = pre ++ l ++ suf ->
  (check_flags (numbered 0 (map e_flags (entries a))) io ic (numbered (length pre) (map equation_to_sympy l)) = Ok tt <->
   forall e, In e l -> g_cal e = None /\ (ic = false -> g_exclude e = false) /\ (io = false -> g_min e = false /\ g_max e = false)) /\
  (check_flags (numbered 0 (map e_flags (entries a))) io ic (numbered (length pre) (map equation_to_sympy l)) = Ok tt \/
   check_flags (numbered 0 (map e_flags (entries a))) io ic (numbered (length pre) (map equation_to_sympy l)) = Err ValueError).
Proof.
  intro H. assert (L := comp_lookup a pre l suf H). split; [|].
  - rewrite check_flags_iff. split.
    + intros K e He. apply In_nth_error in He as (i & Hi).
      destruct (K (length pre + i)%nat (equation_to_sympy e)) as (f & Ef & H1 & H2).
      { apply numbered_In. exists i. split; [reflexivity|]. now rewrite nth_error_map, Hi. }
      rewrite (proj1 (L i e Hi)) in Ef. injection Ef as <-. cbn in H1, H2. split; [|exact H2]. destruct (g_cal e); [discriminate|reflexivity].
    + intros K k e He. apply numbered_In in He as (i & -> & Hi). rewrite nth_error_map in Hi.
      destruct (nth_error l i) as [g|] eqn:E; [|discriminate]. exists (extract_flags g). split; [exact (proj1 (L i g E))|].
      destruct (K g (nth_error_In _ _ E)) as (K1 & K2). cbn. rewrite K1. split; [reflexivity|exact K2].
  - apply check_flags_cases. intros k e He. apply numbered_In in He as (i & -> & Hi). rewrite nth_error_map in Hi.
    destruct (nth_error l i) as [g|] eqn:E; [|discriminate]. rewrite (proj1 (L i g E)). discriminate.
Qed.
Lemma check_minmax_comp a pre l suf : ab_defs a ++ ab_obj a ++ ab_cons a ++ ab_ids a = pre ++ l ++ suf ->
  (check_minmax (numbered 0 (map e_flags (entries a))) (numbered (length pre) (map equation_to_sympy l)) = Ok tt <->
   forall e, In e l -> ~ (g_min e = true /\ g_max e = true)) /\
  (check_minmax (numbered 0 (map e_flags (entries a))) (numbered (length pre) (map equation_to_sympy l)) = Ok tt \/
   check_minmax (numbered 0 (map e_flags (entries a))) (numbered (length pre) (map equation_to_sympy l)) = Err ValueError).
Proof.
  intro H. assert (L := comp_lookup a pre l suf H). clear H. revert L. generalize (length pre) as n.
  induction l as [|g l IH]; intros n L; [split; [split; [intros _ e []|reflexivity]|now left]|].
  unfold numbered at 2 4 6. cbn [map length seq combine check_minmax].
  pose proof (L 0%nat g eq_refl) as [L0 _]. rewrite Nat.add_0_r in L0. rewrite L0. cbn [extract_flags fl_min fl_max].
  assert (IH' := IH (S n)). unfold numbered at 2 4 6 in IH'.
  assert (L' : forall i e, nth_error l i = Some e -> nget (S n + i) (numbered 0 (map e_flags (entries a))) = Some (extract_flags e) /\
      nget (S n + i) (numbered 0 (map e_mult (entries a))) = Some (extract_multiplier e)).
  { intros i e Hi. replace (S n + i)%nat with (n + S i)%nat by lia. exact (L (S i) e Hi). }
  destruct (IH' L') as [I1 I2].
  destruct (g_min g && g_max g)%bool eqn:E.
  - split; [|now right]. split; [discriminate|]. intro K. exfalso. apply (K g (or_introl eq_refl)). now apply andb_true_iff in E.
  - split; [|exact I2]. rewrite I1. split; intros K e He.
    + destruct He as [<-|He]; [|exact (K e He)]. intros [E1 E2]. rewrite E1, E2 in E. discriminate.
    + apply K. now right.
Qed.

Lemma control_found_iff a short x : control_found (raw_block a short) x = true <-> control_used a x.
Proof.
  unfold control_found, control_used, raw_block. cbn [k_defs k_obj k_cons]. rewrite !opt_list_tab. rewrite existsb_exists.
  assert (K : forall n l, existsb (fun ke : nat * eqn => smem x (eqn_atoms (snd ke))) (numbered n (map equation_to_sympy l)) = true <->
     exists e, In e l /\ In x (atoms (lhs (equation_to_sympy e)) ++ atoms (rhs (equation_to_sympy e)))).
  { intros n l. rewrite existsb_exists. split.
    - intros ([k e] & Hin & Hm). apply numbered_In in Hin as (i & _ & Hi). rewrite nth_error_map in Hi.
      destruct (nth_error l i) as [g|] eqn:E; [|discriminate]. injection Hi as <-. exists g. split; [exact (nth_error_In _ _ E)|].
      apply smem_In in Hm. exact Hm.
    - intros (e & He & Hx). apply In_nth_error in He as (i & Hi). exists ((n + i)%nat, equation_to_sympy e). split.
      + apply numbered_In. exists i. split; [reflexivity|]. now rewrite nth_error_map, Hi.
      + apply smem_In. exact Hx. }
  split.
  - intros (d & Hd & Hx). destruct Hd as [<-|[<-|[<-|[]]]]; apply K in Hx as (e & He & Hx); exists e; (split; [|exact Hx]);
      rewrite !in_app_iff; auto.
  - intros (e & He & Hx). rewrite !in_app_iff in He. destruct He as [He|[He|He]]; eexists; (split; [|apply K; exists e; split; [exact He|exact Hx]]); cbn; eauto.
Qed.
Lemma opt_none {A} (l : list A) : opt_list l = None <-> l = [].
Proof. destruct l; split; intro; (discriminate || reflexivity). Qed.
Lemma numbered_nil {A B} (f : A -> B) n l : numbered n (map f l) = [] <-> l = [].
Proof. destruct l; split; intro; (discriminate || reflexivity). Qed.

Theorem validate_exact a short :
  (validate (raw_block a short) = Ok tt <-> acceptable a) /\
  (validate (raw_block a short) = Err (GEconError 20) <-> ~ (ab_obj a = [] <-> ab_controls a = [])) /\
  (validate (raw_block a short) = Err (GEconError 21) <-> (ab_obj a = [] <-> ab_controls a = []) /\ (1 < length (ab_obj a))%nat) /\
  (validate (raw_block a short) = Err (GEconError 22) <->
     (ab_obj a = [] <-> ab_controls a = []) /\ (length (ab_obj a) <= 1)%nat /\ ~ (forall x, In x (ab_controls a) -> control_used a x)) /\
  (validate (raw_block a short) = Err ValueError <->
     (ab_obj a = [] <-> ab_controls a = []) /\ (length (ab_obj a) <= 1)%nat /\ (forall x, In x (ab_controls a) -> control_used a x) /\ ~ flags_in_place a).
Proof.
  set (b := raw_block a short).
  set (body := if Nat.ltb 1 (length (tab (k_obj b))) then Err (GEconError 21)
      else if negb (forallb (control_found b) (match k_controls b with Some l => l | None => [] end)) then Err (GEconError 22)
      else bind (check_flags (k_flags b) false false (tab (k_defs b))) (fun _ =>
           bind (check_flags (k_flags b) true false (tab (k_obj b))) (fun _ =>
           bind (check_flags (k_flags b) false true (tab (k_cons b))) (fun _ =>
           bind (check_flags (k_flags b) false false (tab (k_ids b))) (fun _ =>
           check_minmax (k_flags b) (tab (k_obj b))))))).
  assert (Ev : (~ (ab_obj a = [] <-> ab_controls a = []) /\ validate b = Err (GEconError 20)) \/
               ((ab_obj a = [] <-> ab_controls a = []) /\ validate b = body)).
  { unfold validate. fold body. assert (A1 := opt_none (numbered (length (ab_defs a)) (map equation_to_sympy (ab_obj a)))).
    rewrite numbered_nil in A1. change (opt_list (numbered (length (ab_defs a)) (map equation_to_sympy (ab_obj a)))) with (k_obj b) in A1.
    assert (A2 := opt_none (ab_controls a)). change (opt_list (ab_controls a)) with (k_controls b) in A2.
    rewrite <- A1, <- A2. destruct (k_obj b), (k_controls b).
    - right. split; [split; intro; discriminate|reflexivity].
    - left. split; [intros [_ K]; specialize (K eq_refl); discriminate|reflexivity].
    - left. split; [intros [K _]; specialize (K eq_refl); discriminate|reflexivity].
    - right. split; [split; reflexivity|reflexivity]. }
  assert (Hlen : length (tab (k_obj b)) = length (ab_obj a)).
  { unfold b, raw_block. cbn [k_obj]. rewrite opt_list_tab. unfold numbered. rewrite combine_length, seq_length, map_length, Nat.min_id. reflexivity. }
  assert (Hctl : match k_controls b with Some l => l | None => [] end = ab_controls a).
  { unfold b, raw_block. cbn [k_controls]. destruct (ab_controls a); reflexivity. }
  assert (Hcf : forallb (control_found b) (ab_controls a) = true <-> forall x, In x (ab_controls a) -> control_used a x).
  { rewrite forallb_forall. split; intros K x Hx; apply (control_found_iff a short), K, Hx. }
  assert (Hfl : (bind (check_flags (k_flags b) false false (tab (k_defs b))) (fun _ =>
           bind (check_flags (k_flags b) true false (tab (k_obj b))) (fun _ =>
           bind (check_flags (k_flags b) false true (tab (k_cons b))) (fun _ =>
           bind (check_flags (k_flags b) false false (tab (k_ids b))) (fun _ =>
           check_minmax (k_flags b) (tab (k_obj b)))))) = Ok tt /\ flags_in_place a) \/
          (bind (check_flags (k_flags b) false false (tab (k_defs b))) (fun _ =>
           bind (check_flags (k_flags b) true false (tab (k_obj b))) (fun _ =>
           bind (check_flags (k_flags b) false true (tab (k_cons b))) (fun _ =>
           bind (check_flags (k_flags b) false false (tab (k_ids b))) (fun _ =>
           check_minmax (k_flags b) (tab (k_obj b)))))) = Err ValueError /\ ~ flags_in_place a)).
  { unfold b, raw_block. cbn [k_flags k_defs k_obj k_cons k_ids]. rewrite !opt_list_tab.
    destruct (check_comp a [] (ab_defs a) (ab_obj a ++ ab_cons a ++ ab_ids a) false false eq_refl) as [D1 D2].
    destruct (check_comp a (ab_defs a) (ab_obj a) (ab_cons a ++ ab_ids a) true false eq_refl) as [O1 O2].
    destruct (check_comp a (ab_defs a ++ ab_obj a) (ab_cons a) (ab_ids a) false true ltac:(now rewrite <- app_assoc)) as [C1 C2].
    destruct (check_comp a (ab_defs a ++ ab_obj a ++ ab_cons a) (ab_ids a) [] false false ltac:(now rewrite <- !app_assoc, app_nil_r)) as [I1 I2].
    destruct (check_minmax_comp a (ab_defs a) (ab_obj a) (ab_cons a ++ ab_ids a) eq_refl) as [M1 M2].
    rewrite !app_length in C1, C2, I1, I2. rewrite app_length, Nat.add_assoc in I1, I2. cbn [length] in D1, D2.
    destruct D2 as [D2|D2]; rewrite D2; cbn [bind]; [|right; split; [reflexivity|]].
    2:{ intros (F1 & F2 & F3 & F4). rewrite D2 in D1. destruct D1 as [_ D1]. discriminate D1. intros e He.
        split; [apply F1; apply in_or_app; auto|]. split; intros _; [apply F2|apply F3]; apply in_or_app; auto. }
    destruct O2 as [O2|O2]; rewrite O2; cbn [bind]; [|right; split; [reflexivity|]].
    2:{ intros (F1 & F2 & F3 & F4). rewrite O2 in O1. destruct O1 as [_ O1]. discriminate O1. intros e He.
        split; [apply F1; rewrite !in_app_iff; auto|]. split; [intros _; apply F2; rewrite !in_app_iff; auto|discriminate]. }
    destruct C2 as [C2|C2]; rewrite C2; cbn [bind]; [|right; split; [reflexivity|]].
    2:{ intros (F1 & F2 & F3 & F4). rewrite C2 in C1. destruct C1 as [_ C1]. discriminate C1. intros e He.
        split; [apply F1; rewrite !in_app_iff; auto|]. split; [discriminate|intros _; apply F3; rewrite !in_app_iff; auto]. }
    destruct I2 as [I2|I2]; rewrite I2; cbn [bind]; [|right; split; [reflexivity|]].
    2:{ intros (F1 & F2 & F3 & F4). rewrite I2 in I1. destruct I1 as [_ I1]. discriminate I1. intros e He.
        split; [apply F1; rewrite !in_app_iff; auto|]. split; intros _; [apply F2|apply F3]; rewrite !in_app_iff; auto. }
    destruct M2 as [M2|M2]; rewrite M2; [left; split; [reflexivity|]|right; split; [reflexivity|]].
    - assert (D3 := proj1 D1 D2). assert (O3 := proj1 O1 O2). assert (C3 := proj1 C1 C2). assert (I3 := proj1 I1 I2). assert (M3 := proj1 M1 M2).
      split; [|split; [|split; [|exact M3]]]; intros e He; rewrite !in_app_iff in He.
      + destruct He as [He|[He|[He|He]]]; [apply D3|apply O3|apply C3|apply I3]; exact He.
      + destruct He as [He|[He|He]]; [exact (proj1 (proj2 (D3 e He)) eq_refl)|exact (proj1 (proj2 (O3 e He)) eq_refl)|exact (proj1 (proj2 (I3 e He)) eq_refl)].
      + destruct He as [He|[He|He]]; [exact (proj2 (proj2 (D3 e He)) eq_refl)|exact (proj2 (proj2 (C3 e He)) eq_refl)|exact (proj2 (proj2 (I3 e He)) eq_refl)].
    - intros (F1 & F2 & F3 & F4). rewrite M2 in M1. destruct M1 as [_ M1]. discriminate (M1 F4). }
  unfold body in Ev. rewrite Hlen, Hctl in Ev. clear body.
  destruct Ev as [[Hx Ev]|[Hx Ev]]; rewrite Ev.
  { split; [split; [discriminate|intros (K & _); contradiction]|]. split; [tauto|]. split; [split; [discriminate|tauto]|].
    split; [split; [discriminate|tauto]|]. split; [discriminate|tauto]. }
  destruct (Nat.ltb 1 (length (ab_obj a))) eqn:El.
  { apply Nat.ltb_lt in El. split; [split; [discriminate|intros (_ & K & _); lia]|]. split; [split; [discriminate|tauto]|].
    split; [tauto|]. split; [split; [discriminate|intros (_ & K & _); lia]|]. split; [discriminate|intros (_ & K & _); lia]. }
  apply Nat.ltb_ge in El. assert (Hnl : ~ (1 < length (ab_obj a))%nat) by lia.
  destruct (forallb (control_found b) (ab_controls a)) eqn:Ec; cbn [negb].
  2:{ assert (Hnc : ~ (forall x, In x (ab_controls a) -> control_used a x)) by (intro K; apply Hcf in K; discriminate).
      split; [split; [discriminate|intros (_ & _ & K & _); contradiction]|]. split; [split; [discriminate|tauto]|].
      split; [split; [discriminate|tauto]|]. split; [tauto|]. split; [discriminate|tauto]. }
  assert (Hc2 := proj1 Hcf eq_refl).
  destruct Hfl as [[Ef Hf]|[Ef Hf]]; rewrite Ef.
  - split; [split; [intros _; exact (conj Hx (conj El (conj Hc2 Hf)))|reflexivity]|]. split; [split; [discriminate|tauto]|].
    split; [split; [discriminate|tauto]|]. split; [split; [discriminate|tauto]|]. split; [discriminate|tauto].
  - split; [split; [discriminate|intros (_ & _ & _ & K); contradiction]|]. split; [split; [discriminate|tauto]|].
    split; [split; [discriminate|tauto]|]. split; [split; [discriminate|tauto]|]. tauto.
Qed.

(* ---------- calibration entries, classified ---------- *)
Definition pickl (f : eqn * bool -> bool) (l : list (eqn * bool)) : sdict :=
  flat_map (fun eb => match lhs (fst eb) with Sy s => if f eb then [(s, rhs (fst eb))] else [] | _ => [] end) l.
Definition f_num (eb : eqn * bool) : bool := is_number (rhs (fst eb)).
Definition f_cal (eb : eqn * bool) : bool := (negb (is_number (rhs (fst eb))) && snd eb)%bool.
Definition f_det (eb : eqn * bool) : bool := (negb (is_number (rhs (fst eb))) && negb (snd eb))%bool.

Definition keys_ok (p : pdicts) (l : list (eqn * bool)) : Prop :=
  NoDup (map fst (p_num p ++ pickl f_num l)) /\ NoDup (map fst (p_calib p ++ pickl f_cal l)) /\ NoDup (map fst (p_det p ++ pickl f_det l)).
Lemma pickl_cons f eb l s : lhs (fst eb) = Sy s -> pickl f (eb :: l) = (if f eb then [(s, rhs (fst eb))] else []) ++ pickl f l.
Proof. intro H. unfold pickl. cbn [flat_map]. now rewrite H. Qed.
Lemma has_key_In {V} s (d : list (sym * V)) : has_key s d = true <-> In s (map fst d).
Proof. unfold has_key. apply smem_In. Qed.
Lemma nodup_dup {V} (s : sym) (v : V) d d' : In s (map fst d) -> ~ NoDup (map fst (d ++ (s, v) :: d')).
Proof.
  intros H Hn. rewrite map_app in Hn. cbn [map fst] in Hn. apply NoDup_remove_2 in Hn. apply Hn, in_or_app. now left.
Qed.
Lemma app_cons {A} (d d' : list A) x : d ++ x :: d' = (d ++ [x]) ++ d'.
Proof. now rewrite <- app_assoc. Qed.

Lemma nodup_snoc {V} (s : sym) (v : V) d : NoDup (map fst d) -> has_key s d = false -> NoDup (map fst (d ++ [(s, v)])).
Proof.
  intros Hn Hk. rewrite map_app. cbn. apply (Permutation_NoDup (Permutation_app_comm [s] (map fst d))). cbn [app]. constructor; [|exact Hn].
  intro Hin. apply has_key_In in Hin. rewrite Hin in Hk. discriminate.
Qed.

Section L.
Variables ord sord : set_order.
Lemma param_loop_spec fl : forall l n p,
  (forall i eb, nth_error l i = Some eb -> exists f, nget (n + i) fl = Some f /\ fl_cal f = snd eb) ->
  (forall eb, In eb l -> calibration_ok eb) -> keys_ok p [] ->
  exists p', param_loop ord sord [] fl (numbered n (map fst l)) p = Ok p' /\
    (p_dup p <> [] -> p_dup p' <> []) /\
    (p_dup p = [] -> (p_dup p' = [] <-> keys_ok p l)) /\
    (p_dup p' = [] -> p_num p' = p_num p ++ pickl f_num l /\ p_calib p' = p_calib p ++ pickl f_cal l /\ p_det p' = p_det p ++ pickl f_det l).
Proof.
  induction l as [|eb l IH]; intros n p Hfl Hok Hk.
  - exists p. cbn. rewrite !app_nil_r. repeat split; auto; apply Hk.
  - unfold numbered. cbn [map length seq combine param_loop].
    destruct (Hok eb (or_introl eq_refl)) as [(s & Es) Hr].
    assert (Hfl' : forall i eb, nth_error l i = Some eb -> exists f, nget (S n + i) fl = Some f /\ fl_cal f = snd eb).
    { intros i eb' Hi. replace (S n + i)%nat with (n + S i)%nat by lia. exact (Hfl (S i) eb' Hi). }
    assert (Hok' : forall eb, In eb l -> calibration_ok eb) by (intros; apply Hok; now right).
    destruct (Hfl 0%nat eb eq_refl) as (f & Ef & Hf). rewrite Nat.add_0_r in Ef.
    assert (Hk' := Hk). destruct Hk' as (K1 & K2 & K3). cbn [pickl flat_map] in K1, K2, K3. rewrite !app_nil_r in K1, K2, K3.
    assert (Hstep : exists p1, param_step ord sord [] fl (n, fst eb) p = Ok p1 /\ keys_ok p1 [] /\
      ((p_dup p1 = p_dup p ++ [s] /\ ~ keys_ok p (eb :: l)) \/
       (p_dup p1 = p_dup p /\
        p_num p1 ++ pickl f_num l = p_num p ++ pickl f_num (eb :: l) /\ p_calib p1 ++ pickl f_cal l = p_calib p ++ pickl f_cal (eb :: l) /\
        p_det p1 ++ pickl f_det l = p_det p ++ pickl f_det (eb :: l)))).
    { unfold param_step. cbn [fst snd]. rewrite Es. unfold keys_ok at 2. rewrite !(pickl_cons _ eb l s Es).
      assert (F : f_num eb = is_number (rhs (fst eb)) /\ f_cal eb = (negb (is_number (rhs (fst eb))) && snd eb)%bool /\
                  f_det eb = (negb (is_number (rhs (fst eb))) && negb (snd eb))%bool) by (repeat split).
      destruct F as (-> & -> & ->). unfold is_number.
      destruct (atoms (rhs (fst eb))) as [|x xs] eqn:Ea; cbn [negb andb].
      - destruct (has_key s (p_num p)) eqn:Eh.
        + eexists. split; [reflexivity|]. split; [exact Hk|]. left. cbn [p_dup]. split; [reflexivity|]. intros (K & _).
          apply has_key_In in Eh. exact (nodup_dup s (rhs (fst eb)) _ _ Eh K).
        + eexists. split; [reflexivity|]. split.
          * unfold keys_ok. cbn [p_num p_calib p_det pickl flat_map]. rewrite !app_nil_r. split; [apply nodup_snoc; assumption|auto].
          * right. cbn [p_dup p_num p_calib p_det app]. rewrite <- (app_cons (p_num p)). auto.
      - rewrite Ef, Hf. destruct (snd eb); cbn [negb].
        + replace (forallb sym_is_ss (filter time_aware (eqn_atoms (fst eb)))) with true.
          2:{ symmetry. apply forallb_forall. intros y Hy. apply filter_In in Hy as [Hy1 Hy2].
              destruct Hr as [Hr|Hr]; [discriminate|]. destruct (Hr y Hy1 Hy2) as (b & ->). reflexivity. }
          destruct (has_key s (p_calib p)) eqn:Eh.
          * eexists. split; [reflexivity|]. split; [exact Hk|]. left. cbn [p_dup]. split; [reflexivity|]. intros (_ & K & _).
            apply has_key_In in Eh. exact (nodup_dup s (rhs (fst eb)) _ _ Eh K).
          * eexists. split; [reflexivity|]. split.
            -- unfold keys_ok. cbn [p_num p_calib p_det pickl flat_map]. rewrite !app_nil_r. split; [assumption|split; [apply nodup_snoc; assumption|assumption]].
            -- right. cbn [p_dup p_num p_calib p_det app]. rewrite <- (app_cons (p_calib p)). auto.
        + replace (filter time_aware (eqn_atoms (fst eb))) with (@nil sym).
          2:{ symmetry. destruct Hr as [Hr|Hr]; [discriminate|]. induction (eqn_atoms (fst eb)) as [|y ys IHy]; [reflexivity|]. cbn.
              rewrite (Hr y (or_introl eq_refl)). apply IHy. intros; apply Hr; now right. }
          cbn [bind]. assert (Hta : existsb time_aware (atoms (rhs (fst eb))) = false).
          { apply not_true_iff_false. intro Hx. apply existsb_exists in Hx as (y & Hy & Ht). destruct Hr as [Hr|Hr]; [discriminate|].
            rewrite (Hr y) in Ht; [discriminate|]. unfold eqn_atoms. apply in_or_app. right. exact Hy. }
          rewrite Ea in Hta. rewrite Ea, Hta.
          destruct (has_key s (p_det p)) eqn:Eh.
          * eexists. split; [reflexivity|]. split; [exact Hk|]. left. cbn [p_dup]. split; [reflexivity|]. intros (_ & _ & K).
            apply has_key_In in Eh. exact (nodup_dup s (rhs (fst eb)) _ _ Eh K).
          * eexists. split; [reflexivity|]. split.
            -- unfold keys_ok. cbn [p_num p_calib p_det pickl flat_map]. rewrite !app_nil_r. split; [assumption|split; [assumption|apply nodup_snoc; assumption]].
            -- right. cbn [p_dup p_num p_calib p_det app]. rewrite <- (app_cons (p_det p)). auto. }
    destruct Hstep as (p1 & E1 & Hk1 & Hc). rewrite E1. cbn [bind].
    destruct (IH (S n) p1 Hfl' Hok' Hk1) as (p' & E' & A1 & A2 & A3). exists p'. split; [exact E'|].
    destruct Hc as [[Hd Hnk]|(Hd & N1 & N2 & N3)].
    + assert (Hne : p_dup p' <> []) by (apply A1; rewrite Hd; intro X; apply app_eq_nil in X as [_ X]; discriminate).
      split; [auto|]. split; [|intro; contradiction]. intros _. split; intro; contradiction.
    + rewrite Hd in A1, A2. split; [exact A1|]. split.
      * intro Hp. rewrite (A2 Hp). unfold keys_ok. rewrite N1, N2, N3. reflexivity.
      * intro Hp. destruct (A3 Hp) as (B1 & B2 & B3). rewrite B1, B2, B3. auto.
Qed.

Theorem param_dicts_spec a b : to_block ord sord a = Ok b -> (forall eb, In eb (calibrations a) -> calibration_ok eb) ->
  (NoDup (map fst (numeric_of a)) /\ NoDup (map fst (calibrated_of a)) /\ NoDup (map fst (deterministic_of a)) ->
   param_dicts ord sord [] b = Ok (PDicts (numeric_of a) (calibrated_of a) (deterministic_of a) [])) /\
  (~ (NoDup (map fst (numeric_of a)) /\ NoDup (map fst (calibrated_of a)) /\ NoDup (map fst (deterministic_of a))) ->
   param_dicts ord sord [] b = Err (GEconError 24)).
Proof.
  intros Hb Hok. destruct (numbering ord sord a b Hb) as (_ & _ & _ & _ & Hc & Hf & _). cbn zeta in Hc, Hf.
  set (n := (length (ab_defs a) + length (ab_obj a) + length (ab_cons a) + length (ab_ids a))%nat) in *.
  unfold param_dicts. rewrite Hc, Hf.
  assert (El : map e_eqn (flat_map calib_entry (ab_calib a)) = map fst (calibrations a)) by (unfold calibrations; rewrite map_map; reflexivity).
  rewrite El.
  destruct (param_loop_spec (numbered 0 (map e_flags (entries a))) (calibrations a) n (PDicts [] [] [] [])) as (p' & E & _ & A2 & A3).
  - intros i eb Hi. unfold calibrations in Hi. rewrite nth_error_map in Hi.
    destruct (nth_error (flat_map calib_entry (ab_calib a)) i) as [x|] eqn:Ex; [|discriminate]. injection Hi as <-.
    exists (e_flags x). split; [|reflexivity]. change (n + i)%nat with (0 + (n + i))%nat. rewrite nget_numbered, nth_error_map.
    unfold entries. rewrite nth_error_app2 by (rewrite map_length, !app_length; unfold n; lia).
    rewrite map_length, !app_length. replace (n + i - _)%nat with i by (unfold n; lia). now rewrite Ex.
  - exact Hok.
  - repeat split; constructor.
  - rewrite E. cbn [bind p_dup] in *. specialize (A2 eq_refl). unfold keys_ok in A2. cbn [p_num p_calib p_det app] in A2, A3.
    change (pickl f_num (calibrations a)) with (numeric_of a) in *. change (pickl f_cal (calibrations a)) with (calibrated_of a) in *.
    change (pickl f_det (calibrations a)) with (deterministic_of a) in *.
    destruct p' as [q1 q2 q3 q4]. cbn [p_dup p_num p_calib p_det] in *. split; intro K.
    + apply A2 in K. subst q4. destruct (A3 eq_refl) as (-> & -> & ->). reflexivity.
    + destruct q4; [|reflexivity]. exfalso. apply K. now apply A2.
Qed.
End L.

Theorem to_block_exact ord sord a short : set_order_ok ord -> short_name (ab_name a) = Ok short ->
  (forall b, to_block ord sord a = Ok b -> acceptable a) /\
  (acceptable a -> ab_defs a = [] -> exists b, to_block ord sord a = Ok b) /\
  (to_block ord sord a = Err (GEconError 20) <-> ~ (ab_obj a = [] <-> ab_controls a = [])) /\
  (to_block ord sord a = Err (GEconError 21) <-> (ab_obj a = [] <-> ab_controls a = []) /\ (1 < length (ab_obj a))%nat) /\
  (to_block ord sord a = Err (GEconError 22) <->
     (ab_obj a = [] <-> ab_controls a = []) /\ (length (ab_obj a) <= 1)%nat /\ ~ (forall x, In x (ab_controls a) -> control_used a x)).
Proof.
  intros Ho Hsh. rewrite to_block_unfold, Hsh. cbn [bind].
  destruct (validate_exact a short) as (V0 & V20 & V21 & V22 & _).
  assert (Hc : forall o n, consolidate ord sord o <> Err (GEconError n)).
  { intros o n H. unfold consolidate in H. destruct o as [d|]; [|discriminate]. unfold def_dict in H.
    assert (Hd : forall n, def_entries d <> Err (GEconError n)).
    { clear. intro n. induction d as [|[k e] d IH]; cbn; [discriminate|]. destruct (lhs e); try discriminate.
      destruct (def_entries d) eqn:E; cbn; [discriminate|]. intro H. injection H as ->. now apply IH. }
    destruct (def_entries d) eqn:E; cbn [bind] in H; [|injection H as ->; now apply (Hd n)].
    destruct (flatten ord sord _) eqn:Ef; cbn [bind] in H; [discriminate|]. injection H as ->.
    apply (flatten_err ord sord Ho) in Ef. discriminate. }
  destruct (validate (raw_block a short)) as [[]|e] eqn:Ev; cbn [bind].
  - split; [intros b _; now apply V0|]. split.
    + intros _ Hd. unfold raw_block. cbn [k_defs]. rewrite Hd. cbn. eauto.
    + rewrite <- V20, <- V21, <- V22.
      destruct (consolidate ord sord (k_defs (raw_block a short))) as [d|x] eqn:Ec; cbn [bind]; (split; [|split]); split; intro K; try discriminate;
      exfalso; injection K as ->; exact (Hc _ _ Ec).
  - split; [intros b K; discriminate|]. split; [intros K; apply V0 in K; discriminate|].
    rewrite <- V20, <- V21, <- V22. split; [|split]; split; intro K; injection K as ->; reflexivity.
Qed.
