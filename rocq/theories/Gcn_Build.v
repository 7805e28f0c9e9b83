(* The functions that build the AST compute the meaning *)
From Verif Require Import Common Expr_Model SymDict_Model SymDict_More Gcn_Lex Gcn_Model Gcn_Meaning.
Local Open Scope list_scope.
Set Default Proof Using "Type".

(* ---- dicts ---- *)
Lemma firsts_In x l : In x (firsts l) <-> In x l.
Proof.
  induction l as [|k l IH]; [reflexivity|]. cbn [firsts In]. rewrite filter_In, IH. destruct (chars_eqb k x) eqn:E.
  - apply chars_eqb_eq in E. intuition (subst; auto; discriminate).
  - assert (k <> x) by (intros ->; now rewrite chars_eqb_refl in E). intuition.
Qed.
Lemma firsts_NoDup l : NoDup (firsts l).
Proof.
  induction l as [|k l IH]; cbn; constructor.
  - rewrite filter_In. rewrite chars_eqb_refl. intuition discriminate.
  - now apply NoDup_filter.
Qed.
Lemma filter_app' {A} (f : A -> bool) l l' : filter f (l ++ l') = filter f l ++ filter f l'.
Proof. apply filter_app. Qed.
Lemma firsts_snoc l k : firsts (l ++ [k]) = if existsb (chars_eqb k) l then firsts l else firsts l ++ [k].
Proof.
  induction l as [|x l IH]; [reflexivity|]. cbn [app firsts existsb]. rewrite IH. destruct (chars_eqb k x) eqn:E.
  - apply chars_eqb_eq in E. subst x. cbn [orb]. destruct (existsb (chars_eqb k) l); [reflexivity|]. rewrite filter_app. cbn [filter]. rewrite chars_eqb_refl. cbn [negb]. now rewrite app_nil_r.
  - cbn [orb]. destruct (existsb (chars_eqb k) l); [reflexivity|]. rewrite filter_app. cbn [filter]. assert (chars_eqb x k = false) as ->; [|reflexivity].
    destruct (chars_eqb x k) eqn:E2; [|reflexivity]. apply chars_eqb_eq in E2. subst. now rewrite chars_eqb_refl in E.
Qed.
Lemma exists_In k l : existsb (chars_eqb k) l = true <-> In k l.
Proof. rewrite existsb_exists. split; [intros (x & H & E); apply chars_eqb_eq in E; now subst|intro H; exists k; split; [exact H|apply chars_eqb_refl]]. Qed.
Section D.
Context {V : Type}.
Notation dset := (dset (V := V) chars_eqb).
Lemma dset_map_fst k v (d : list (chars * V)) : map fst (dset k v d) = if existsb (chars_eqb k) (map fst d) then map fst d else map fst d ++ [k].
Proof.
  induction d as [|[k' v'] d IH]; [reflexivity|]. cbn. destruct (chars_eqb k k') eqn:E; [reflexivity|]. cbn. rewrite IH. now destruct (existsb (chars_eqb k) (map fst d)).
Qed.
Lemma dset_In k v (d : list (chars * V)) : NoDup (map fst d) -> forall k' v', In (k', v') (dset k v d) <-> (k' = k /\ v' = v) \/ (k' <> k /\ In (k', v') d).
Proof.
  induction d as [|[x y] d IH]; intros Hn k' v'; cbn.
  - split; [intros [H|[]]; injection H as <- <-; auto|intros [[-> ->]|[_ []]]; auto].
  - inversion Hn as [|? ? Hx Hn']; subst. destruct (chars_eqb k x) eqn:E.
    + apply chars_eqb_eq in E. subst x. cbn. split.
      * intros [H|H]; [injection H as <- <-; auto|]. right. split; [|auto]. intros ->. apply Hx. apply in_map_iff. now exists (k, v').
      * intros [[-> ->]|[Hne [H|H]]]; [auto| |auto]. injection H as -> _. congruence.
    + assert (k <> x) by (intros ->; now rewrite chars_eqb_refl in E). cbn. rewrite IH by exact Hn'. split.
      * intros [H1|[[-> ->]|[H1 H2]]]; [injection H1 as <- <-; right; split; [congruence|auto]|auto|auto].
      * intros [[-> ->]|[H1 [H2|H2]]]; auto.
Qed.
Lemma dupd_snoc l kv : dupd chars_eqb [] (l ++ [kv]) = dset (fst kv) (snd kv) (dupd (V := V) chars_eqb [] l).
Proof. unfold dupd. now rewrite fold_left_app. Qed.
Lemma dupd_dict (l : list (chars * V)) : dict_of l (dupd chars_eqb [] l).
Proof.
  induction l as [|[k v] l IH] using rev_ind; [split; [reflexivity|]; intros k v; split; [intros []|intros (l1 & l2 & E & _); destruct l1; discriminate]|].
  destruct IH as [H1 H2]. assert (Hn : NoDup (map fst (dupd chars_eqb [] l))) by (rewrite H1; apply firsts_NoDup). rewrite dupd_snoc. cbn [fst snd]. split.
  - rewrite dset_map_fst, map_app, H1. cbn [map fst]. rewrite firsts_snoc. assert (existsb (chars_eqb k) (firsts (map fst l)) = existsb (chars_eqb k) (map fst l)) as ->; [|reflexivity].
    apply eq_true_iff_eq. rewrite !exists_In. apply firsts_In.
  - intros k' v'. rewrite dset_In by exact Hn. rewrite H2. split.
    + intros [[-> ->]|[Hne (l1 & l2 & -> & Hl)]]; [exists l, []; auto|]. exists l1, (l2 ++ [(k, v)]). split; [now rewrite <- app_assoc|]. rewrite map_app, in_app_iff. cbn. intuition.
    + intros (l1 & l2 & E & Hl). destruct l2 as [|x l2 _] using rev_ind.
      * apply app_inj_tail in E as [_ E]. injection E as <- <-. auto.
      * rewrite app_comm_cons, app_assoc in E. apply app_inj_tail in E as [-> <-]. rewrite map_app, in_app_iff in Hl. cbn in Hl. right. split; [intros ->; tauto|]. exists l1, l2. tauto.
Qed.
Lemma same_dict (d : list (chars * V)) : forall d', NoDup (map fst d) -> map fst d = map fst d' -> (forall kv, In kv d -> In kv d') -> d = d'.
Proof.
  induction d as [|[k v] d IH]; intros [|[k' v'] d'] Hn Hm Hi; try discriminate; [reflexivity|]. injection Hm as -> Hm. inversion Hn as [|? ? Hk Hn']; subst.
  assert (Hk' : ~ In k' (map fst d')) by (now rewrite <- Hm). assert (v = v') as ->.
  { destruct (Hi (k', v) (or_introl eq_refl)) as [H|H]; [now injection H|]. exfalso. apply Hk', in_map_iff. now exists (k', v). }
  f_equal. apply IH; auto. intros kv H. destruct (Hi kv (or_intror H)) as [<-|H']; [|exact H']. exfalso. apply Hk, in_map_iff. now exists (k', v').
Qed.
Lemma dict_of_iff l (d : list (chars * V)) : dict_of l d <-> d = dupd chars_eqb [] l.
Proof.
  split; [|intros ->; apply dupd_dict]. intros [H1 H2]. destruct (dupd_dict l) as [H3 H4]. apply same_dict; [rewrite H1; apply firsts_NoDup|congruence|]. intros [k v] H. apply H4, H2, H.
Qed.
End D.
(* ---- the last component of a kind ---- *)
Section Last.
Context {A B : Type} (f : A -> option B).
Fixpoint last_of (l : list A) (d : B) : B := match l with [] => d | x :: l' => last_of l' (match f x with Some b => b | None => d end) end.
Lemma is_last_iff l : forall d a, is_last f l d a <-> a = last_of l d.
Proof.
  induction l as [|x l IH]; intros d a; cbn [last_of].
  - split; [intros [(l1 & y & l2 & E & _)|[_ E]]; [destruct l1; discriminate|exact E]|intros ->; right; split; [intros y []|reflexivity]].
  - rewrite <- IH. unfold is_last. split.
    + intros [(l1 & y & l2 & E & Hy & Hn)|[Hn E]].
      * destruct l1 as [|z l1]; [injection E as -> ->; right; split; [exact Hn|now rewrite Hy]|]. injection E as -> ->. left. eauto 6.
      * right. split; [intros y Hy; apply Hn; now right|]. now rewrite (Hn x (or_introl eq_refl)).
    + intros [(l1 & y & l2 & -> & Hy & Hn)|[Hn ->]]; [left; exists (x :: l1), y, l2; auto|].
      destruct (f x) as [b|] eqn:E; [left; exists [], x, l; auto|]. right. split; [intros y [<-|Hy]; auto|reflexivity].
Qed.
End Last.
(* ---- distributions ---- *)
Section F.
Context {F : Type} (fread : chars -> F) (farith : dop -> F -> F -> result F).
Lemma eval_rest_iff o l : forall v w, eval_rest fread farith o v l = Ok w <-> exists ts, l = map DN ts /\ chain fread farith o v ts w.
Proof.
  induction l as [|e l IH]; intros v w; cbn.
  - split; [intro H; injection H as <-; exists []; split; [reflexivity|constructor]|]. intros (ts & E & H). destruct ts; [|discriminate]. now inversion H.
  - split.
    + destruct e as [t|]; cbn; [|discriminate]. destruct (farith o v (fread t)) as [v'|] eqn:E; [|discriminate]. intro H. apply IH in H as (ts & -> & H). exists (t :: ts). split; [reflexivity|]. now apply (chain_next _ _ _ _ _ _ v').
    + intros (ts & E & H). destruct ts as [|t ts]; [discriminate|]. injection E as -> ->. inversion H as [|v0 t0 ts0 v' v'' E H']; subst. cbn. rewrite E. apply IH. eauto.
Qed.
Lemma eval_dnum_iff e v : eval_dnum fread farith e = Ok v <-> value_of fread farith e v.
Proof.
  destruct e as [t|o a l]; cbn.
  - split; [intro H; injection H as <-; constructor|intro H; now inversion H].
  - split.
    + destruct a as [t|]; cbn; [|discriminate]. intro H. apply eval_rest_iff in H as (ts & -> & H). now constructor.
    + intro H. inversion H as [|o0 t ts v0 Hc]; subst. cbn. apply eval_rest_iff. eauto.
Qed.
Lemma eval_args_iff l : forall acc d, eval_args fread farith acc l = Ok d <-> exists vs, Forall2 (arg_of fread farith) l vs /\ d = dupd chars_eqb acc vs.
Proof.
  induction l as [|[k a] l IH]; intros acc d; cbn.
  - split; [intro H; injection H as <-; exists []; auto|]. intros (vs & H & ->). inversion H. reflexivity.
  - assert (G : forall v, eval_darg fread farith a = Ok v <-> arg_of fread farith (k, a) (k, v)).
    { intro v. destruct a as [e| |n]; cbn.
      - destruct (eval_dnum fread farith e) as [x|] eqn:E.
        + split; [intro H; injection H as <-; constructor; now apply eval_dnum_iff|]. intro H. inversion H as [? ? y Hy| |]; subst. apply eval_dnum_iff in Hy. congruence.
        + split; [discriminate|]. intro H. inversion H as [? ? y Hy| |]; subst. apply eval_dnum_iff in Hy. congruence.
      - split; [intro H; injection H as <-; constructor|intro H; now inversion H].
      - split; [intro H; injection H as <-; constructor|intro H; now inversion H]. }
    split.
    + destruct (eval_darg fread farith a) as [v|] eqn:E; [|discriminate]. intro H. apply IH in H as (vs & Hf & ->). exists ((k, v) :: vs). split; [constructor; [now apply G|exact Hf]|reflexivity].
    + intros (vs & Hf & ->). inversion Hf as [|? y ? vs' Ha Hf']; subst. assert (exists v, y = (k, v)) as [v ->] by (inversion Ha; eauto). apply G in Ha. rewrite Ha. apply IH. eauto.
Qed.
Lemma args_iff l d : eval_args fread farith [] l = Ok d <-> args_meaning fread farith l d.
Proof. rewrite eval_args_iff. unfold args_meaning. split; intros (vs & H & E); exists vs; (split; [exact H|]); now apply dict_of_iff. Qed.
Lemma build_dist_iff r d : build_dist fread farith r = Ok d <-> dist_of fread farith r d.
Proof.
  destruct r as [p n a w i], d as [p' n' a' w' wa' i']. unfold build_dist, dist_of. cbn [rd_par rd_name rd_args rd_wrapper rd_init d_par d_name d_args d_wrapper d_wargs d_init]. split.
  - intro H. destruct (eval_args fread farith [] a) as [x|] eqn:E1; [|discriminate]. apply args_iff in E1.
    destruct (match w with Some (_, l) => eval_args fread farith [] l | None => Ok [] end) as [y|] eqn:E2; [|discriminate].
    assert (G : match w with Some (w0, l) => option_map fst w = Some w0 /\ args_meaning fread farith l y | None => option_map fst w = None /\ y = [] end).
    { destruct w as [[w0 l]|]; cbn; [split; [reflexivity|now apply args_iff]|split; [reflexivity|congruence]]. }
    destruct i as [e|].
    + destruct (eval_dnum fread farith e) as [v|] eqn:E3; [|discriminate]. apply eval_dnum_iff in E3. injection H as <- <- <- <- <- <-. repeat split; auto. exists v. auto.
    + injection H as <- <- <- <- <- <-. repeat split; auto.
  - intros (-> & -> & Ha & Hw & Hi). apply args_iff in Ha. rewrite Ha. assert (E2 : (match w with Some (_, l) => eval_args fread farith [] l | None => Ok [] end) = Ok wa' /\ w' = option_map fst w).
    { destruct w as [[w0 l]|]; destruct Hw as [-> Hw]; [split; [now apply args_iff|reflexivity]|subst; split; reflexivity]. }
    destruct E2 as [-> ->]. destruct i as [e|]; [destruct Hi as (v & -> & Hv); apply eval_dnum_iff in Hv; now rewrite Hv|now subst].
Qed.
Lemma build_items_iff l : forall r, build_items fread farith l = Ok r <-> Forall2 (item_of fread farith) l r.
Proof.
  induction l as [|[d|e] l IH]; intro r; cbn.
  - split; [intro H; injection H as <-; constructor|intro H; now inversion H].
  - split.
    + destruct (build_dist fread farith d) as [d'|] eqn:E; [|discriminate]. apply build_dist_iff in E. destruct (build_items fread farith l) as [r'|]; [|discriminate]. intro H. injection H as <-. constructor; [now constructor|now apply IH].
    + intro H. inversion H as [|? y ? r' Hi Hr]; subst. inversion Hi as [? d' Hd|]; subst. apply build_dist_iff in Hd. rewrite Hd. apply IH in Hr. now rewrite Hr.
  - split.
    + destruct (build_items fread farith l) as [r'|]; [|discriminate]. intro H. injection H as <-. constructor; [constructor|now apply IH].
    + intro H. inversion H as [|? y ? r' Hi Hr]; subst. inversion Hi; subst. apply IH in Hr. now rewrite Hr.
Qed.
(* ---- blocks ---- *)
Definition cal_of (c : component F) : option (list (rawdist + equation F)) := match c with CCalibration l => Some l | _ => None end.
Lemma set_components_iff cs : forall b b', set_components fread farith b cs = Ok b' <->
  b_name b' = b_name b /\
  definitions b' = last_of (fun c => match c with CDefinitions l => Some l | _ => None end) cs (definitions b) /\
  controls b' = last_of (fun c => match c with CControls l => Some l | _ => None end) cs (controls b) /\
  objective b' = last_of (fun c => match c with CObjective l => Some l | _ => None end) cs (objective b) /\
  constraints b' = last_of (fun c => match c with CConstraints l => Some l | _ => None end) cs (constraints b) /\
  identities b' = last_of (fun c => match c with CIdentities l => Some l | _ => None end) cs (identities b) /\
  (shocks b', shock_dists b') = last_of (fun c => match c with CShocks v d => Some (v, d) | _ => None end) cs (shocks b, shock_dists b) /\
  (forall l, In (CCalibration l) cs -> exists r, Forall2 (item_of fread farith) l r) /\
  (match last_of (fun c => match cal_of c with Some l => Some (Some l) | None => None end) cs None with
   | Some l => Forall2 (item_of fread farith) l (calibration b')
   | None => calibration b' = calibration b
   end).
Proof.
  induction cs as [|c cs IH]; intros b b'; cbn [set_components last_of].
  - destruct b as [n d ct o cn i s sd cal], b' as [n' d' ct' o' cn' i' s' sd' cal']; cbn. split.
    + intro H. injection H as <- <- <- <- <- <- <- <- <-. repeat (split; [reflexivity|]). split; [intros l []|reflexivity].
    + intros (-> & -> & -> & -> & -> & -> & E & _ & ->). now injection E as -> ->.
  - assert (Gl : forall (d : option (list (rawdist + equation F))), match last_of (fun c => match cal_of c with Some l => Some (Some l) | None => None end) cs d with Some l => True | None => d = None end).
    { clear. induction cs as [|c cs IH]; intros d; cbn; [now destruct d|]. destruct (cal_of c); [specialize (IH (Some l)); destruct (last_of _ cs (Some l)); [exact I|discriminate]|apply IH]. }
    assert (Gd : forall d, last_of (fun c => match cal_of c with Some l => Some (Some l) | None => None end) cs d =
      match last_of (fun c => match cal_of c with Some l => Some (Some l) | None => None end) cs None with Some l => Some l | None => d end).
    { clear. induction cs as [|c cs IH]; intros d; cbn; [reflexivity|]. destruct (cal_of c); [|apply IH]. rewrite (IH (Some l)). now destruct (last_of _ cs None). }
    destruct b as [n d ct o cn i s sd cal]. destruct c as [l|l|l|l|l|v ds|l]; cbn [set_component].
    1-6: rewrite IH; cbn [b_name definitions controls objective constraints identities shocks shock_dists calibration cal_of];
      split; intros (H1 & H2 & H3 & H4 & H5 & H6 & H7 & H8 & H9); repeat (split; [assumption|]); (split; [|exact H9]); intros l0 H0;
      [destruct H0 as [H0|H0]; [discriminate|auto]|apply H8; now right].
    destruct (build_items fread farith l) as [r|x] eqn:E.
    + rewrite IH; cbn [b_name definitions controls objective constraints identities shocks shock_dists calibration cal_of]. rewrite (Gd (Some l)).
      apply build_items_iff in E. split; intros (H1 & H2 & H3 & H4 & H5 & H6 & H7 & H8 & H9); repeat (split; [assumption|]).
      * split; [intros l0 [H0|H0]; [injection H0 as <-; eauto|auto]|]. destruct (last_of _ cs None); [exact H9|now rewrite H9].
      * split; [intros l0 H0; apply H8; now right|]. destruct (last_of _ cs None); [exact H9|]. apply build_items_iff in E, H9. congruence.
    + split; [discriminate|]. intros (_ & _ & _ & _ & _ & _ & _ & H8 & _). exfalso. destruct (H8 l (or_introl eq_refl)) as [r Hr]. apply build_items_iff in Hr. congruence.
Qed.
Lemma build_block_iff nc b : build_block fread farith nc = Ok b <-> block_of fread farith nc b.
Proof.
  destruct nc as [n cs]. unfold build_block, block_of. cbn [fst snd]. rewrite set_components_iff. cbn [b_name definitions controls objective constraints identities shocks shock_dists calibration].
  rewrite !is_last_iff. assert (G : forall b', match last_of (fun c => match cal_of c with Some l => Some (Some l) | None => None end) cs None with
     | Some l => Forall2 (item_of fread farith) l b' | None => b' = [] end <->
     exists l, is_last (fun c => match c with CCalibration l => Some l | _ => None end) cs [] l /\ Forall2 (item_of fread farith) l b').
  { intro b'. assert (G : last_of (fun c => match c with CCalibration l => Some l | _ => None end) cs [] =
      match last_of (fun c => match cal_of c with Some l => Some (Some l) | None => None end) cs None with Some l => l | None => [] end).
    { assert (Q : forall o, last_of (fun c => match c with CCalibration l => Some l | _ => None end) cs (match o with Some l => l | None => [] end) =
        match last_of (fun c => match cal_of c with Some l => Some (Some l) | None => None end) cs o with Some l => l | None => [] end); [|exact (Q None)].
      clear. induction cs as [|c cs IH]; intro o; cbn; [reflexivity|]. destruct c; cbn; try apply IH. exact (IH (Some l)). }
    destruct (last_of (fun c => match cal_of c with Some l => Some (Some l) | None => None end) cs None) as [l|].
    - split; [intro H; exists l; split; [now apply is_last_iff|exact H]|]. intros (l' & H & H'). apply is_last_iff in H. rewrite G in H. now subst.
    - split; [intros ->; exists []; split; [now apply is_last_iff|constructor]|]. intros (l' & H & H'). apply is_last_iff in H. rewrite G in H. subst. now inversion H'. }
  rewrite G. reflexivity.
Qed.
Lemma build_blocks_iff l : forall r, build_blocks fread farith l = Ok r <-> Forall2 (block_of fread farith) l r.
Proof.
  induction l as [|b l IH]; intro r; cbn.
  - split; [intro H; injection H as <-; constructor|intro H; now inversion H].
  - split.
    + destruct (build_block fread farith b) as [d'|] eqn:E; [|discriminate]. apply build_block_iff in E. destruct (build_blocks fread farith l) as [r'|]; [|discriminate]. intro H. injection H as <-. constructor; [assumption|now apply IH].
    + intro H. inversion H as [|? y ? r' Hi Hr]; subst. apply build_block_iff in Hi. rewrite Hi. apply IH in Hr. now rewrite Hr.
Qed.
End F.
(* ---- assumptions ---- *)
Definition trues (l : list chars) : list (chars * bool) := map (fun k => (k, true)) l.
Lemma trues_fst l : map fst (trues l) = l.
Proof. unfold trues. rewrite map_map. cbn. apply map_id. Qed.
Lemma dset_trues k l : NoDup l -> dset chars_eqb k true (trues l) = trues (if existsb (chars_eqb k) l then l else l ++ [k]).
Proof.
  unfold trues. induction l as [|x l IH]; intro Hn; [reflexivity|]. inversion Hn; subst. cbn. destruct (chars_eqb k x) eqn:E; [reflexivity|]. cbn. rewrite IH by assumption. now destruct (existsb (chars_eqb k) l).
Qed.
Lemma dset_firsts k l : dset chars_eqb k true (trues (firsts l)) = trues (firsts (l ++ [k])).
Proof.
  rewrite dset_trues by apply firsts_NoDup. rewrite firsts_snoc. f_equal. assert (existsb (chars_eqb k) (firsts l) = existsb (chars_eqb k) l) as ->; [|reflexivity].
  apply eq_true_iff_eq. rewrite !exists_In. apply firsts_In.
Qed.
Definition pkinds (ps : list (chars * chars)) (v : chars) : list chars := flat_map (fun av => if chars_eqb (snd av) v then listing (fst av) else []) ps.
Definition pairs (l : list (chars * list chars)) : list (chars * chars) := flat_map (fun sb => map (fun v => (fst sb, v)) (snd sb)) l.
Lemma pairs_kinds l v : pkinds (pairs l) v = kinds l v.
Proof.
  unfold pkinds, pairs, kinds. induction l as [|[a vs] l IH]; [reflexivity|]. cbn [flat_map fst snd]. rewrite flat_map_app, IH. f_equal. clear IH. induction vs as [|x vs IH]; [reflexivity|]. cbn. now rewrite IH.
Qed.
Lemma pairs_vars l : map snd (pairs l) = concat (map snd l).
Proof.
  unfold pairs. induction l as [|[a vs] l IH]; [reflexivity|]. cbn [flat_map fst snd map concat]. rewrite map_app, IH. f_equal. rewrite map_map. cbn. apply map_id.
Qed.
Lemma dget_In {V} k (d : list (chars * V)) v : NoDup (map fst d) -> (dget chars_eqb k d = Some v <-> In (k, v) d).
Proof.
  induction d as [|[x y] d IH]; intro Hn; cbn; [split; [discriminate|intros []]|]. inversion Hn as [|? ? Hx Hn']; subst. destruct (chars_eqb k x) eqn:E.
  - apply chars_eqb_eq in E. subst x. split; [intro H; injection H as ->; auto|]. intros [H|H]; [now injection H as ->|]. exfalso. apply Hx, in_map_iff. now exists (k, v).
  - rewrite IH by exact Hn'. split; [auto|]. intros [H|H]; [injection H as -> _; now rewrite chars_eqb_refl in E|exact H].
Qed.
Lemma dget_None {V} k (d : list (chars * V)) : dget chars_eqb k d = None <-> ~ In k (map fst d).
Proof.
  induction d as [|[x y] d IH]; cbn; [tauto|]. destruct (chars_eqb k x) eqn:E.
  - apply chars_eqb_eq in E. subst. split; [discriminate|tauto].
  - assert (x <> k) by (intros ->; now rewrite chars_eqb_refl in E). rewrite IH. tauto.
Qed.
Lemma build_pairs ps : let d := fold_left (fun d av => assume (fst av) (snd av) d) ps [] in
  map fst d = firsts (map snd ps) /\ forall v a, In (v, a) d -> a = trues (firsts (str "real" :: pkinds ps v)).
Proof.
  induction ps as [|[a v] ps IH] using rev_ind; cbn zeta in *; [split; [reflexivity|intros v a []]|]. rewrite fold_left_app. cbn [fold_left fst snd]. destruct IH as [H1 H2].
  set (d := fold_left (fun d av => assume (fst av) (snd av) d) ps []) in *. assert (Hn : NoDup (map fst d)) by (rewrite H1; apply firsts_NoDup).
  assert (Hcur : match dget chars_eqb v d with Some x => x | None => default_assumptions end = trues (firsts (str "real" :: pkinds ps v))).
  { destruct (dget chars_eqb v d) as [x|] eqn:E; [apply H2; now apply dget_In|]. apply dget_None in E. rewrite H1, firsts_In in E.
    assert (pkinds ps v = []) as ->; [|reflexivity]. clear -E. induction ps as [|[a' v'] ps IH]; [reflexivity|]. cbn in *. destruct (chars_eqb v' v) eqn:Ev; [apply chars_eqb_eq in Ev; subst; tauto|]. cbn. apply IH. tauto. }
  unfold assume. rewrite Hcur. split.
  - rewrite dset_map_fst, map_app, H1. cbn [map snd]. rewrite firsts_snoc. assert (existsb (chars_eqb v) (firsts (map snd ps)) = existsb (chars_eqb v) (map snd ps)) as ->; [|reflexivity].
    apply eq_true_iff_eq. rewrite !exists_In. apply firsts_In.
  - intros v' x Hx. apply dset_In in Hx; [|exact Hn]. unfold pkinds. rewrite flat_map_app. cbn [flat_map fst snd]. rewrite app_nil_r. fold (pkinds ps v'). destruct Hx as [[-> ->]|[Hne Hx]].
    + rewrite chars_eqb_refl, dset_firsts. unfold listing. destruct (chars_eqb (map lower a) (str "unit_interval")) eqn:E.
      * rewrite dset_firsts. apply chars_eqb_eq in E. rewrite E. f_equal. f_equal. cbn [app]. now rewrite <- app_assoc.
      * reflexivity.
    + assert (chars_eqb v v' = false) as ->; [|rewrite app_nil_r; now apply H2]. destruct (chars_eqb v v') eqn:E; [apply chars_eqb_eq in E; congruence|reflexivity].
Qed.
Lemma build_assumptions_iff l d : assumptions_of l d <-> d = build_assumptions l.
Proof.
  destruct (build_pairs (pairs l)) as [H1 H2]. fold (build_assumptions l) in *. change (fold_left (fun d av => assume (fst av) (snd av) d) (pairs l) []) with (build_assumptions l) in *. rewrite pairs_vars in H1. unfold assumptions_of. split.
  - intros [H3 H4]. apply same_dict; [rewrite H3; apply firsts_NoDup|congruence|]. intros [v a] H. assert (In v (map fst (build_assumptions l))) by (rewrite H1, <- H3; apply in_map_iff; now exists (v, a)).
    apply in_map_iff in H0 as [[v' a'] [E Hi]]. cbn in E. subst v'. rewrite (H4 v a H). specialize (H2 v a' Hi). rewrite pairs_kinds in H2. unfold trues in H2. now rewrite <- H2.
  - intros ->. split; [exact H1|]. intros v a H. specialize (H2 v a H). now rewrite pairs_kinds in H2.
Qed.
(* ---- models ---- *)
Lemma set_specials {F} l : forall m : gmodel F, let m' := fold_left set_special l m in
  blocks m' = blocks m /\
  options m' = (match last_of (fun s => match s with SOptions l => Some (Some l) | _ => None end) l None with Some x => build_options x | None => options m end) /\
  tryreduce m' = last_of (fun s => match s with STryreduce l => Some l | _ => None end) l (tryreduce m) /\
  assumptions m' = (match last_of (fun s => match s with SAssumptions l => Some (Some l) | _ => None end) l None with Some x => build_assumptions x | None => assumptions m end).
Proof.
  assert (Q : forall {A B} (f : A -> option (option B)) l d, (forall x, f x <> Some None) -> last_of f l d = match last_of f l None with Some y => Some y | None => d end).
  { clear. intros A B f l d Hf. revert d. induction l as [|x l IH]; intro d; cbn; [reflexivity|]. destruct (f x) as [[y|]|] eqn:E; [|exfalso; now apply (Hf x)|apply IH]. rewrite (IH (Some y)). now destruct (last_of f l None). }
  induction l as [|s l IH]; intro m; cbn zeta; [cbn; auto|]. cbn [fold_left last_of]. destruct (IH (set_special m s)) as (H1 & H2 & H3 & H4). cbn zeta in *. rewrite H1, H2, H3, H4. destruct m as [b o t a], s as [x|x|x]; cbn [set_special blocks options tryreduce assumptions].
  - rewrite (Q _ _ (fun s => match s with SOptions l => Some (Some l) | _ => None end) l (Some x)); [|intros []; discriminate]. destruct (last_of (fun s => match s with SOptions l => Some (Some l) | _ => None end) l None); auto.
  - auto.
  - rewrite (Q _ _ (fun s => match s with SAssumptions l => Some (Some l) | _ => None end) l (Some x)); [|intros []; discriminate]. destruct (last_of (fun s => match s with SAssumptions l => Some (Some l) | _ => None end) l None); auto.
Qed.
Lemma build_model_iff {F} (fread : chars -> F) farith raw m : build_model fread farith raw = Ok m <-> model_of fread farith raw m.
Proof.
  destruct raw as [sp bs]. unfold build_model, model_of. cbn [fst snd].
  assert (GO : last_of (fun s => match s with SOptions l => Some l | _ => None end) sp [] =
    match last_of (fun s => match s with SOptions l => Some (Some l) | _ => None end) sp None with Some l => l | None => [] end).
  { assert (Q : forall o, last_of (fun s => match s with SOptions l => Some l | _ => None end) sp (match o with Some l => l | None => [] end) =
      match last_of (fun s => match s with SOptions l => Some (Some l) | _ => None end) sp o with Some l => l | None => [] end); [|exact (Q None)].
    clear. induction sp as [|c cs IH]; intro o; cbn; [reflexivity|]. destruct c; cbn; try apply IH. exact (IH (Some l)). }
  assert (GA : last_of (fun s => match s with SAssumptions l => Some l | _ => None end) sp [] =
    match last_of (fun s => match s with SAssumptions l => Some (Some l) | _ => None end) sp None with Some l => l | None => [] end).
  { assert (Q : forall o, last_of (fun s => match s with SAssumptions l => Some l | _ => None end) sp (match o with Some l => l | None => [] end) =
      match last_of (fun s => match s with SAssumptions l => Some (Some l) | _ => None end) sp o with Some l => l | None => [] end); [|exact (Q None)].
    clear. induction sp as [|c cs IH]; intro o; cbn; [reflexivity|]. destruct c; cbn; try apply IH. exact (IH (Some l)). }
  assert (GO' : forall d, (exists l, is_last (fun s => match s with SOptions l => Some l | _ => None end) sp [] l /\ dict_of l d) <->
    d = match last_of (fun s => match s with SOptions l => Some (Some l) | _ => None end) sp None with Some x => build_options x | None => [] end).
  { intro d. split.
    - intros (l & Hl & Hd). apply is_last_iff in Hl. apply dict_of_iff in Hd. rewrite GO in Hl. subst. destruct (last_of _ sp None); reflexivity.
    - intro H. exists (last_of (fun s => match s with SOptions l => Some l | _ => None end) sp []). split; [now apply is_last_iff|]. apply dict_of_iff. rewrite GO. destruct (last_of _ sp None); exact H. }
  assert (GA' : forall d, (exists l, is_last (fun s => match s with SAssumptions l => Some l | _ => None end) sp [] l /\ assumptions_of l d) <->
    d = match last_of (fun s => match s with SAssumptions l => Some (Some l) | _ => None end) sp None with Some x => build_assumptions x | None => [] end).
  { intro d. split.
    - intros (l & Hl & Hd). apply is_last_iff in Hl. apply build_assumptions_iff in Hd. rewrite GA in Hl. subst. destruct (last_of (fun s => match s with SAssumptions l => Some (Some l) | _ => None end) sp None); reflexivity.
    - intro H. exists (last_of (fun s => match s with SAssumptions l => Some l | _ => None end) sp []). split; [now apply is_last_iff|]. apply build_assumptions_iff. rewrite GA. destruct (last_of (fun s => match s with SAssumptions l => Some (Some l) | _ => None end) sp None); exact H. }
  rewrite GO', GA', is_last_iff. destruct (build_blocks fread farith bs) as [b|x] eqn:E.
  - apply build_blocks_iff in E. destruct (set_specials sp (Model b [] [] [])) as (H1 & H2 & H3 & H4). cbn zeta in *. cbn [blocks options tryreduce assumptions] in *. split.
    + intro H. injection H as <-. rewrite H1, H2, H3, H4. auto.
    + intros (G1 & G2 & G3 & G4). f_equal. destruct (fold_left set_special sp (Model b [] [] [])) as [b' o t a], m as [b'' o' t' a']. cbn [blocks options tryreduce assumptions] in *. subst. f_equal.
      apply build_blocks_iff in E, G1. congruence.
  - split; [discriminate|]. intros (G1 & _). apply build_blocks_iff in G1. congruence.
Qed.
