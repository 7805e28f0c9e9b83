(* The PyTensor view of a model: proofs. *)
From Verif Require Import Common Conv_Model Conv_Spec Conv_Proofs Conv_Runs Conv_Wire Tens_Model Tens_Spec.
From Coq Require Import Lia.

Lemma smem_iff s l : smem s l = true <-> In s l.
Proof. unfold smem. destruct (in_dec sym_dec s l); split; easy. Qed.
Lemma nmem_iff s l : nmem s l = true <-> In s l.
Proof. unfold nmem. destruct (in_dec (list_eq_dec ascii_dec) s l); split; easy. Qed.
Lemma imem_iff i l : imem i l = true <-> In i l.
Proof. unfold imem. rewrite existsb_exists. split; [intros (x & H & E); apply Nat.eqb_eq in E; now subst|intros H; exists i; split; [easy|apply Nat.eqb_refl]]. Qed.
Lemma picks_filter {A B} (R R' : A -> B -> Prop) (P : B -> Prop) (f : A -> bool) ns os : Forall2 R ns os ->
  (forall n o, In o os -> R n o -> (f n = true <-> P o) /\ R' n o) -> exists es, picks P os es /\ Forall2 R' (filter f ns) es.
Proof.
  induction 1 as [|n o ns os H HF IH]; intros Q; [exists []; split; constructor|]. destruct IH as (es & P1 & F1); [intros; apply Q; [now right|easy]|].
  destruct (Q n o (or_introl eq_refl) H) as [E1 E2]. cbn [filter]. destruct (f n).
  - exists (o :: es). split; [apply picks_keep; [now apply E1|easy]|now constructor].
  - exists es. split; [apply picks_drop; [intros C; apply E1 in C; discriminate|easy]|easy].
Qed.
Lemma picks_self {A} (P : A -> Prop) (f : A -> bool) l : (forall x, In x l -> (f x = true <-> P x)) -> picks P l (filter f l).
Proof.
  induction l as [|x l IH]; intros H; cbn [filter]; [constructor|]. specialize (IH (fun y Hy => H y (or_intror Hy))). destruct (H x (or_introl eq_refl)) as [H1 H2].
  destruct (f x); [apply picks_keep; auto|apply picks_drop; [intros C; apply H2 in C; discriminate|easy]].
Qed.
Lemma picks_in {A} (P : A -> Prop) l r : picks P l r -> forall x, In x r <-> In x l /\ P x.
Proof. induction 1; intros y; cbn [In]; [tauto| |]; rewrite IHpicks; split; intros H1; [destruct H1 as [<-|[]]|destruct H1 as [[<-|] ?]|destruct H1|destruct H1 as [[<-|] ?]]; tauto. Qed.

Section P.
Context {V Op : Type}.
Variable sem : Op -> list V -> V.
Notation expr := (expr V Op).
Notation node := (node V Op).
Notation state := (state V Op).
Notation output := (output V Op).
Notation evale := (evale sem).
Notation evaln := (evaln sem).
Notation evalo := (evalo sem).
Variable cse : list expr -> list (sym * expr) * list expr.
Variable deriv : expr -> sym -> expr.
Variable is_number : expr -> bool.
Variable zero : V.
Hypothesis CSE : cse_ok sem cse.

Lemma dependsb_iff i : forall n : node, dependsb i n = true <-> depends i n.
Proof.
  induction n as [v|j nm|f l IH] using node_ind'; cbn [dependsb].
  - split; [discriminate|intros H; inversion H].
  - rewrite Nat.eqb_eq. split; [intros ->; constructor|intros H; now inversion H].
  - rewrite existsb_exists. rewrite Forall_forall in IH. split.
    + intros (x & Hx & D). econstructor; [exact Hx|now apply IH].
    + intros H. inversion H; subst. exists n. split; [easy|now apply IH].
Qed.
Lemma replace_dep (m : mapping V Op) i : forall n : node, depends i (replace m n) <-> exists j, depends j n /\ match lookup j m with Some w => depends i w | None => i = j end.
Proof.
  induction n as [v|j nm|f l IH] using node_ind'; cbn [replace].
  - split; [intros H; inversion H|intros (j & H & _); inversion H].
  - split.
    + intros H. exists j. split; [constructor|]. destruct (lookup j m); [easy|now inversion H].
    + intros (j' & H & E). inversion H; subst. destruct (lookup j m); [easy|subst; constructor].
  - rewrite Forall_forall in IH. split.
    + intros H. inversion H as [|? ? n Hn Hd]; subst. apply in_map_iff in Hn as (x & <- & Hx). apply IH in Hd as (j & Hj & E); [|easy]. exists j. split; [econstructor; eauto|easy].
    + intros (j & H & E). inversion H as [|? ? n Hn Hd]; subst. econstructor; [apply in_map_iff; exists n; eauto|]. apply IH; eauto.
Qed.

(* the inputs of a converted expression are those of its symbols *)
Definition dep_ok (fin : state) (n : node) (e : expr) : Prop := forall i, depends i n <-> exists x, occurs x e /\ i = number fin (key_of x).
Lemma as_tensor_dep fin : inv fin -> forall e st, inv st -> clean e -> kept (snd (as_tensor e st)) fin -> dep_ok fin (fst (as_tensor e st)) e.
Proof.
  intros F. induction e as [v|s|f l IH] using expr_ind'; intros st I C K i.
  - cbn. split; [intros H; inversion H|intros (x & H & _); inversion H].
  - cbn [as_tensor] in *. destruct (input_for (key_of s) st) as [n st'] eqn:E. cbn [fst snd] in *. destruct (input_for_ok _ _ _ _ I E) as (a & b & _).
    assert (~ is_temp (key_of s)) as Ns by (apply C; constructor). pose proof (K _ _ Ns b) as b'. destruct (i_inp _ F _ _ Ns b') as (j & -> & _).
    assert (number fin (key_of s) = j) as <- by (unfold number; now rewrite b'). split.
    + intros H. inversion H; subst. exists s. split; [constructor|easy].
    + intros (x & H & ->). inversion H; subst. constructor.
  - rewrite as_tensor_app in *. cbn [fst snd] in *.
    assert (Forall2 (dep_ok fin) (fst (as_tensors l st)) l) as G.
    { assert (forall e, In e l -> clean e) as Cl by (intros e He x Hx; apply C; econstructor; eauto). clear C. revert st I K. induction IH as [|e l He HF IHl]; intros st I K; cbn [as_tensors fst snd] in *; constructor.
      - destruct (as_tensor_state e st I) as [a b]. destruct (as_tensors_state l _ a) as [c d']. apply He; [easy|apply Cl; now left|]. eapply kept_trans; [|exact K]. intros k n _ Q. now apply d'.
      - destruct (as_tensor_state e st I) as [a b]. apply IHl; auto. intros e' He'. apply Cl. now right. }
    split.
    + intros H. inversion H as [|? ? n Hn Hd]; subst. apply In_nth_error in Hn as [j Hj].
      assert (exists e, nth_error l j = Some e /\ dep_ok fin n e) as (e & He & D). { clear - G Hj. revert j Hj. induction G; intros [|j] Hj; cbn in *; try discriminate; [injection Hj as <-; eauto|eauto]. }
      destruct (proj1 (D i) Hd) as (x & Hx & Q). exists x. split; [|easy]. econstructor; [eapply nth_error_In; eauto|easy].
    + intros (x & Hx & ->). inversion Hx as [|? ? e He Ho]; subst. apply In_nth_error in He as [j Hj]. destruct (Forall2_nth_r _ _ _ G j e Hj) as (n & Hn & D).
      econstructor; [eapply nth_error_In; eauto|]. apply D. eauto.
Qed.
Lemma as_tensors_dep fin l : inv fin -> forall st, inv st -> (forall e, In e l -> clean e) -> kept (snd (as_tensors l st)) fin -> Forall2 (dep_ok fin) (fst (as_tensors l st)) l.
Proof.
  intros F. induction l as [|e l IH]; intros st I Cl K; cbn [as_tensors fst snd] in *; constructor.
  - destruct (as_tensor_state e st I) as [a b]. destruct (as_tensors_state l _ a) as [c d']. apply as_tensor_dep; [easy|easy|apply Cl; now left|]. eapply kept_trans; [|exact K]. intros k n _ Q. now apply d'.
  - destruct (as_tensor_state e st I) as [a b]. apply IH; auto. intros e' He'. apply Cl. now right.
Qed.
Definition dep_out (fin : state) (n : node) (o : output) : Prop := forall i, depends i n <-> exists k, mentions o k /\ i = number fin k.
Definition clean_outs (outs : list output) : Prop := forall o e, In o outs -> o = inr e -> clean e.
Lemma clean_outs_F outs : clean_outs outs -> Forall clean (exprs_of outs).
Proof. intros H. apply Forall_forall. intros e He. apply in_exprs_of in He. exact (H _ e He eq_refl). Qed.
(* convert without common subexpressions *)
Lemma convert_plain ins outs st : Forall clean_sym ins -> clean_outs outs -> inv st ->
  let r := convert cse ins outs false st in
  inv (snd r) /\ kept st (snd r) /\ (forall s, In s ins -> exists n, cache (snd r) (key_of s) = Some n) /\
  forall fin, inv fin -> kept (snd r) fin ->
    Forall2 (fun n o => dep_out fin n o /\ forall x, evaln x n = evalo (fun k => x (number fin k)) o) (snd (fst r)) outs.
Proof.
  intros Ci Co I r. destruct (convert_ok sem cse CSE ins outs false st Ci (clean_outs_F _ Co) I) as (a & b & c). fold r in a, b, c.
  assert (r = (fst (as_tensors (map Sy ins) st), fst (as_tensors (map to_expr outs) (snd (as_tensors (map Sy ins) st))), snd (as_tensors (map to_expr outs) (snd (as_tensors (map Sy ins) st))))) as Er by reflexivity.
  destruct (as_tensors_state (map Sy ins) st I) as [a1 b1]. destruct (as_tensors_state (map to_expr outs) _ a1) as [a2 b2].
  split; [easy|]. split; [easy|]. split.
  - intros s Hs. rewrite Er. cbn [snd]. destruct (inputs_ok ins st (snd (as_tensors (map Sy ins) st)) Ci I a1 (kept_refl _)) as [_ Q]. destruct (Q s Hs) as [n Hn]. exists n. now apply b2.
  - intros fin F K. assert (Forall2 (dep_out fin) (snd (fst r)) outs) as D.
    { rewrite Er. cbn [fst snd]. assert (Forall2 (dep_ok fin) (fst (as_tensors (map to_expr outs) (snd (as_tensors (map Sy ins) st)))) (map to_expr outs)) as D0.
      { apply as_tensors_dep; [easy|easy| |now rewrite Er in K]. intros e He. apply in_map_iff in He as ([v|e'] & <- & Ho); [intros x Hx; inversion Hx|]. cbn. exact (Co _ e' Ho eq_refl). }
      apply (Forall2_map_r (dep_ok fin) to_expr) in D0. eapply Forall2_impl2; [|exact D0]. intros n o _ _ Q i. rewrite (Q i). destruct o as [v|e]; cbn [to_expr mentions].
      - split; [intros (x & H & _); inversion H|intros (k & [] & _)].
      - split; [intros (x & H & ->); exists (key_of x); eauto|intros (k & (x & H & <-) & ->); eauto]. }
    assert (forall x, Forall2 (fun n o => evaln x n = evalo (fun k => x (number fin k)) o) (snd (fst r)) outs) as Vv by (intros x; apply (c fin); [easy|now apply agrees_inputs]).
    clear - D Vv. revert Vv. induction D as [|n o ns os H HF IH]; intros Vv; constructor.
    + split; [easy|]. intros x. specialize (Vv x). now inversion Vv.
    + apply IH. intros x. specialize (Vv x). now inversion Vv.
Qed.

Lemma saf_some (equations : list node) sol ss_variables params (st : state) : filter (fun p => smem (fst p) ss_variables) sol <> [] ->
  substitute_and_filter cse equations sol ss_variables params st =
  let known := filter (fun p => smem (fst p) ss_variables) sol in
  let k := convert cse params (map snd known) false st in
  let m := replacements (snd k) (combine (map fst known) (snd (fst k))) [] in
  let known_ids := flat_map (fun p => match cached_input (snd k) (fst p) with Some i => [i] | None => [] end) known in
  let unknown_ids := flat_map (fun v => match cached_input (snd k) v with Some i => if imem i known_ids then [] else [i] | None => [] end) ss_variables in
  (filter (fun n => existsb (fun i => dependsb i n) unknown_ids) (map (replace m) equations), snd k).
Proof. unfold substitute_and_filter. intros H. destruct (filter _ _); [congruence|reflexivity]. Qed.
Lemma saf_none (equations : list node) sol ss_variables params (st : state) : filter (fun p => smem (fst p) ss_variables) sol = [] ->
  substitute_and_filter cse equations sol ss_variables params st = (equations, st).
Proof. unfold substitute_and_filter. now intros ->. Qed.

Variable m : model V Op.
Section W.
Variable sol : list (sym * output).
Hypothesis W : wf m sol.

Lemma param_clean s : In s (m_free m) \/ In s (map fst (m_det m)) \/ In s (map fst (m_calib m)) -> scls s = CSymbol /\ clean_sym s.
Proof. intros H. apply (t_params _ _ W). rewrite !in_app_iff. easy. Qed.
Lemma param_ok st : inv st -> inv (param_dict_func cse m st) /\ kept st (param_dict_func cse m st).
Proof.
  intros I. unfold param_dict_func, param_mapping.
  set (outs := map (fun s => inr (Sy s)) (m_free m) ++ map snd (m_det m) : list output).
  destruct (convert_plain (m_free m) outs st) as (a & b & _ & _).
  - apply Forall_forall. intros s Hs. apply param_clean. now left.
  - intros o e Ho ->. unfold outs in Ho. apply in_app_iff in Ho as [Ho|Ho].
    + apply in_map_iff in Ho as (s & Q & Hs). injection Q as <-. intros x Hx. inversion Hx; subst. apply param_clean. now left.
    + apply (t_clean _ _ W (inr e)); [|easy]. apply in_app_iff. now left.
  - easy.
  - destruct (return_dict_ok CSymbol (m_free m ++ map fst (m_det m)) (snd (fst (convert cse (m_free m) outs false st))) [] _ a) as (c & d' & _).
    + intros s Hs. apply in_app_iff in Hs. destruct (param_clean s ltac:(tauto)) as [E C]. unfold clean_sym, key_of in C. now rewrite E in C.
    + split; [exact c|]. eapply kept_trans; [exact b|]. intros k n _ Q. now apply d'.
Qed.
Lemma time_clean nm : ~ is_temp (nm, CTime).
Proof. intros (n & Q). discriminate. Qed.
Lemma all_clean s : In s (all_vars m) -> clean_sym s.
Proof.
  intros H. apply in_app_iff in H as [H|H]; [|apply param_clean; auto]. unfold clean_sym, key_of. rewrite (t_vars _ _ W s H). apply time_clean.
Qed.
Lemma params_clean s : In s (parameters m) -> clean_sym s.
Proof. intros H. apply filter_In in H as [H _]. apply in_app_iff in H. apply param_clean. tauto. Qed.
Lemma known_in k o : In (k, o) (filter (fun p => smem (fst p) (all_vars m)) sol) <-> In (k, o) sol /\ In k (all_vars m).
Proof. rewrite filter_In. cbn [fst]. now rewrite smem_iff. Qed.
Lemma same_key s v : In s (map fst sol) -> In v (all_vars m) -> key_of s = key_of v -> s = v.
Proof. intros H1 H2 E. apply (t_sol _ _ W); auto. unfold key_of in E. congruence. Qed.
Lemma same_val k o o' : In (k, o) sol -> In (k, o') sol -> o = o'.
Proof.
  destruct (t_sol _ _ W) as [N _]. clear - N. induction sol as [|[a b] t IH]; cbn [In map fst] in *; [easy|]. inversion_clear N as [|? ? N1 N2]. intros [H|H] [H'|H'].
  - congruence.
  - injection H as -> ->. destruct N1. apply in_map_iff. now exists (k, o').
  - injection H' as -> ->. destruct N1. apply in_map_iff. now exists (k, o).
  - auto.
Qed.
Lemma with_known_at k o E : In (k, o) sol -> In k (all_vars m) -> with_known sem (all_vars m) sol E (key_of k) = evalo E o.
Proof.
  intros H Hk. assert (forall t, (forall p, In p t -> In p sol) -> In (k, o) t -> with_known sem (all_vars m) t E (key_of k) = evalo E o) as G; [|now apply G].
  induction t as [|[a b] t IH]; intros Ht Hi; [destruct Hi|]. cbn [with_known]. destruct (in_dec sym_dec a (all_vars m)) as [Ha|Na].
  - destruct (key_dec (key_of a) (key_of k)) as [Q|Q].
    + assert (a = k) as ->. { apply same_key; auto. apply in_map_iff. exists (a, b). split; [easy|]. apply Ht. now left. }
      f_equal. apply (same_val k); [apply Ht; now left|easy].
    + destruct Hi as [Hi|Hi]; [congruence|]. apply IH; auto. intros p Hp. apply Ht. now right.
  - destruct Hi as [Hi|Hi]; [congruence|]. apply IH; auto. intros p Hp. apply Ht. now right.
Qed.
Lemma with_known_not E k : (forall s, In s (map fst sol) -> In s (all_vars m) -> key_of s <> k) -> with_known sem (all_vars m) sol E k = E k.
Proof.
  intros H. induction sol as [|[a b] t IH] in H |- *; [easy|]. cbn [with_known map fst In] in *. rewrite IH by (intros; apply H; auto).
  destruct (in_dec sym_dec a (all_vars m)) as [Ha|Na]; [|easy]. destruct (key_dec (key_of a) k) as [Q|Q]; [|easy]. destruct (H a); auto.
Qed.
Lemma cached_number (st fin : state) s : inv st -> inv fin -> kept st fin -> In s (all_vars m) -> (exists n, cache st (key_of s) = Some n) ->
  cache st (key_of s) = Some (Inp (number fin (key_of s)) (sname s)) /\ cached_input st s = Some (number fin (key_of s)).
Proof.
  intros I F K Hs (n & Hn). pose proof (all_clean s Hs) as C. pose proof (K _ _ C Hn) as Hf. destruct (i_inp _ I _ _ C Hn) as (i & -> & _).
  assert (number fin (key_of s) = i) as -> by (unfold number; now rewrite Hf). unfold cached_input. now rewrite Hn.
Qed.
Lemma replacements_ok (num : sym -> nat) (st : state) (l : list (sym * node)) : forall mp,
  (forall s, In s (map fst l) -> exists nm, cache st (key_of s) = Some (Inp (num s) nm)) ->
  (forall i, ~ In i (map num (map fst l)) -> lookup i (replacements st l mp) = lookup i mp) /\
  (NoDup (map num (map fst l)) -> forall s n, In (s, n) l -> lookup (num s) (replacements st l mp) = Some n).
Proof.
  induction l as [|[s n] l IH]; intros mp H; [split; [easy|intros _ ? ? []]|]. cbn [replacements map fst In] in *.
  destruct (H s (or_introl eq_refl)) as [nm Hs]. rewrite Hs. destruct (IH (mset (Inp (num s) nm) n mp) (fun s' Hs' => H s' (or_intror Hs'))) as [I1 I2]. split.
  - intros i Hi. rewrite I1 by tauto. rewrite lookup_mset. destruct (Nat.eqb_spec i (num s)); [subst; tauto|easy].
  - intros N s' n' [Q|Q]; inversion_clear N as [|? ? N1 N2].
    + injection Q as <- <-. rewrite I1 by easy. rewrite lookup_mset, Nat.eqb_refl. reflexivity.
    + now apply I2.
Qed.
Lemma F2_combine {A B C} (R : B -> C -> Prop) (f : A -> C) (l : list A) ns : Forall2 R ns (map f l) -> forall a, In a l -> exists n, R n (f a) /\ In (a, n) (combine l ns).
Proof.
  revert ns. induction l as [|a l IH]; intros ns H x Hx; [destruct Hx|]. inversion H as [|n c ns' cs Hn Ht]; subst. cbn [combine In]. destruct Hx as [<-|Hx]; [eauto|].
  destruct (IH ns' Ht x Hx) as (n' & H1 & H2). eauto.
Qed.
Lemma F2_combine_inv {A B C} (R : B -> C -> Prop) (f : A -> C) (l : list A) ns : Forall2 R ns (map f l) -> forall a n, In (a, n) (combine l ns) -> In a l /\ R n (f a).
Proof.
  revert ns. induction l as [|a l IH]; intros ns H x n Hx; [destruct Hx|]. inversion H as [|n' c ns' cs Hn Ht]; subst. cbn [combine In] in *. destruct Hx as [Q|Hx]; [injection Q as <- <-; auto|].
  destruct (IH ns' Ht x n Hx). auto.
Qed.
Lemma combine_fst {A B} (l : list A) (l' : list B) : length l = length l' -> map fst (combine l l') = l.
Proof. revert l'. induction l; intros [|]; cbn; intros; try lia; f_equal; auto. Qed.
Lemma combine_map_fst {A B C} (f : A -> C) (l : list A) (l' : list B) : combine (map f l) l' = map (fun p => (f (fst p), snd p)) (combine l l').
Proof. revert l'. induction l; intros [|]; cbn; f_equal; auto. Qed.
Lemma nodup_inj {A B} (f : A -> B) l : (forall a b, In a l -> In b l -> f a = f b -> a = b) -> NoDup l -> NoDup (map f l).
Proof. induction l; intros H N; cbn; constructor; inversion_clear N; [|apply IHl; auto; intros; apply H; auto; now right]. intros Q. apply in_map_iff in Q as (b & E & Hb). apply H in E; [|now right|now left]. now subst. Qed.
Lemma nodup_filter {A} (f : A -> bool) l : NoDup l -> NoDup (filter f l).
Proof. induction 1; cbn; [constructor|]. destruct (f x); [constructor; [|easy]|easy]. intros Q. apply filter_In in Q as [Q _]. easy. Qed.
Lemma nodup_map_filter {A B} (g : A -> B) (f : A -> bool) l : NoDup (map g l) -> NoDup (map g (filter f l)).
Proof. induction l; cbn; intros N; [constructor|]. inversion_clear N as [|? ? N1 N2]. destruct (f a); cbn; [constructor; auto|auto]. intros Q. apply N1. apply in_map_iff in Q as (x & E & Hx). apply filter_In in Hx as [Hx _]. apply in_map_iff. eauto. Qed.

Lemma residual_ok st : inv st -> let r := ss_residual cse m sol st in
  inv (snd r) /\ kept st (snd r) /\ (forall v, In v (all_vars m) -> exists n, cache (snd r) (key_of v) = Some n) /\
  forall fin, inv fin -> kept (snd r) fin -> right_equations sem m (number fin) sol (fst r).
Proof.
  intros I r. unfold ss_residual in r. destruct (param_ok st I) as [a1 b1]. set (st1 := param_dict_func cse m st) in *. clearbody st1.
  destruct (convert_plain (all_vars m ++ parameters m) (m_eqs m ++ map snd (m_calib m)) st1) as (a2 & b2 & c2 & d2); auto.
  { apply Forall_forall. intros s Hs. apply in_app_iff in Hs as [Hs|Hs]; [now apply all_clean|now apply params_clean]. }
  { intros o e Ho ->. apply (t_clean _ _ W (inr e)); [|easy]. rewrite !in_app_iff in *. tauto. }
  set (q := convert cse (all_vars m ++ parameters m) (m_eqs m ++ map snd (m_calib m)) false st1) in *. clearbody q.
  assert (forall v, In v (all_vars m) -> exists n, cache (snd q) (key_of v) = Some n) as cv by (intros v Hv; apply c2, in_app_iff; now left).
  set (known := filter (fun p => smem (fst p) (all_vars m)) sol).
  assert (forall k o, In (k, o) known <-> In (k, o) sol /\ In k (all_vars m)) as Kn by (intros; apply known_in).
  assert (known = [] \/ known <> []) as [Ek|NE] by (destruct known; [now left|right; discriminate]).
  - subst r. cbv zeta. rewrite (saf_none _ _ _ _ _ Ek). cbn [fst snd]. rewrite Ek in Kn. split; [easy|]. split; [eapply kept_trans; eauto|]. split; [easy|]. intros fin F K. split.
    + intros (k & H1 & H2). apply in_map_iff in H1 as ([k' o] & Q & H1). cbn in Q. subst k'. destruct (proj2 (Kn k o) (conj H1 H2)).
    + intros _. eapply Forall2_impl2; [|exact (d2 fin F K)]. intros n o _ _ [D Vv]. split; [exact Vv|]. intros i. rewrite (D i). split.
      * intros (k & Hk & ->). exists k. split; [|easy]. left. split; [easy|]. intros ? [].
      * intros (k & [[Hk _]|(? & ? & [] & _)] & ->). eauto.
  - subst r. cbv zeta. rewrite (saf_some _ _ _ _ _ NE). cbv zeta. fold known.
    destruct (convert_plain (parameters m) (map snd known) (snd q)) as (a3 & b3 & _ & d3); auto.
    { apply Forall_forall. apply params_clean. }
    { intros o e Ho ->. apply (t_clean _ _ W (inr e)); [|easy]. apply in_map_iff in Ho as ([k o] & Q & Ho). cbn in Q. subst o. apply Kn in Ho as [Ho _]. rewrite !in_app_iff. right. right. right. apply in_map_iff. now exists (k, inr e). }
    set (kk := convert cse (parameters m) (map snd known) false (snd q)) in *. clearbody kk.
    cbn [fst snd]. split; [easy|]. split; [eapply kept_trans; [exact b1|eapply kept_trans; eauto]|].
    assert (forall v, In v (all_vars m) -> exists n, cache (snd kk) (key_of v) = Some n) as cv3.
    { intros v Hv. destruct (cv v Hv) as [n Hn]. exists n. apply b3; [now apply all_clean|easy]. }
    split; [exact cv3|]. intros fin F K. assert (kept (snd q) fin) as Kq by (eapply kept_trans; eauto).
    specialize (d2 fin F Kq). specialize (d3 fin F K).
    pose (num := fun s => number fin (key_of s)).
    assert (forall s, In s (all_vars m) -> cache (snd kk) (key_of s) = Some (Inp (num s) (sname s)) /\ cached_input (snd kk) s = Some (num s)) as CN by (intros s Hs; apply cached_number; auto).
    set (pairs := combine (map fst known) (snd (fst kk))).
    assert (length (map fst known) = length (snd (fst kk))) as Len by (rewrite (Forall2_len _ _ _ d3), !map_length; easy).
    assert (forall s, In s (map fst known) -> In s (all_vars m)) as Ka. { intros s Hs. apply in_map_iff in Hs as ([k o] & <- & Ho). now apply Kn in Ho. }
    assert (forall s, In s (map fst known) -> In s (map fst sol)) as Ks. { intros s Hs. apply in_map_iff in Hs as ([k o] & <- & Ho). apply Kn in Ho as [Ho _]. apply in_map_iff. now exists (k, o). }
    assert (NoDup (map num (map fst known))) as ND.
    { apply nodup_inj; [|apply nodup_map_filter, (proj1 (t_sol _ _ W))]. intros s s' Hs Hs' E. apply number_inj in E; [|easy|now apply all_clean, Ka|now apply all_clean, Ka]. apply same_key; auto. }
    destruct (replacements_ok num (snd kk) pairs []) as [L1 L2].
    { intros s Hs. unfold pairs in Hs. rewrite (combine_fst _ _ Len) in Hs. exists (sname s). apply CN, Ka, Hs. }
    unfold pairs in L1, L2. rewrite (combine_fst _ _ Len) in L1, L2. specialize (L2 ND). fold pairs in L1, L2.
    set (mp := replacements (snd kk) pairs []) in *.
    (* the graph put in for a known variable *)
    assert (forall k o, In (k, o) sol -> In k (all_vars m) -> exists w, lookup (num k) mp = Some w /\ dep_out fin w o /\ forall x, evaln x w = evalo (fun k => x (number fin k)) o) as Lk.
    { intros k o Hk Ha. destruct (F2_combine _ snd known (snd (fst kk)) d3 (k, o)) as (w & (D & Vv) & Hin); [now apply Kn|]. exists w. split; [|easy]. apply L2. unfold pairs. rewrite combine_map_fst. apply in_map_iff. now exists ((k, o), w). }
    assert (forall k, ~ is_temp k -> (forall s, In s (map fst sol) -> In s (all_vars m) -> key_of s <> k) -> lookup (number fin k) mp = None) as Ln.
    { intros k Hk H. rewrite L1; [easy|]. intros Q. apply in_map_iff in Q as (s & E & Hs). apply number_inj in E; [|easy|now apply all_clean, Ka|easy]. exact (H s (Ks s Hs) (Ka s Hs) E). }
    (* values *)
    assert (forall x k, ~ is_temp k -> via sem mp x (number fin k) = with_known sem (all_vars m) sol (fun k => x (number fin k)) k) as Via.
    { intros x k Hk. destruct (in_dec key_dec k (map key_of (map fst known))) as [Hin|Hout].
      - apply in_map_iff in Hin as (s & <- & Hs). pose proof Hs as Hs0. apply in_map_iff in Hs0 as ([s' o] & Q & Ho). cbn in Q. subst s'. apply Kn in Ho as [Ho Ha].
        rewrite (with_known_at s o) by auto. destruct (Lk s o Ho Ha) as (w & Hw & _ & Vw). unfold via. change (number fin (key_of s)) with (num s). rewrite Hw. apply Vw.
      - assert (forall s, In s (map fst sol) -> In s (all_vars m) -> key_of s <> k) as No.
        { intros s Hs Ha E. apply Hout. apply in_map_iff. exists s. split; [easy|]. apply in_map_iff in Hs as ([s' o] & Q & Ho). cbn in Q. subst s'. apply in_map_iff. exists (s, o). split; [easy|]. now apply Kn. }
        rewrite with_known_not by easy. unfold via. now rewrite (Ln k Hk No). }
    (* unknown inputs *)
    set (ids := flat_map _ (all_vars m)).
    assert (forall i, In i ids <-> exists v, unknown m sol v /\ i = num v) as Ids.
    { assert (forall i, In i (flat_map (fun p => match cached_input (snd kk) (fst p) with Some i => [i] | None => [] end) known) <-> exists s, In s (map fst known) /\ i = num s) as KI.
      { intros i. rewrite in_flat_map. split.
        - intros ([k o] & Hk & Hi). cbn [fst] in Hi. pose proof Hk as Hk0. apply Kn in Hk0 as [_ Ha]. rewrite (proj2 (CN k Ha)) in Hi. destruct Hi as [<-|[]]. exists k. split; [|easy]. apply in_map_iff. now exists (k, o).
        - intros (s & Hs & ->). pose proof (Ka s Hs) as Ha. apply in_map_iff in Hs as ([k o] & Q & Ho). cbn in Q. subst k. exists (s, o). split; [easy|]. cbn [fst]. rewrite (proj2 (CN s Ha)). now left. }
      intros i. unfold ids. rewrite in_flat_map. split.
      - intros (v & Hv & Hi). rewrite (proj2 (CN v Hv)) in Hi. destruct (imem _ _) eqn:Em; [destruct Hi|]. destruct Hi as [<-|[]]. exists v. split; [|easy]. split; [easy|]. intros Q.
        assert (imem (num v) (flat_map (fun p => match cached_input (snd kk) (fst p) with Some i => [i] | None => [] end) known) = true) as C; [|congruence].
        apply imem_iff, KI. exists v. split; [|easy]. apply in_map_iff in Q as ([v' o] & E & Ho). cbn in E. subst v'. apply in_map_iff. exists (v, o). split; [easy|]. now apply Kn.
      - intros (v & [Hv Nv] & ->). exists v. split; [easy|]. rewrite (proj2 (CN v Hv)). destruct (imem _ _) eqn:Em; [|now left]. exfalso. apply imem_iff, KI in Em as (s & Hs & E).
        apply number_inj in E; [|easy|now apply all_clean|now apply all_clean, Ka]. assert (s = v) as -> by (apply same_key; auto). exact (Nv (Ks v Hs)). }
    split.
    + intros _. apply (picks_filter (fun n o => exists n', n = replace mp n' /\ dep_out fin n' o /\ forall x, evaln x n' = evalo (fun k => x (number fin k)) o)).
      { clear - d2. unfold equations. induction d2 as [|n o ns os H HF IH]; cbn [map]; constructor; [exists n; easy|exact IH]. }
      intros n o Ho (n' & -> & D & Vv).
      assert (forall k, mentions o k -> ~ is_temp k) as Co. { intros k Hk. destruct o as [|e]; [destruct Hk|]. destruct Hk as (x & Hx & <-). apply (t_clean _ _ W (inr e)) with (e := e); [|easy|easy]. unfold equations in Ho. rewrite !in_app_iff in *. tauto. }
      assert (forall i, depends i (replace mp n') <-> exists k, speaks (all_vars m) sol o k /\ i = number fin k) as DR.
      { intros i. rewrite replace_dep. split.
        - intros (j & Hj & E). destruct (proj1 (D j) Hj) as (k & Hk & ->). destruct (in_dec key_dec k (map key_of (map fst known))) as [Hin|Hout].
          + apply in_map_iff in Hin as (s & <- & Hs). pose proof (Ka s Hs) as Ha. apply in_map_iff in Hs as ([s' so] & Q & Hso). cbn in Q. subst s'. apply Kn in Hso as [Hso _].
            destruct (Lk s so Hso Ha) as (w & Hw & Dw & _). change (number fin (key_of s)) with (num s) in E. rewrite Hw in E. destruct (proj1 (Dw _) E) as (k & Hk' & E'). exists k. split; [|easy]. right. exists s, so. auto.
          + assert (forall s, In s (map fst sol) -> In s (all_vars m) -> key_of s <> k) as No.
            { intros s Hs Ha Q. apply Hout. apply in_map_iff. exists s. split; [easy|]. apply in_map_iff in Hs as ([s' so] & Q' & Hso). cbn in Q'. subst s'. apply in_map_iff. exists (s, so). split; [easy|]. now apply Kn. }
            rewrite Ln in E by auto. exists k. split; [now left|easy].
        - intros (k & [[Hk No]|(s & so & Hso & Ha & Hs & Hk)] & ->).
          + exists (number fin k). split; [apply D; eauto|]. rewrite Ln; auto.
          + exists (num s). split; [apply D; exists (key_of s); easy|]. destruct (Lk s so Hso Ha) as (w & Hw & Dw & _). rewrite Hw. apply Dw. eauto. }
      split.
      * rewrite existsb_exists. split.
        -- intros (i & Hi & Hd). apply Ids in Hi as (v & Hv & ->). apply dependsb_iff, DR in Hd as (k & Hk & E). exists v. split; [easy|].
           assert (key_of v = k) as ->; [|easy]. apply (number_inj fin); [easy|apply all_clean, Hv| |exact E]. destruct Hk as [[Hk _]|(s & so & Hso & _ & _ & Hk)]; [auto|].
           destruct so as [|e]; [destruct Hk|]. destruct Hk as (x & Hx & <-). apply (t_clean _ _ W (inr e)) with (e := e); [|easy|easy]. rewrite !in_app_iff. right. right. right. apply in_map_iff. now exists (s, inr e).
        -- intros (v & Hv & Hm). exists (num v). split; [apply Ids; eauto|]. apply dependsb_iff, DR. exists (key_of v). easy.
      * split; [|exact DR]. intros x. rewrite replace_value, Vv. destruct o as [v|e]; [easy|]. cbn [Conv_Spec.evalo]. apply evale_ext. intros y Hy. apply Via, Co. exists y. easy.
    + intros No. exfalso. apply NE. destruct known as [|[k o] t]; [easy|]. destruct (proj1 (Kn k o) (or_introl eq_refl)) as [H1 H2]. destruct (No k); [apply in_map_iff; now exists (k, o)|easy].
Qed.
End W.

(* ---- the lazily filled attributes ---- *)
Hypothesis W : wf m (m_sol m).
Lemma wf_nil : wf m [].
Proof.
  destruct W as [a b c d']. split; auto; cbn [map].
  - intros o e Ho. apply c. rewrite !in_app_iff in *. cbn in Ho. tauto.
  - split; [constructor|]. intros ? ? [].
Qed.
Notation ensure := (ensure_cache cse m).
Definition linv (s : lazy V Op) : Prop := inv (ensure s) /\
  (forall l, l_filtered s = Some l -> forall fin, inv fin -> kept (ensure s) fin -> right_equations sem m (number fin) (m_sol m) l) /\
  (forall l, l_full s = Some l -> forall fin, inv fin -> kept (ensure s) fin -> right_equations sem m (number fin) [] l).
Lemma linv_fresh : linv fresh_model.
Proof. split; [apply (param_ok (m_sol m) W), inv_empty|split; intros; discriminate]. Qed.
Lemma linv_step s st : linv s -> inv st -> kept (ensure s) st -> linv (Lazy (Some st) (l_filtered s) (l_full s)).
Proof.
  intros (I & A & B) I' K. split; [exact I'|]. split; cbn [l_filtered l_full]; intros l H fin F Kf; [apply (A l H fin F)|apply (B l H fin F)]; eapply kept_trans; eauto.
Qed.
Lemma equations_ok f s : linv s -> let r := equation_tensors cse m f s in
  linv (snd r) /\ kept (ensure s) (ensure (snd r)) /\
  forall fin, inv fin -> kept (ensure (snd r)) fin -> right_equations sem m (number fin) (if f then m_sol m else []) (fst r).
Proof.
  intros L r. pose proof L as (I & A & B). unfold equation_tensors in r. destruct f.
  - destruct (l_filtered s) as [e|] eqn:E; subst r; cbn [fst snd].
    + split; [easy|]. split; [apply kept_refl|]. intros fin F K. now apply A.
    + destruct (residual_ok (m_sol m) W (ensure s) I) as (a & b & _ & d'). set (q := ss_residual cse m (m_sol m) (ensure s)) in *. clearbody q.
      split; [|split; [exact b|exact d']]. split; [exact a|]. cbn [l_filtered l_full]. split.
      * intros l Q. injection Q as <-. exact d'.
      * intros l H fin F Kf. apply (B l H fin F). eapply kept_trans; eauto.
  - destruct (l_full s) as [e|] eqn:E; subst r; cbn [fst snd].
    + split; [easy|]. split; [apply kept_refl|]. intros fin F K. now apply B.
    + destruct (residual_ok [] wf_nil (ensure s) I) as (a & b & _ & d'). set (q := ss_residual cse m [] (ensure s)) in *. clearbody q.
      split; [|split; [exact b|exact d']]. split; [exact a|]. cbn [l_filtered l_full]. split.
      * intros l H fin F Kf. apply (A l H fin F). eapply kept_trans; eauto.
      * intros l Q. injection Q as <-. exact d'.
Qed.
Lemma inputs_step syms s : linv s -> Forall clean_sym syms -> let r := as_tensors (map Sy syms) (ensure s) in
  linv (Lazy (Some (snd r)) (l_filtered s) (l_full s)) /\ kept (ensure s) (snd r) /\
  forall fin, inv fin -> kept (snd r) fin -> fst r = map (input_node (number fin)) syms.
Proof.
  intros L C r. destruct (as_tensors_state (map Sy syms) (ensure s) (proj1 L)) as [a b]. fold r in a, b.
  assert (kept (ensure s) (snd r)) as K by (intros k n _ Q; now apply b). split; [now apply linv_step|]. split; [easy|].
  intros fin F Kf. exact (proj1 (inputs_ok syms (ensure s) fin C (proj1 L) F Kf)).
Qed.
Lemma names_iff sol v : wf m sol -> In v (all_vars m) -> negb (nmem (sname v) (map (fun p => sname (fst p)) sol)) = true <-> unknown m sol v.
Proof.
  intros Ws Hv. rewrite Bool.negb_true_iff. unfold unknown. split.
  - intros H. split; [easy|]. intros Q. assert (nmem (sname v) (map (fun p => sname (fst p)) sol) = true) as C; [|congruence]. apply nmem_iff. rewrite <- (map_map fst sname). now apply in_map.
  - intros [_ H]. destruct (nmem _ _) eqn:E; [|easy]. exfalso. apply nmem_iff in E. rewrite <- (map_map fst sname) in E. apply in_map_iff in E as (s & E & Hs). apply H. now rewrite <- (proj2 (t_sol _ _ Ws) s v Hs Hv E).
Qed.
Lemma ask_ok q s : linv s -> fine_query deriv m q -> let r := ask cse deriv is_number zero m q s in
  linv (snd r) /\ kept (ensure s) (ensure (snd r)) /\
  forall fin, inv fin -> kept (ensure (snd r)) fin -> right_reply sem deriv m (number fin) q (fst r).
Proof.
  intros L Q. destruct q as [f|a b c|f|fv|c]; cbn [ask fst snd fine_query right_reply] in *.
  - unfold ss_tensors. set (names := if f then _ else _).
    assert (forall v, In v (all_vars m) -> negb (nmem (sname v) names) = true <-> unknown m (if f then m_sol m else []) v) as N.
    { intros v Hv. unfold names. destruct f; [now apply names_iff|]. unfold unknown. cbn. tauto. }
    destruct (inputs_step (filter (fun v => negb (nmem (sname v) names)) (all_vars m)) s L) as (a1 & b1 & c1).
    { apply Forall_forall. intros v Hv. apply filter_In in Hv as [Hv _]. now apply (all_clean (m_sol m) W). }
    cbn [fst snd]. split; [exact a1|]. split; [exact b1|]. intros fin F K. exists (filter (fun v => negb (nmem (sname v) names)) (all_vars m)). split; [now apply picks_self|now apply c1].
  - unfold param_tensors. set (syms := _ ++ _).
    destruct (inputs_step syms s L) as (a1 & b1 & c1).
    { apply Forall_forall. intros v Hv. apply (param_clean (m_sol m) W). unfold syms in Hv. rewrite !in_app_iff in Hv. destruct a, b, c; cbn in Hv; tauto. }
    cbn [fst snd]. split; [exact a1|]. split; [exact b1|]. intros fin F K. now apply c1.
  - apply equations_ok, L.
  - unfold resid_with_fixed_values. cbv zeta. cbn [fst snd]. destruct (residual_ok (merged m fv) Q (ensure s) (proj1 L)) as (a & b & c & d').
    set (rr := ss_residual cse m (merged m fv) (ensure s)) in *. clearbody rr. pose proof (linv_step s (snd rr) L a b) as L1.
    set (s1 := Lazy (Some (snd rr)) (l_filtered s) (l_full s)) in *. destruct (equations_ok false s1 L1) as (L2 & K2 & _). set (s2 := snd (equation_tensors cse m false s1)) in *. change (ensure s1) with (snd rr) in K2. clearbody s2.
    split; [exact L2|]. split; [eapply kept_trans; eauto|]. intros fin F K. split; [apply d'; [easy|eapply kept_trans; eauto]|].
    exists (filter (fun v => negb (nmem (sname v) (map (fun p => sname (fst p)) (merged m fv)))) (all_vars m)). split; [apply picks_self; intros v Hv; now apply names_iff|].
    assert (forall v, In v (filter (fun v => negb (nmem (sname v) (map (fun p => sname (fst p)) (merged m fv)))) (all_vars m)) -> cache (ensure s2) (key_of v) = Some (input_node (number fin) v)) as G.
    { intros v Hv. apply filter_In in Hv as [Hv _]. destruct (c v Hv) as [n Hn]. apply (cached_number _ W (ensure s2) fin v); [exact (proj1 L2)|easy|easy|easy|]. exists n. apply K2; [now apply (all_clean _ W)|easy]. }
    clear - G. induction (filter _ _) as [|v l IH]; [easy|]. cbn [flat_map map]. rewrite (G v (or_introl eq_refl)). cbn [app]. f_equal. apply IH. intros; apply G. now right.
  - destruct (perform_ok sem cse deriv is_number zero CSE c (ensure s) Q (proj1 L)) as (a & b & d'). split; [now apply linv_step|]. split; [exact b|]. exact d'.
Qed.
Lemma session_ok h : forall s, linv s -> Forall (fine_query deriv m) h -> let r := session cse deriv is_number zero m h s in
  linv (snd r) /\ kept (ensure s) (ensure (snd r)) /\
  forall fin, inv fin -> kept (ensure (snd r)) fin -> Forall2 (right_reply sem deriv m (number fin)) h (fst r).
Proof.
  induction h as [|q h IH]; intros s L Q; cbn [session fst snd].
  - split; [easy|]. split; [apply kept_refl|]. constructor.
  - inversion Q; subst. destruct (ask_ok q s L) as (a & b & c); auto. destruct (IH _ a) as (d' & e & f); auto.
    split; [easy|]. split; [eapply kept_trans; eauto|]. intros fin F K. constructor; [apply c; [easy|eapply kept_trans; eauto]|now apply f].
Qed.
(* the graphs are built once *)
Definition memo (f : bool) (s : lazy V Op) := if f then l_filtered s else l_full s.
Lemma memo_ask q f l s : memo f s = Some l -> memo f (snd (ask cse deriv is_number zero m q s)) = Some l.
Proof.
  intros H. assert (forall f' s, memo f s = Some l -> memo f (snd (equation_tensors cse m f' s)) = Some l) as G.
  { clear. intros f' s H. unfold equation_tensors. destruct f', f; cbn [memo] in *; [rewrite H; exact H| | |rewrite H; exact H]; [destruct (l_filtered s)|destruct (l_full s)]; cbn [snd l_full l_filtered]; exact H. }
  destruct q as [f'|a b c|f'|fv|c]; cbn [ask fst snd]; try (destruct f; exact H).
  - now apply G.
  - unfold resid_with_fixed_values. cbn [snd]. apply G. destruct f; exact H.
Qed.
Lemma memo_eq f s : memo f (snd (equation_tensors cse m f s)) = Some (fst (equation_tensors cse m f s)).
Proof. unfold equation_tensors. destruct f; [destruct (l_filtered s) eqn:E|destruct (l_full s) eqn:E]; cbn [memo fst snd l_filtered l_full]; congruence. Qed.
Lemma memo_later h f l : forall s i, memo f s = Some l -> nth_error h i = Some (EquationTensors f) -> nth_error (fst (session cse deriv is_number zero m h s)) i = Some (Nodes l).
Proof.
  induction h as [|q h IH]; intros s [|i] H E; cbn [nth_error session fst] in *; try discriminate.
  - injection E as ->. cbn [ask fst]. f_equal. f_equal. unfold equation_tensors. destruct f; cbn [memo] in H; now rewrite H.
  - apply IH; [now apply memo_ask|easy].
Qed.
Lemma memo_twice h f : forall s i j a b, i < j -> nth_error h i = Some (EquationTensors f) -> nth_error h j = Some (EquationTensors f) ->
  nth_error (fst (session cse deriv is_number zero m h s)) i = Some a -> nth_error (fst (session cse deriv is_number zero m h s)) j = Some b -> a = b.
Proof.
  induction h as [|q h IH]; intros s [|i] [|j] a b Lt Ei Ej Ha Hb; cbn [nth_error session fst] in *; try lia; try discriminate.
  - injection Ei as ->. cbn [ask fst] in *. injection Ha as <-. rewrite (memo_later h f (fst (equation_tensors cse m f s)) _ j) in Hb; [congruence|apply memo_eq|easy].
  - eapply (IH _ i j); eauto. lia.
Qed.
End P.
