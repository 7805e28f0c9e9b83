(* Any sequence of conversions: proofs. *)
From Verif Require Import Common Conv_Model Conv_Spec Conv_Proofs.
Lemma Forall2_impl2 {A B} (R S : A -> B -> Prop) l l' : (forall a b, In a l -> In b l' -> R a b -> S a b) -> Forall2 R l l' -> Forall2 S l l'.
Proof. intros h f. induction f; constructor; [apply h; cbn; auto|]. apply IHf. intros; apply h; cbn; auto. Qed.
Lemma Forall2_comp {A B C} (R : A -> B -> Prop) (S : B -> C -> Prop) (T : A -> C -> Prop) l l' l'' :
  (forall a b c, R a b -> S b c -> T a c) -> Forall2 R l l' -> Forall2 S l' l'' -> Forall2 T l l''.
Proof. intros h f; revert l''; induction f; intros l'' g; inversion g; subst; constructor; eauto. Qed.
Lemma Forall2_map_r {A B C} (R : A -> C -> Prop) (f : B -> C) l l' : Forall2 R l (map f l') <-> Forall2 (fun a b => R a (f b)) l l'.
Proof.
  split.
  - revert l; induction l'; intros l h; inversion h; subst; constructor; auto.
  - induction 1; cbn; constructor; auto.
Qed.
Lemma firstn_In {A} n (l : list A) x : In x (firstn n l) -> In x l.
Proof. revert n; induction l; intros [|n]; cbn; auto; intros []; eauto; contradiction. Qed.
Lemma skipn_In {A} n (l : list A) x : In x (skipn n l) -> In x l.
Proof. revert n; induction l; intros [|n]; cbn; eauto. Qed.

Fixpoint code_chars (l : chars) : nat := match l with [] => 0 | c :: t => S (nat_of_ascii c) + 257 * code_chars t end.
Lemma code_chars_inj a : forall b, code_chars a = code_chars b -> a = b.
Proof.
  induction a as [|c a IH]; intros [|d b]; cbn [code_chars]; intro e; try lia; auto.
  pose proof (nat_ascii_bounded c). pose proof (nat_ascii_bounded d).
  assert (nat_of_ascii c = nat_of_ascii d /\ code_chars a = code_chars b) as [h1 h2] by lia.
  f_equal; [|auto]. rewrite <- (ascii_nat_embedding c), <- (ascii_nat_embedding d). now f_equal.
Qed.
Definition code (k : key) : nat := 2 * code_chars (fst k) + match snd k with CSymbol => 0 | CTime => 1 end.
Lemma code_inj k k' : code k = code k' -> k = k'.
Proof.
  destruct k as [a c], k' as [b d]. unfold code; cbn [fst snd]. intro e.
  assert (code_chars a = code_chars b) as h by (destruct c, d; lia). apply code_chars_inj in h as ->.
  destruct c, d; auto; lia.
Qed.
Section Runs.
Context {V Op : Type}.
Variable sem : Op -> list V -> V.
Notation expr := (expr V Op).
Notation node := (node V Op).
Notation state := (state V Op).
Notation evale := (evale sem).
Notation evaln := (evaln sem).
Notation evalo := (evalo sem).
Notation agrees := (agrees sem).
Notation temps_known := (temps_known sem).
Variable cse : list expr -> list (sym * expr) * list expr.
Variable deriv : expr -> sym -> expr.
Variable is_number : expr -> bool.
Variable zero : V.
Hypothesis CSE : cse_ok sem cse.

(* ---------- convert ---------- *)
Lemma merge_value E E' (outs : list (output V Op)) : forall reduced, Forall2 (fun r e => evale E' r = evale E e) reduced (exprs_of outs) ->
  Forall2 (fun m o => evale E' (to_expr m) = evalo E o) (merge outs reduced) outs.
Proof.
  induction outs as [|[v|e] outs IH]; intros reduced h; cbn [merge]; [constructor|constructor; [reflexivity|now apply IH]|].
  cbn in h. inversion h as [|r ? reduced' ? a b]; subst. constructor; [exact a|now apply IH].
Qed.
Lemma merge_in (outs : list (output V Op)) : forall reduced e, length reduced = length (exprs_of outs) ->
  In e (map to_expr (merge outs reduced)) -> (exists v, e = Num v) \/ In e reduced.
Proof.
  induction outs as [|[v|x] outs IH]; intros reduced e hl h; cbn [merge map] in h; [destruct h| |].
  - destruct h as [<-|h]; [left; exists v; reflexivity|]. now apply IH.
  - destruct reduced as [|r reduced]; [discriminate|]. cbn in hl. cbn [map] in h. destruct h as [<-|h]; [right; now left|].
    destruct (IH reduced e) as [a|a]; auto; try lia. right; now right.
Qed.
Lemma clean_out (outs : list (output V Op)) e : Forall clean (exprs_of outs) -> In e (map to_expr outs) -> clean e.
Proof.
  intros c h. apply in_map_iff in h as ([v|x] & <- & i); cbn [to_expr].
  - intros y o. inversion o.
  - rewrite Forall_forall in c. apply c. apply in_flat_map. exists (inr x). split; auto. now left.
Qed.
Lemma Forall2_len {A B} (R : A -> B -> Prop) l l' : Forall2 R l l' -> length l = length l'.
Proof. induction 1; cbn; auto. Qed.
Lemma convert_ok ins outs u st : Forall clean_sym ins -> Forall clean (exprs_of outs) -> inv st ->
  inv (snd (convert cse ins outs u st)) /\ kept st (snd (convert cse ins outs u st)) /\
  forall fin r E, kept (snd (convert cse ins outs u st)) fin -> agrees fin r E ->
    Forall2 (fun n o => evaln r n = evalo E o) (snd (fst (convert cse ins outs u st))) outs.
Proof.
  intros ci co I. unfold convert. destruct (as_tensors_state (map Sy ins) st I) as [a b].
  set (st1 := snd (as_tensors (map Sy ins) st)) in *.
  destruct (u && _).
  - destruct (CSE (exprs_of outs) co) as (D & R & S). set (c := cse (exprs_of outs)) in *.
    destruct (plant_state (fst c) [] st1 D a) as [e f].
    destruct (as_tensors_state (map to_expr (merge outs (snd c))) _ e) as [g h]. cbn [fst snd]. split; [exact g|split].
    + intros k m t q. apply h, f, b; auto.
    + intros fin r E K A.
      assert (kept (plant (fst c) st1) fin) as K1. { eapply kept_trans; [|exact K]. intros k m _ q. now apply h. }
      destruct (plant_value sem r fin (fst c) [] st1 E D a K1 A) as [A' T]. { intros k []. }
      pose proof (merge_value E (extend sem E (fst c)) outs (snd c) (S E)) as M.
      assert (Forall2 (fun n e => evaln r n = evale (extend sem E (fst c)) e)
                (fst (as_tensors (map to_expr (merge outs (snd c))) (plant (fst c) st1))) (map to_expr (merge outs (snd c)))) as H.
      { apply (as_tensors_value sem r _ fin); auto.
           intros x y hi o t. destruct (merge_in outs (snd c) x) as [[v ->]|hr]; auto.
           - exact (Forall2_len _ _ _ (S E)).
           - inversion o.
           - apply T. right. eapply R; eauto. }
      apply Forall2_map_r in H. eapply Forall2_comp; [|exact H|exact M]. cbn. intros n m o q1 q2. congruence.
  - destruct (as_tensors_state (map to_expr outs) st1 a) as [g h]. cbn [fst snd]. split; [exact g|split].
    + intros k m _ q. now apply h, b.
    + intros fin r E K A.
      assert (Forall2 (fun n e => evaln r n = evale E e) (fst (as_tensors (map to_expr outs) st1)) (map to_expr outs)) as H.
      { eapply as_tensors_value; eauto. intros x y hi o t. exfalso. exact (clean_out outs x co hi y o t). }
      apply Forall2_map_r in H. revert H. apply Forall2_impl2. intros n o _ _ ->. destruct o; reflexivity.
Qed.
(* a number for every key: that of its input, or one past all of them *)
Definition number (fin : state) (k : key) : nat := match cache fin k with Some (Inp i _) => i | _ => next fin + code k end.
Lemma inputs_ok ins : forall st fin, Forall clean_sym ins -> inv st -> inv fin -> kept (snd (as_tensors (map Sy ins) st)) fin ->
  fst (as_tensors (map Sy ins) st) = map (fun s => Inp (number fin (key_of s)) (sname s)) ins /\
  forall s, In s ins -> exists n, cache fin (key_of s) = Some n.
Proof.
  induction ins as [|s ins IH]; intros st fin c I F K; [split; [reflexivity|intros ? []]|].
  inversion c as [|? ? cs c']; subst. cbn [map as_tensors fst snd] in *.
  destruct (as_tensor_state (Sy s) st I) as [a b]. destruct (IH _ fin c' a F K) as [d e].
  destruct (as_tensors_state (map Sy ins) _ a) as [_ g].
  change (as_tensor (Sy s) st) with (input_for (V := V) (Op := Op) (key_of s) st) in *.
  destruct (input_for (key_of s) st) as [n st'] eqn:X. cbn [fst snd] in *.
  destruct (input_for_ok _ _ _ _ I X) as (_ & h & _).
  assert (cache fin (key_of s) = Some n) as hf by (apply K; auto).
  split.
  - f_equal; auto. unfold number. rewrite hf. destruct (i_inp fin F _ _ cs hf) as (i & -> & _). reflexivity.
  - intros s' [<-|hs]; eauto.
Qed.
Lemma agrees_inputs fin r : inv fin -> agrees fin r (fun k => r (number fin k)).
Proof.
  intros F k n t e. destruct (i_inp fin F k n t e) as (i & -> & _). unfold number. rewrite e. reflexivity.
Qed.
(* ---------- jacobians ---------- *)
Lemma matrix_ok rows : forall st, inv st -> inv (snd (matrix rows st)) /\
  (forall k m, cache st k = Some m -> cache (snd (matrix rows st)) k = Some m) /\
  forall fin r E, kept (snd (matrix rows st)) fin -> agrees fin r E ->
    (forall row e x, In row rows -> In e row -> occurs x e -> is_temp (key_of x) -> temps_known st r E (key_of x)) ->
    Forall2 (Forall2 (fun n e => evaln r n = evale E e)) (fst (matrix rows st)) rows.
Proof.
  induction rows as [|row rows IH]; intros st I; cbn [matrix fst snd]; [split; [auto|split; [auto|intros; constructor]]|].
  destruct (as_tensors_state row st I) as [a b]. destruct (IH _ a) as (c & d & e). split; [exact c|split; [auto|]].
  intros fin r E K A T. constructor.
  - eapply as_tensors_value; eauto.
    + eapply kept_trans; [|exact K]. intros k m _ q. now apply d.
    + intros x y hi. apply (T row); auto. now left.
  - apply (e fin); auto. intros row' x y h1 h2 o t. destruct (T row' x y (or_intror h1) h2 o t) as (m & em & vm). exists m; auto.
Qed.
Lemma slice_in n_eq n_wrt : forall (flat : list expr) row e, In row (slice_rows n_eq n_wrt flat) -> In e row -> In e flat.
Proof.
  induction n_eq as [|n IH]; intros flat row e h i; cbn in h; [destruct h|]. destruct h as [<-|h].
  - eapply firstn_In; eauto.
  - eapply skipn_In. eapply IH; eauto.
Qed.
Lemma slice_value (Q : expr -> expr -> Prop) wrt rest : forall eqs flat,
  Forall2 Q flat (concat (map (fun eq => map (deriv eq) wrt) eqs) ++ rest) ->
  Forall2 (fun row eq => Forall2 (fun n v => Q n (deriv eq v)) row wrt) (slice_rows (length eqs) (length wrt) flat) eqs /\
  Forall2 Q (skipn (length eqs * length wrt) flat) rest.
Proof.
  induction eqs as [|eq eqs IH]; intros flat h; cbn [map concat length slice_rows] in *; [split; [constructor|exact h]|].
  rewrite <- app_assoc in h. apply Forall2_app_inv_r in h as (f1 & f2 & h1 & h2 & ->).
  pose proof (Forall2_len _ _ _ h1) as l1. rewrite map_length in l1.
  destruct (IH f2 h2) as [a b].
  rewrite firstn_app, skipn_app, <- l1, firstn_all, skipn_all, Nat.sub_diag. cbn [firstn skipn]. rewrite app_nil_r. cbn [app].
  rewrite l1. split.
  - constructor; auto. now apply Forall2_map_r.
  - replace (S (length eqs) * length wrt) with (length f1 + length eqs * length wrt) by (rewrite l1; cbn; lia).
    rewrite skipn_app, skipn_all2 by lia. replace (_ + _ - _) with (length eqs * length wrt) by lia. exact b.
Qed.
Lemma repeat_empty {A B} (S : list A -> B -> Prop) (row : list A) eqs : (forall eq, In eq eqs -> S row eq) ->
  Forall2 S (repeat row (length eqs)) eqs.
Proof. induction eqs; cbn; intros; constructor; auto. Qed.
Definition shapes_of (specs : list (spec V Op)) := map (fun s => (length (fst s), length (snd s))) specs.
Lemma materialize_ok specs : forall flat st, inv st -> inv (snd (materialize zero (shapes_of specs) flat st)) /\
  (forall k m, cache st k = Some m -> cache (snd (materialize zero (shapes_of specs) flat st)) k = Some m) /\
  forall fin r E E', kept (snd (materialize zero (shapes_of specs) flat st)) fin -> agrees fin r E' ->
    (forall e x, In e flat -> occurs x e -> is_temp (key_of x) -> temps_known st r E' (key_of x)) ->
    Forall2 (fun f e => evale E' f = evale E e) flat (flat_map (fun s => concat (grid deriv s)) specs) ->
    Forall2 (fun m s => Forall2 (fun row eq => Forall2 (fun n v => evaln r n = evale E (deriv eq v)) row (snd s)) m (fst s))
      (fst (materialize zero (shapes_of specs) flat st)) specs.
Proof.
  induction specs as [|[eqs wrt] specs IH]; intros flat st I; cbn [shapes_of map materialize fst snd].
  - cbn [fst snd]. split; [auto|split; [auto|]]. intros; constructor.
  - destruct ((length eqs =? 0) || (length wrt =? 0)) eqn:Z.
    + destruct (IH flat st I) as (a & b & c). fold (shapes_of specs). cbn [fst snd]. split; [exact a|split; [exact b|]].
      intros fin r E E' K A T H.
      assert (grid deriv (eqs, wrt) = []) as g.
      { apply orb_true_iff in Z as [Z|Z]; apply Nat.eqb_eq, length_zero_iff_nil in Z; subst; unfold grid; cbn; auto. destruct eqs; auto. }
      cbn [flat_map] in H. rewrite g in H. cbn [concat app] in H. constructor; [|now apply (c fin r E E')].
      cbn [fst snd]. apply repeat_empty. intros eq heq.
      apply orb_true_iff in Z as [Z|Z]; apply Nat.eqb_eq, length_zero_iff_nil in Z; subst; [destruct heq|constructor].
    + apply orb_false_iff in Z as [Z1 Z2]. apply Nat.eqb_neq in Z1, Z2.
      destruct (matrix_ok (slice_rows (length eqs) (length wrt) flat) st I) as (a & b & c).
      destruct (IH (skipn (length eqs * length wrt) flat) _ a) as (d & e & f). fold (shapes_of specs). cbn [fst snd].
      split; [exact d|split; [auto|]]. intros fin r E E' K A T H.
      assert (grid deriv (eqs, wrt) = map (fun eq => map (deriv eq) wrt) eqs) as g.
      { unfold grid; cbn [fst snd]. destruct eqs; [contradiction Z1; reflexivity|]. destruct wrt; [contradiction Z2; reflexivity|]. reflexivity. }
      cbn [flat_map] in H. rewrite g in H. apply slice_value in H as [H1 H2].
      constructor.
      * cbn [fst snd].
        assert (Forall2 (Forall2 (fun n e => evaln r n = evale E' e)) (fst (matrix (slice_rows (length eqs) (length wrt) flat) st)) (slice_rows (length eqs) (length wrt) flat)) as M.
        { apply (c fin); auto.
          - eapply kept_trans; [|exact K]. intros k m _ q. now apply e.
          - intros row x y h1 h2. apply T. eapply slice_in; eauto. }
        eapply Forall2_comp; [|exact M|exact H1]. cbn. intros n row eq q1 q2.
        eapply Forall2_comp; [|exact q1|exact q2]. cbn. intros; congruence.
      * apply (f fin r E E'); auto. intros x y hi o t. destruct (T x y (skipn_In _ _ _ hi) o t) as (m & em & vm). exists m; auto.
Qed.
Lemma flat_clean specs : (forall s eq v, In s specs -> In eq (fst s) -> In v (snd s) -> clean (deriv eq v)) ->
  Forall clean (flat_map (fun s => concat (grid deriv s)) specs).
Proof.
  intro h. apply Forall_forall. intros e hi. apply in_flat_map in hi as (s & hs & hi). apply in_concat in hi as (row & hr & he).
  unfold grid in hr. destruct (fst s) as [|e0 es] eqn:E1; [destruct hr|]. destruct (snd s) as [|v0 vs] eqn:E2; [destruct hr|].
  apply in_map_iff in hr as (eq & <- & heq). apply in_map_iff in he as (v & <- & hv).
  apply (h s); auto; [rewrite E1|rewrite E2]; auto.
Qed.
Lemma jacobians_ok specs st : (forall s eq v, In s specs -> In eq (fst s) -> In v (snd s) -> clean (deriv eq v)) -> inv st ->
  inv (snd (jacobians cse deriv is_number zero specs st)) /\ kept st (snd (jacobians cse deriv is_number zero specs st)) /\
  forall fin r E, kept (snd (jacobians cse deriv is_number zero specs st)) fin -> agrees fin r E ->
    Forall2 (fun m s => Forall2 (fun row eq => Forall2 (fun n v => evaln r n = evale E (deriv eq v)) row (snd s)) m (fst s))
      (fst (jacobians cse deriv is_number zero specs st)) specs.
Proof.
  intros hc I. unfold jacobians. fold (shapes_of specs). pose proof (flat_clean specs hc) as FC.
  set (flat := flat_map (fun s => concat (grid deriv s)) specs) in *. destruct (1 <? _).
  - destruct (CSE flat FC) as (D & R & S). set (c := cse flat) in *.
    destruct (plant_state (fst c) [] st D I) as [e f].
    destruct (materialize_ok specs (snd c) _ e) as (g & h & k). split; [exact g|split].
    + intros k' m t q. apply h, f; auto.
    + intros fin r E K A.
      assert (kept (plant (fst c) st) fin) as K1. { eapply kept_trans; [|exact K]. intros k' m _ q. now apply h. }
      destruct (plant_value sem r fin (fst c) [] st E D I K1 A) as [A' T]. { intros k' []. }
      apply (k fin r E (extend sem E (fst c))); auto.
      intros x y hi o t. apply T. right. eapply R; eauto.
  - destruct (materialize_ok specs flat st I) as (g & h & k). split; [exact g|split].
    + intros k' m _ q. now apply h.
    + intros fin r E K A. apply (k fin r E E); auto.
      * intros x y hi o t. exfalso. rewrite Forall_forall in FC. exact (FC x hi y o t).
      * fold flat. clear. induction flat; constructor; auto.
Qed.
(* ---------- histories ---------- *)
Notation perform := (perform cse deriv is_number zero).
Notation run := (run cse deriv is_number zero).
Lemma perform_ok c st : clean_call deriv c -> inv st -> inv (snd (perform c st)) /\ kept st (snd (perform c st)) /\
  forall fin, inv fin -> kept (snd (perform c st)) fin -> right_answer sem deriv (number fin) c (fst (perform c st)).
Proof.
  intros cc I. destruct c as [ins outs u|specs]; cbn [Conv_Model.perform fst snd].
  - destruct cc as [ci co]. destruct (convert_ok ins outs u st ci co I) as (a & b & c). split; [exact a|split; [exact b|]].
    intros fin F K. cbn [right_answer]. split.
    + assert (fst (fst (convert cse ins outs u st)) = fst (as_tensors (map Sy ins) st)) as ->.
      { unfold convert. destruct (u && _); reflexivity. }
      apply inputs_ok; auto. eapply kept_trans; [|exact K].
      unfold convert. destruct (as_tensors_state (map Sy ins) st I) as [a' b']. destruct (u && _); cbn [snd].
      * destruct (CSE (exprs_of outs) co) as (D & _).
        destruct (plant_state (fst (cse (exprs_of outs))) [] _ D a') as [e f].
        destruct (as_tensors_state (map to_expr (merge outs (snd (cse (exprs_of outs))))) _ e) as [g h].
        intros k m t q. apply h, f; auto.
      * destruct (as_tensors_state (map to_expr outs) _ a') as [g h]. intros k m t q. now apply h.
    + intro r. apply (c fin); auto. now apply agrees_inputs.
  - destruct (jacobians_ok specs st cc I) as (a & b & c). split; [exact a|split; [exact b|]].
    intros fin F K. cbn [right_answer]. intro r. apply (c fin); auto. now apply agrees_inputs.
Qed.
Lemma run_ok h : forall st, Forall (clean_call deriv) h -> inv st -> inv (snd (run h st)) /\ kept st (snd (run h st)) /\
  forall fin, inv fin -> kept (snd (run h st)) fin -> Forall2 (right_answer sem deriv (number fin)) h (fst (run h st)).
Proof.
  induction h as [|c h IH]; intros st C I; cbn [Conv_Model.run fst snd].
  - split; [auto|split; [apply kept_refl|]]. constructor.
  - inversion C; subst. destruct (perform_ok c st) as (a & b & d); auto. destruct (IH _ H2 a) as (e & f & g).
    split; [exact e|split; [eapply kept_trans; eauto|]]. intros fin F K. constructor.
    + apply d; auto. eapply kept_trans; eauto.
    + apply g; auto.
Qed.
Lemma number_inj fin k k' : inv fin -> ~ is_temp k -> ~ is_temp k' -> number fin k = number fin k' -> k = k'.
Proof.
  intros F t t'. unfold number.
  destruct (cache fin k) as [n|] eqn:e, (cache fin k') as [n'|] eqn:e';
    try destruct (i_inp fin F k n t e) as (i & -> & lt); try destruct (i_inp fin F k' n' t' e') as (i' & -> & lt').
  - intros <-. eapply (i_inj fin F); eauto.
  - lia.
  - lia.
  - intro h. apply code_inj. lia.
Qed.
End Runs.
