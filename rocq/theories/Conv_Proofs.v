(* Conversion with a shared cache: proofs. *)
From Verif Require Import Common Conv_Model Conv_Spec.

Lemma prefix_numeral (p n : chars) : (exists m, n = p ++ dec m) \/ ~ (exists m, n = p ++ dec m).
Proof.
  assert (forall m, n = p ++ dec m -> skipn (length p) n = dec m) as H.
  { intros m ->. rewrite skipn_app, skipn_all, Nat.sub_diag. reflexivity. }
  destruct (undec (skipn (length p) n)) as [m|] eqn:E.
  - destruct (list_eq_dec ascii_dec n (p ++ dec m)) as [e|ne]; [left; eauto|]. right. intros [m' e].
    rewrite (H m' e), undec_dec in E. injection E as <-. contradiction.
  - right. intros [m' e]. rewrite (H m' e), undec_dec in E. discriminate.
Qed.
Lemma temp_prefix_dec (k : key) : is_temp k \/ ~ is_temp k.
Proof.
  destruct k as [n c]. destruct c; [|right; intros [m e]; discriminate].
  destruct (prefix_numeral (str "__cse_tmp_") n) as [[m e]|h].
  - left. exists (N.to_nat m). unfold temp_name. rewrite N2Nat.id, <- e. reflexivity.
  - right. intros [m e]. apply h. exists (N.of_nat m). unfold temp_name in e. congruence.
Qed.

Section Proofs.
Context {V Op : Type}.
Variable sem : Op -> list V -> V.
Notation expr := (expr V Op).
Notation node := (node V Op).
Notation state := (state V Op).
Notation evale := (evale sem).
Notation evaln := (evaln sem).

Lemma expr_ind' (P : expr -> Prop) : (forall v, P (Num v)) -> (forall s, P (Sy s)) -> (forall f l, Forall P l -> P (App f l)) -> forall e, P e.
Proof.
  intros h1 h2 h3. fix IH 1. intros [v|s|f l]; [apply h1|apply h2|]. apply h3. induction l; constructor; [apply IH|assumption].
Qed.
Lemma node_ind' (P : node -> Prop) : (forall v, P (Const v)) -> (forall i nm, P (Inp i nm)) -> (forall f l, Forall P l -> P (Ap f l)) -> forall n, P n.
Proof.
  intros h1 h2 h3. fix IH 1. intros [v|i nm|f l]; [apply h1|apply h2|]. apply h3. induction l; constructor; [apply IH|assumption].
Qed.
Lemma as_tensor_app f l (st : state) : as_tensor (App f l) st = (Ap f (fst (as_tensors l st)), snd (as_tensors l st)).
Proof.
  cbn [as_tensor].
  assert ((fix go (l : list expr) (st : state) : list node * state :=
             match l with [] => ([], st) | x :: t => (fst (as_tensor x st) :: fst (go t (snd (as_tensor x st))), snd (go t (snd (as_tensor x st)))) end) l st
          = as_tensors l st) as ->; [|reflexivity].
  revert st; induction l as [|x l IH]; intro st; cbn [as_tensors]; [reflexivity|]; cbv zeta; now rewrite IH.
Qed.

(* user keys stand for distinct inputs, which are never replaced *)
Record inv (st : state) : Prop := {
  i_inp : forall k n, ~ is_temp k -> cache st k = Some n -> exists i, n = Inp i (fst k) /\ i < next st;
  i_inj : forall k k' i a b, ~ is_temp k -> ~ is_temp k' -> cache st k = Some (Inp i a) -> cache st k' = Some (Inp i b) -> k = k' }.
Definition kept (st st' : state) : Prop := forall k n, ~ is_temp k -> cache st k = Some n -> cache st' k = Some n.
Lemma kept_refl st : kept st st. Proof. intros k n _ e; exact e. Qed.
Lemma kept_trans a b c : kept a b -> kept b c -> kept a c. Proof. intros h h' k n t e. apply h', h; auto. Qed.
Lemma inv_empty : inv empty.
Proof. split; cbn; intros; discriminate. Qed.
Lemma input_for_ok k (st : state) n st' : inv st -> input_for k st = (n, st') ->
  inv st' /\ cache st' k = Some n /\ (forall k' m, cache st k' = Some m -> cache st' k' = Some m).
Proof.
  intros I. unfold input_for. destruct (cache st k) as [m|] eqn:E; intros [= <- <-]; [auto|].
  cbn [cache next put]. split; [|split].
  - split; cbn [cache next put].
    + intros k' m h. destruct (key_dec k k') as [<-|ne].
      * intros [= <-]. exists (next st). split; auto.
      * intro e. destruct (i_inp st I k' m h e) as (i & -> & lt). exists i; split; auto.
    + intros k1 k2 i a b h1 h2. destruct (key_dec k k1) as [<-|n1], (key_dec k k2) as [<-|n2]; auto.
      * intros [= e _] e2. destruct (i_inp st I k2 _ h2 e2) as (j & [= ->] & lt). lia.
      * intros e2 [= e _]. destruct (i_inp st I k1 _ h1 e2) as (j & [= ->] & lt). lia.
      * apply I; auto.
  - destruct (key_dec k k); congruence.
  - intros k' m e. destruct (key_dec k k') as [<-|ne]; congruence.
Qed.
Lemma as_tensor_state e : forall (st : state), inv st -> inv (snd (as_tensor e st)) /\
  (forall k m, cache st k = Some m -> cache (snd (as_tensor e st)) k = Some m).
Proof.
  induction e as [v|s|f l IH] using expr_ind'; intros st I.
  - cbn; auto.
  - cbn [as_tensor]. destruct (input_for (key_of s) st) as [n st'] eqn:E. cbn [snd].
    destruct (input_for_ok _ _ _ _ I E) as (a & b & c). auto.
  - rewrite as_tensor_app. cbn [snd]. revert st I. induction IH as [|x l hx IHl IH']; intros st I; cbn [as_tensors snd]; auto.
    destruct (hx st I) as [a b]. destruct (IH' _ a) as [c d]. split; auto.
Qed.
Lemma as_tensors_state l : forall (st : state), inv st -> inv (snd (as_tensors l st)) /\
  (forall k m, cache st k = Some m -> cache (snd (as_tensors l st)) k = Some m).
Proof.
  induction l as [|x l IH]; intros st I; cbn [as_tensors snd]; auto.
  destruct (as_tensor_state x st I) as [a b]. destruct (IH _ a) as [c d]. split; auto.
Qed.
(* the value of a converted expression, read off a later state for the user's keys and off the present one for temporaries *)
Definition agrees (fin : state) (r : nat -> V) (E : key -> V) : Prop := forall k n, ~ is_temp k -> cache fin k = Some n -> evaln r n = E k.
Definition temps_known (st : state) (r : nat -> V) (E : key -> V) (k : key) : Prop := exists n, cache st k = Some n /\ evaln r n = E k.
Lemma as_tensor_value r E fin e : forall st, inv st -> kept (snd (as_tensor e st)) fin -> agrees fin r E ->
  (forall x, occurs x e -> is_temp (key_of x) -> temps_known st r E (key_of x)) ->
  evaln r (fst (as_tensor e st)) = evale E e.
Proof.
  induction e as [v|s|f l IH] using expr_ind'; intros st I K A T.
  - reflexivity.
  - cbn [as_tensor] in *. destruct (input_for (key_of s) st) as [n st'] eqn:F. cbn [fst snd] in *.
    destruct (input_for_ok _ _ _ _ I F) as (a & b & c). cbn [Conv_Spec.evale].
    destruct (temp_prefix_dec (key_of s)) as [t|t].
    + destruct (T s (o_sy s) t) as (m & em & vm). unfold input_for in F. rewrite em in F. injection F as <- _. exact vm.
    + apply (A (key_of s)); auto.
  - rewrite as_tensor_app in *. cbn [fst snd] in *. cbn [Conv_Spec.evaln Conv_Spec.evale]. f_equal.
    assert (forall x, occurs x (App f l) -> is_temp (key_of x) -> temps_known st r E (key_of x)) as T' by exact T. clear T.
    assert (forall e x, In e l -> occurs x e -> is_temp (key_of x) -> temps_known st r E (key_of x)) as T.
    { intros; eapply T'; eauto. econstructor; eauto. } clear T'.
    revert st I K T. induction IH as [|x l hx IHl IH']; intros st I K T; cbn [as_tensors fst map]; auto.
    destruct (as_tensor_state x st I) as [a b]. destruct (as_tensors_state l _ a) as [c d]. cbn [as_tensors snd] in K. f_equal.
    + apply hx; auto. * eapply kept_trans; [|exact K]. intros k m _ e. apply d, e. * intros y o t. apply (T x); auto. now left.
    + apply IH'; auto. intros e y i o t. destruct (T e y (or_intror i) o t) as (m & em & vm). exists m; split; auto.
Qed.
Lemma as_tensors_value r E fin l : forall st, inv st -> kept (snd (as_tensors l st)) fin -> agrees fin r E ->
  (forall e x, In e l -> occurs x e -> is_temp (key_of x) -> temps_known st r E (key_of x)) ->
  Forall2 (fun n e => evaln r n = evale E e) (fst (as_tensors l st)) l.
Proof.
  induction l as [|x l IH]; intros st I K A T; cbn [as_tensors fst]; constructor.
  - cbn [as_tensors snd] in K. destruct (as_tensor_state x st I) as [a b]. destruct (as_tensors_state l _ a) as [c d].
    eapply as_tensor_value; eauto.
    + eapply kept_trans; [|exact K]. intros k m _ e. apply d, e.
    + intros y o t. apply (T x); auto. now left.
  - cbn [as_tensors snd] in K. destruct (as_tensor_state x st I) as [a b]. apply IH; auto.
    intros e y i o t. destruct (T e y (or_intror i) o t) as (m & em & vm). exists m; split; auto.
Qed.
(* planting *)
Lemma put_temp k n (st : state) : is_temp k -> inv st -> inv (put k n st) /\ kept st (put k n st).
Proof.
  intros t I. split.
  - split; cbn [put cache next].
    + intros k' m h. destruct (key_dec k k') as [<-|ne]; [contradiction|]. apply I; auto.
    + intros k1 k2 i a b h1 h2. destruct (key_dec k k1) as [<-|n1]; [contradiction|]. destruct (key_dec k k2) as [<-|n2]; [contradiction|].
      apply I; auto.
  - intros k' m h e. cbn [put cache]. destruct (key_dec k k') as [<-|ne]; [contradiction|]. exact e.
Qed.
Lemma plant_state subs : forall known (st : state), defined_before known subs -> inv st -> inv (plant subs st) /\ kept st (plant subs st).
Proof.
  induction subs as [|[t rhs] subs IH]; intros known st D I; cbn [plant]; [split; auto using kept_refl|].
  destruct D as (ht & _ & D). destruct (as_tensor_state rhs st I) as [a b].
  destruct (put_temp (key_of t) (fst (as_tensor rhs st)) _ ht a) as [c d].
  destruct (IH _ _ D c) as [e f]. split; auto.
  eapply kept_trans; [|exact f]. eapply kept_trans; [|exact d]. intros k m _ q. now apply b.
Qed.
Lemma plant_value r fin subs : forall known st E, defined_before known subs -> inv st -> kept (plant subs st) fin -> agrees fin r E ->
  (forall k, In k known -> temps_known st r E k) ->
  agrees fin r (extend sem E subs) /\
  (forall k, In k known \/ In k (map (fun p => key_of (fst p)) subs) -> temps_known (plant subs st) r (extend sem E subs) k).
Proof.
  induction subs as [|[t rhs] subs IH]; intros known st E D I K A T; cbn [plant extend map].
  - split; auto. intros k [h|[]]; auto.
  - pose proof D as (ht & hr & D'). destruct (as_tensor_state rhs st I) as [a b].
    set (n := fst (as_tensor rhs st)) in *. set (st1 := snd (as_tensor rhs st)) in *.
    destruct (put_temp (key_of t) n _ ht a) as [c d].
    pose proof (plant_state subs (key_of t :: known) _ D' c) as [e f].
    assert (evaln r n = evale E rhs) as vn.
    { apply (as_tensor_value r E fin rhs st); auto. fold st1. eapply kept_trans; [exact d|]. eapply kept_trans; [exact f|exact K]. }
    destruct (IH (key_of t :: known) (put (key_of t) n st1) (set_key (key_of t) (evale E rhs) E) D' c K) as [g h].
    + intros k m hk em. unfold set_key. destruct (key_dec (key_of t) k) as [<-|ne]; [contradiction|]. now apply A.
    + intros k hk. unfold temps_known, set_key. cbn [put cache]. destruct (key_dec (key_of t) k) as [<-|ne].
      * exists n; auto.
      * destruct hk as [hk|hk]; [contradiction|]. destruct (T k hk) as (m & em & vm). exists m; split; auto.
    + split; auto. intros k [hk|[hk|hk]]; apply h; cbn; auto.
Qed.
End Proofs.
