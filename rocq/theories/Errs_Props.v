(* C146.  Error objects and collections of errors. *)
From Verif Require Import Common Err_Model Err_Proofs Errs_Model.
Local Open Scope list_scope.

(* ---- specification ---- *)
(* the number of collectors made, and the errors added to the c-th one since it was made, in order *)
Fixpoint created (h : list command) : nat := match h with [] => 0 | Create :: t => S (created t) | _ :: t => created t end.
Fixpoint adds (made : nat) (h : list command) (c : nat) : list error :=
  match h with
  | [] => []
  | Create :: t => adds (S made) t c
  | Add c' e :: t => if Nat.eqb c' c && Nat.ltb c made then e :: adds made t c else adds made t c
  | _ :: t => adds made t c
  end.
Definition after (h : list command) (q : command) : answer := fst (step (snd (run empty h)) q).

(* ---- error objects ---- *)
(* For a plain or grammar error, with_location and with_context give an error that differs in that field, and in nothing
   else but the text, which is that of the new fields. *)
Definition same_but_place (e e' : error) : Prop :=
  message e' = message e /\ suggs e' = suggs e /\ code e' = code e /\ sev e' = sev e /\ annotation e' = annotation e /\ notes e' = notes e /\
  text e' = format_message (message e) (code e) (context e') (where_ e') (suggs e).
Theorem C146_with e : (forall s, cls e <> Semantic s) ->
  (forall p, exists e', with_location e p = Ok e' /\ same_but_place e e' /\ where_ e' = Some p /\ context e' = context e) /\
  (forall c, exists e', with_context e c = Ok e' /\ same_but_place e e' /\ where_ e' = where_ e /\ context e' = c).
Proof.
  intros H. split; intros x; unfold with_location, with_context, again; destruct (cls e) as [|ex fo|s] eqn:E; try (destruct (H s eq_refl)); eexists; (split; [reflexivity|]); cbn; unfold same_but_place; cbn; auto 10.
Qed.
(* any number of them, in any order: the last location and the last context given *)
Definition place := (location + chars)%type.
Fixpoint placed (e : error) (l : list place) : result error :=
  match l with [] => Ok e | inl p :: t => e' <- with_location e p ;; placed e' t | inr c :: t => e' <- with_context e c ;; placed e' t end.
Fixpoint last_location (d : option location) (l : list place) : option location := match l with [] => d | inl p :: t => last_location (Some p) t | inr _ :: t => last_location d t end.
Fixpoint last_context (d : chars) (l : list place) : chars := match l with [] => d | inl _ :: t => last_context d t | inr c :: t => last_context c t end.
Lemma again_cls e e' w c : again e w c = Ok e' -> forall s, cls e' <> Semantic s.
Proof. unfold again. destruct (cls e); intros H; inversion H; subst; cbn; discriminate. Qed.
Theorem C146_placed e l : (forall s, cls e <> Semantic s) -> exists e', placed e l = Ok e' /\ message e' = message e /\ suggs e' = suggs e /\ code e' = code e /\
  sev e' = sev e /\ annotation e' = annotation e /\ notes e' = notes e /\ where_ e' = last_location (where_ e) l /\ context e' = last_context (context e) l.
Proof.
  revert e. induction l as [|[p|c] t IH]; intros e H; cbn [placed last_location last_context]; [exists e; auto 10| |].
  - destruct (proj1 (C146_with e H) p) as (e1 & E1 & (M & S & C & V & A & N & _) & W & X). rewrite E1. cbn [bind]. destruct (IH e1) as (e' & E' & Q); [unfold with_location in E1; exact (again_cls _ _ _ _ E1)|].
    exists e'. rewrite M, S, C, V, A, N, W, X in Q. auto.
  - destruct (proj2 (C146_with e H) c) as (e1 & E1 & (M & S & C & V & A & N & _) & W & X). rewrite E1. cbn [bind]. destruct (IH e1) as (e' & E' & Q); [unfold with_context in E1; exact (again_cls _ _ _ _ E1)|].
    exists e'. rewrite M, S, C, V, A, N, W, X in Q. auto.
Qed.
(* On a semantic error both always fail. *)
Theorem C146_with_semantic e s : cls e = Semantic s -> (forall p, with_location e p = Err TypeError) /\ (forall c, with_context e c = Err TypeError).
Proof. intros H. unfold with_location, with_context, again. rewrite H. auto. Qed.
Theorem C146_with_refuted : ~ (forall e p, exists e', with_location e p = Ok e').
Proof. intros H. destruct (H (new_semantic (str "Undefined") (str "X") None [] [] None SError) (Location 1 1 None None [] [])) as [e' E]. discriminate. Qed.
(* and a grammar error forgets what it expected and found, though its message does not *)
Theorem C146_forgets e e' ex fo p : cls e = Grammar ex fo -> with_location e p = Ok e' -> cls e' = Grammar [] [].
Proof. unfold with_location, again. intros -> H. injection H as <-. reflexivity. Qed.

(* What the messages say. *)
Lemma contains_mid a s b : contains s (a ++ s ++ b) = true. Proof. apply contains_iff. eauto. Qed.
Lemma join_in x (l : list chars) : In x l -> exists a b, join (str ", ") (map quoted l) = a ++ quoted x ++ b.
Proof.
  induction l as [|y t IH]; intros H; [destruct H|]. destruct H as [->|H].
  - destruct t as [|z t]; cbn [map join]; [exists [], []; now rewrite app_nil_r|exists [], (str ", " ++ join (str ", ") (map quoted (z :: t))); reflexivity].
  - destruct (IH H) as (a & b & E). destruct t as [|z t]; [destruct H|]. cbn [map join] in *. rewrite E. exists (quoted y ++ str ", " ++ a), b. now rewrite <- !app_assoc.
Qed.
Lemma in_quoted x s : (exists a b, s = a ++ quoted x ++ b) -> contains x s = true.
Proof. intros (a & b & ->). apply contains_iff. exists (a ++ str "'"), (str "'" ++ b). unfold quoted. now rewrite <- !app_assoc. Qed.
Theorem C146_grammar_message m ex fo w c k s an no su : let e := new_grammar m ex fo w c k s an no su in
  (exists r, message e = m ++ r) /\ contains fo (message e) = true /\ (forall x, In x (expected_list ex) -> contains x (message e) = true) /\ code e = Some k.
Proof.
  cbn. assert (forall l, (exists r, grammar_message m l fo = m ++ r) /\ (fo <> [] -> exists a b, grammar_message m l fo = a ++ quoted fo ++ b) /\
      (forall x, In x l -> exists a b, grammar_message m l fo = a ++ quoted x ++ b)) as G.
  { intros l. split; [|split].
    - destruct l as [|y [|z t]], fo as [|f fo]; cbn [grammar_message]; try (eexists; reflexivity). exists []. now rewrite app_nil_r.
    - intros N. destruct fo as [|f fo]; [easy|]. destruct l as [|y [|z t]]; unfold grammar_message.
      + exists (m ++ str ". Found "), []. now rewrite app_nil_r, <- !app_assoc.
      + exists (m ++ str ". Expected " ++ quoted y ++ str ", found "), []. now rewrite app_nil_r, <- !app_assoc.
      + exists (m ++ str ". Expected one of " ++ join (str ", ") (map quoted (y :: z :: t)) ++ str ", found "), []. now rewrite app_nil_r, <- !app_assoc.
    - intros x Hx. destruct l as [|y [|z t]]; [destruct Hx| |].
      + destruct Hx as [->|[]]. destruct fo as [|f fo]; unfold grammar_message.
        * exists (m ++ str ". Expected "), []. now rewrite app_nil_r, <- !app_assoc.
        * exists (m ++ str ". Expected "), (str ", found " ++ quoted (f :: fo)). now rewrite <- !app_assoc.
      + destruct (join_in x _ Hx) as (a & b & E). destruct fo as [|f fo]; unfold grammar_message; rewrite E.
        * exists (m ++ str ". Expected one of " ++ a), b. now rewrite <- !app_assoc.
        * exists (m ++ str ". Expected one of " ++ a), (b ++ str ", found " ++ quoted (f :: fo)). now rewrite <- !app_assoc. }
  destruct (G (expected_list ex)) as (G1 & G2 & G3). split; [easy|]. split.
  - destruct fo as [|f fo]; [apply contains_iff; eexists [], _; reflexivity|]. apply in_quoted, G2. discriminate.
  - split; [|easy]. intros x Hx. apply in_quoted, G3, Hx.
Qed.
Theorem C146_semantic_message m s w su c k v : let e := new_semantic m s w su c k v in
  contains s (message e) = true /\ (exists r, message e = m ++ r) /\ (contains s m = true -> message e = m).
Proof.
  cbn. unfold semantic_message. destruct s as [|a s].
  - split; [apply contains_iff; eexists [], _; reflexivity|]. split; [exists []; now rewrite app_nil_r|easy].
  - destruct (contains (a :: s) m) eqn:E; [split; [easy|]; split; [exists []; now rewrite app_nil_r|easy]|].
    split; [|split; [eexists; reflexivity|discriminate]]. apply in_quoted. exists (m ++ str ": "), []. now rewrite app_nil_r, <- app_assoc.
Qed.
(* The text begins with the code, if any, and the message; it names the place and every suggestion. *)
Lemma join_part sep (l : list chars) x : In x l -> exists a b, join sep l = a ++ x ++ b.
Proof.
  induction l as [|y t IH]; intros H; [destruct H|]. destruct H as [->|H].
  - destruct t as [|z t]; cbn [join]; [exists [], []; now rewrite app_nil_r|exists [], (sep ++ join sep (z :: t)); reflexivity].
  - destruct (IH H) as (a & b & E). destruct t as [|z t]; [destruct H|]. cbn [join] in *. rewrite E. exists (y ++ sep ++ a), b. now rewrite <- !app_assoc.
Qed.
Definition built (e : error) : Prop := text e = format_message (message e) (code e) (context e) (where_ e) (suggs e).
Theorem C146_text e : built e ->
  (exists r, text e = (match code e with Some c => str "[" ++ code_name c ++ str "] " | None => [] end) ++ message e ++ r) /\
  contains (context e) (text e) = true /\
  (forall p, where_ e = Some p -> contains (format_location p) (text e) = true) /\
  (forall s, In s (suggs e) -> contains s (text e) = true).
Proof.
  unfold built. intros ->. unfold format_message.
  set (A := match code e with Some c => str "[" ++ code_name c ++ str "] " ++ message e | None => message e end).
  set (B := match context e with [] => [] | _ => [str "  in " ++ context e] end).
  set (C := match where_ e with None => [] | Some p => [str "  at " ++ format_location p] ++ match source_line p with [] => [] | _ => [indented_pointer p] end end).
  set (D := match suggs e with [] => [] | [s] => [str "  Did you mean: " ++ s ++ str "?"] | _ => [str "  Did you mean one of: " ++ join (str ", ") (suggs e) ++ str "?"] end).
  assert (forall x s, In x ([A] ++ B ++ C ++ D) -> (exists a b, x = a ++ s ++ b) -> contains s (join nl ([A] ++ B ++ C ++ D)) = true) as G.
  { intros x s Hx (a & b & E). destruct (join_part nl _ x Hx) as (a' & b' & ->). apply contains_iff. exists (a' ++ a), (b ++ b'). rewrite E, <- !app_assoc. reflexivity. }
  split; [|split; [|split]].
  - assert (exists r, join nl ([A] ++ B ++ C ++ D) = A ++ r) as (r & ->).
    { cbn [app]. destruct (B ++ C ++ D); cbn [join]; [exists []; now rewrite app_nil_r|eexists; reflexivity]. }
    exists r. unfold A. destruct (code e); rewrite <- ?app_assoc; reflexivity.
  - assert (context e = [] \/ In (str "  in " ++ context e) B) as [->|HB] by (unfold B; destruct (context e); [now left|right; now left]).
    + apply contains_iff. eexists [], _. reflexivity.
    + apply (G _ _ (or_intror (in_or_app _ _ _ (or_introl HB)))). exists (str "  in "), []. now rewrite app_nil_r.
  - intros p Hp. assert (In (str "  at " ++ format_location p) C) as HC by (unfold C; rewrite Hp; now left).
    apply (G _ _ (or_intror (in_or_app _ _ _ (or_intror (in_or_app _ _ _ (or_introl HC)))))). exists (str "  at "), []. now rewrite app_nil_r.
  - intros s Hs. assert (exists x, In x D /\ exists a b, x = a ++ s ++ b) as (x & HD & HX).
    { unfold D. destruct (suggs e) as [|s1 [|s2 t]]; [destruct Hs| |].
      - destruct Hs as [->|[]]. eexists. split; [now left|]. exists (str "  Did you mean: "), (str "?"). reflexivity.
      - eexists. split; [now left|]. destruct (join_part (str ", ") _ s Hs) as (a & b & ->). exists (str "  Did you mean one of: " ++ a), (b ++ str "?"). now rewrite <- !app_assoc. }
    exact (G _ _ (or_intror (in_or_app _ _ _ (or_intror (in_or_app _ _ _ (or_intror HD))))) HX).
Qed.
(* The editor's diagnostic: the place, the severity and the code can be read back. *)
Theorem C146_diagnostic e e' : to_lsp_diagnostic e = to_lsp_diagnostic e' -> message e = message e' /\ sev e = sev e' /\ suggs e = suggs e' /\
  option_map code_name (code e) = option_map code_name (code e').
Proof.
  unfold to_lsp_diagnostic. intros H. injection H as _ M S C D. split; [easy|]. split; [destruct (sev e), (sev e'); easy|]. split.
  - destruct (suggs e), (suggs e'); congruence.
  - destruct (code e), (code e'); try discriminate C; [|easy]. injection C as C _. exact (f_equal Some C).
Qed.

(* ---- collectors ---- *)
Lemma run_app w h h' : run w (h ++ h') = let '(o, w1) := run w h in let '(o', w2) := run w1 h' in (o ++ o', w2).
Proof.
  revert w. induction h as [|c t IH]; intros w; cbn [app run]; [now destruct (run w h')|]. destruct (step w c) as [a w1]. rewrite IH. destruct (run w1 t) as [o w2]. destruct (run w2 h'). reflexivity.
Qed.
Lemma state_app w h h' : snd (run w (h ++ h')) = snd (run (snd (run w h)) h').
Proof. rewrite run_app. destruct (run w h) as [o w1]. cbn. destruct (run w1 h'). reflexivity. Qed.
Lemma state_cons w c h : snd (run w (c :: h)) = snd (run (snd (step w c)) h).
Proof. cbn [run]. destruct (step w c) as [a w1]. cbn. destruct (run w1 h). reflexivity. Qed.
Lemma update_len {A} (l : list A) i f : length (update l i f) = length l. Proof. revert i. induction l as [|x t IH]; intros [|i]; cbn; auto. Qed.
Lemma update_nth {A} (l : list A) i f j d : nth j (update l i f) d = if (Nat.eqb i j && Nat.ltb j (length l))%bool then f (nth j l d) else nth j l d.
Proof.
  revert i j. induction l as [|x t IH]; intros [|i] [|j]; cbn; auto; [now rewrite Bool.andb_false_r|]. rewrite IH. reflexivity.
Qed.
Lemma nth_error_some {A} (l : list A) i : i < length l -> forall d, nth_error l i = Some (nth i l d).
Proof. revert i. induction l as [|x t IH]; intros [|i] H d; cbn in *; try lia; auto. apply IH. lia. Qed.
Lemma step_collectors w q c : let w' := snd (step w q) in
  length (collectors w') = length (collectors w) + (match q with Create => 1 | _ => 0 end) /\
  (errors_of w' c = errors_of w c ++ match q with Add c' e => if (Nat.eqb c' c && Nat.ltb c (length (collectors w)))%bool then [e] else [] | _ => [] end).
Proof.
  destruct w as [cs ks]. unfold errors_of.
  assert (forall c' f, (forall l w', snd (f l) = w' -> w' = World cs ks \/ exists k, w' = World cs k) ->
    length (collectors (snd (on_collector (World cs ks) c' f))) = length cs /\ nth c (collectors (snd (on_collector (World cs ks) c' f))) [] = nth c cs []) as G.
  { intros c' f Hf. unfold on_collector. cbn. destruct (nth_error cs c') as [l|]; cbn; [|easy]. now destruct (Hf l _ eq_refl) as [-> | [k ->]]. }
  destruct q as [|c' e|c'|c'|c'|c'|c'|k|k|k|k|k]; cbn [step]; rewrite ?app_nil_r, ?Nat.add_0_r;
    try (apply G; intros l w'; cbn; auto; fail);
    try (unfold on_collection; cbn; destruct (nth_error ks k) as [[? ?]|]; cbn; easy).
  - cbn. rewrite app_length. split; [easy|]. destruct (Nat.lt_ge_cases c (length cs)) as [L|L]; [now rewrite app_nth1|].
    rewrite app_nth2 by easy. rewrite (nth_overflow cs) by easy. destruct (c - length cs) as [|n]; [easy|]. now destruct n.
  - unfold on_collector. cbn [collectors]. destruct (nth_error cs c') as [l|] eqn:E; cbn [fst snd collectors].
    + rewrite update_len. split; [easy|]. rewrite update_nth. destruct (Nat.eqb c' c && Nat.ltb c (length cs))%bool; [easy|now rewrite app_nil_r].
    + split; [easy|]. apply nth_error_None in E. destruct (Nat.eqb_spec c' c) as [<-|]; cbn [andb]; [|now rewrite app_nil_r]. destruct (Nat.ltb_spec c' (length cs)); [lia|now rewrite app_nil_r].
  - apply G. intros [|x l] w'; cbn; intros <-; eauto.
Qed.
Lemma state_general h : forall w c, length (collectors (snd (run w h))) = length (collectors w) + created h /\
  errors_of (snd (run w h)) c = errors_of w c ++ adds (length (collectors w)) h c.
Proof.
  induction h as [|q t IH]; intros w c; [cbn; now rewrite Nat.add_0_r, app_nil_r|]. rewrite state_cons. destruct (IH (snd (step w q)) c) as [-> ->].
  destruct (step_collectors w q c) as [-> ->]. destruct q; cbn [created adds]; rewrite ?Nat.add_0_r, ?app_nil_r, <- ?app_assoc; split; try easy; try lia.
  - now rewrite Nat.add_1_r.
  - destruct (Nat.eqb c0 c && Nat.ltb c (length (collectors w)))%bool; reflexivity.
Qed.
Lemma state_of h c : length (collectors (snd (run empty h))) = created h /\ errors_of (snd (run empty h)) c = adds 0 h c.
Proof. destruct (state_general h empty c) as [-> ->]. unfold errors_of. cbn. destruct c; auto. Qed.
Lemma on_it h c f : c < created h -> on_collector (snd (run empty h)) c f = f (adds 0 h c).
Proof.
  intros H. destruct (state_of h c) as [L E]. unfold on_collector. rewrite (nth_error_some _ c) with (d := []) by (rewrite L; easy). unfold errors_of in E. now rewrite E.
Qed.
Lemma find_first (l : list error) e : find is_error l = Some e <-> exists a b, l = a ++ e :: b /\ sev e = SError /\ (forall x, In x a -> sev x <> SError).
Proof.
  induction l as [|y t IH]; cbn [find].
  - split; [discriminate|]. intros ([|] & b & H & _); discriminate.
  - unfold is_error at 1. split.
    + destruct (sev y) eqn:E; intros H; try (apply IH in H as (a & b & -> & S & A); exists (y :: a), b; split; [easy|]; split; [easy|]; intros x [<-|Hx]; [congruence|auto]; fail).
      injection H as <-. exists [], t. split; [easy|]. split; [easy|]. intros x [].
    + intros ([|z a] & b & H & S & A); cbn in H; injection H as <- H; [now rewrite S|]. specialize (A y (or_introl eq_refl)) as A1. destruct (sev y); try easy; apply IH; exists a, b; (split; [easy|]); (split; [easy|]); intros x Hx; apply A; now right.
Qed.
Theorem C146_collector h c : c < created h ->
  after h (Length c) = Count (length (adds 0 h c)) /\
  (after h (HasErrors c) = Bool true <-> exists e, In e (adds 0 h c) /\ sev e = SError) /\
  (forall e, after h (RaiseFirst c) = Raised e <-> exists a b, adds 0 h c = a ++ e :: b /\ sev e = SError /\ (forall x, In x a -> sev x <> SError)) /\
  (after h (RaiseFirst c) = Nothing <-> after h (HasErrors c) = Bool false) /\
  (exists l, after h (Warnings c) = Errors l /\ l = filter (fun e => match sev e with SWarning => true | _ => false end) (adds 0 h c)) /\
  (after h (RaiseIfErrors c) = Nothing <-> adds 0 h c = []).
Proof.
  intros H. unfold after. cbn [step]. rewrite !on_it by easy. cbn [fst].
  split; [easy|]. split; [|split; [|split; [|split]]].
  - split.
    + intros E. injection E as E. apply existsb_exists in E as (e & He & Q). exists e. unfold is_error in Q. destruct (sev e); easy.
    + intros (e & He & S). f_equal. apply existsb_exists. exists e. unfold is_error. rewrite S. easy.
  - intros e. rewrite <- find_first. destruct (find is_error (adds 0 h c)); split; intros E; try discriminate; congruence.
  - destruct (find is_error (adds 0 h c)) as [e|] eqn:E.
    + apply find_some in E as [He Q]. split; [discriminate|]. intros E. injection E as E. assert (existsb is_error (adds 0 h c) = true) by (apply existsb_exists; eauto). congruence.
    + split; [|easy]. intros _. f_equal. destruct (existsb is_error (adds 0 h c)) eqn:X; [|easy]. apply existsb_exists in X as (e & He & Q). pose proof (find_none _ _ E e He). congruence.
  - eexists. split; [reflexivity|reflexivity].
  - destruct (adds 0 h c); cbn; split; easy.
Qed.
(* ---- collections ---- *)
Lemma step_collections w q : exists l, collections (snd (step w q)) = collections w ++ l.
Proof.
  destruct w as [cs ks]. destruct q; cbn [step]; unfold on_collector, on_collection; cbn; repeat match goal with |- context [match ?x with _ => _ end] => destruct x; cbn end; try (exists []; now rewrite app_nil_r); eexists; reflexivity.
Qed.
Lemma run_collections h : forall w, exists l, collections (snd (run w h)) = collections w ++ l.
Proof.
  induction h as [|q t IH]; intros w; [exists []; cbn; now rewrite app_nil_r|]. rewrite state_cons. destruct (IH (snd (step w q))) as [l ->]. destruct (step_collections w q) as [l' ->]. exists (l' ++ l). now rewrite app_assoc.
Qed.
(* Once raised, a collection keeps its text; its errors are those of the collector, now. *)
Theorem C146_collection h h' c k : c < created h -> after h (RaiseIfErrors c) = RaisedCollection k ->
  let now := h ++ RaiseIfErrors c :: h' in
  after now (CollectionErrors k) = Errors (adds 0 now c) /\ after now (CollectionLength k) = Count (length (adds 0 now c)) /\
  after now (CollectionDiagnostics k) = Diagnostics (map to_lsp_diagnostic (adds 0 now c)) /\
  after now (CollectionText k) = Text (collection_text (adds 0 h c)) /\ after now (CollectionHasErrors k) = Bool true /\
  (exists l, adds 0 now c = adds 0 h c ++ l).
Proof.
  intros Hc H. cbn zeta. unfold after in H. cbn [step] in H. rewrite on_it in H by easy.
  set (now := h ++ RaiseIfErrors c :: h'). set (w0 := snd (run empty h)) in *.
  assert (snd (step w0 (RaiseIfErrors c)) = World (collectors w0) (collections w0 ++ [(c, collection_text (adds 0 h c))])) as E.
  { cbn [step]. unfold w0. rewrite on_it by easy. fold w0. destruct (adds 0 h c); [discriminate H|reflexivity]. }
  assert (k = length (collections w0)) as ->. { destruct (adds 0 h c); cbn in H; congruence. }
  assert (exists l, adds 0 now c = adds 0 h c ++ l) as (l & El).
  { destruct (state_of now c) as [_ <-]. unfold now. rewrite state_app. fold w0. destruct (state_general (RaiseIfErrors c :: h') w0 c) as [_ ->]. unfold w0. destruct (state_of h c) as [_ ->]. eauto. }
  assert (nth_error (collections (snd (run empty now))) (length (collections w0)) = Some (c, collection_text (adds 0 h c))) as N.
  { unfold now. rewrite state_app. fold w0. rewrite state_cons, E. destruct (run_collections h' (World (collectors w0) (collections w0 ++ [(c, collection_text (adds 0 h c))]))) as [l' ->]. cbn [collections].
    rewrite <- app_assoc, nth_error_app2, Nat.sub_diag by lia. reflexivity. }
  unfold after. cbn [step]. unfold on_collection. rewrite N. cbn [fst]. destruct (state_of now c) as [_ ->]. repeat (split; [reflexivity|]). split; [|eauto].
  f_equal. rewrite El, app_length. apply Nat.ltb_lt. destruct (adds 0 h c); [discriminate H|cbn; lia].
Qed.
Definition warning : error := new_error Base (str "Unused parameter") None [] [] (Some 21) SWarning [] [].
Definition undefined : error := new_semantic (str "Undefined variable") (str "Y") (Some (Location 3 7 None None [] (str "rbc.gcn"))) [str "Yd"] [] None SError.
(* The text of a collection need not be that of its errors. *)
Theorem C146_count_refuted : ~ (forall h k l t, after h (CollectionErrors k) = Errors l -> after h (CollectionText k) = Text t -> t = collection_text l).
Proof.
  intros H. specialize (H [Create; Add 0 undefined; RaiseIfErrors 0; Add 0 undefined] 0 [undefined; undefined] (text undefined) eq_refl eq_refl).
  vm_compute in H. discriminate H.
Qed.
(* raise_if_errors raises when there is no error: a warning is enough. *)
Theorem C146_warning_refuted : ~ (forall h c k, after h (RaiseIfErrors c) = RaisedCollection k -> after h (HasErrors c) = Bool true).
Proof. intros H. specialize (H [Create; Add 0 warning] 0 0 eq_refl). discriminate H. Qed.
Theorem C146_case : created [Create; Create; Add 1 warning; Add 1 undefined] = 2 /\ after [Create; Create; Add 1 warning; Add 1 undefined] (RaiseFirst 1) = Raised undefined /\
  after [Create; Create; Add 1 warning; Add 1 undefined] (HasErrors 0) = Bool false /\ built undefined /\ (forall s, cls warning <> Semantic s) /\
  text undefined = str "Undefined variable: 'Y'" ++ nl ++ str "  at rbc.gcn:3:7" ++ nl ++ str "  Did you mean: Yd?".
Proof. refine (conj _ (conj _ (conj _ (conj _ (conj _ _))))); try reflexivity. intros s H. discriminate H. Qed.
