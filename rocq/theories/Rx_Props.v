(* C160: taking a special block out of a text *)
From Verif Require Import Common Cls_Model Rx_Model.
From Coq Require Import Lia.
Local Open Scope list_scope.
Local Open Scope nat_scope.

(* ---- specification ---- *)
Definition white (c : ascii) : Prop := let n := nat_of_ascii c in 9 <= n <= 13 \/ 28 <= n <= 32.
Definition no_close (s : chars) : Prop := forall a b, s <> a ++ str "};" ++ b.
(* the text of a block: its name in any case, white space, a brace, and everything up to the first "};" *)
Definition block_text (name m : chars) : Prop :=
  exists n ws body, m = n ++ ws ++ str "{" ++ body ++ str "};" /\ lower n = lower name /\ Forall white ws /\ no_close (body ++ str "}").
(* the text without the blocks, taken from left to right *)
Inductive without (name : chars) : chars -> chars -> Prop :=
| W_end : without name [] []
| W_block m s t : block_text name m -> without name s t -> without name (m ++ s) t
| W_char c s t : (forall m rest, c :: s = m ++ rest -> ~ block_text name m) -> without name s t -> without name (c :: s) (c :: t).

(* ---- lemmas ---- *)
Lemma is_white_iff c : is_white c = true <-> white c.
Proof. unfold is_white, white. rewrite orb_true_iff, !andb_true_iff, !Nat.leb_le. tauto. Qed.
Lemma eat_name_iff name : forall s r, eat_name name s = Some r <-> exists n, s = n ++ r /\ lower n = lower name.
Proof.
  induction name as [|a name IH]; intros s r; cbn [eat_name].
  - split; [intro H; injection H as <-; now exists []|]. intros ([|x n] & -> & H); [reflexivity|discriminate H].
  - destruct s as [|b s].
    + split; [discriminate|]. intros ([|x n] & E & H); [discriminate H|discriminate E].
    + destruct (ascii_dec (lower_char a) (lower_char b)) as [E|E].
      * rewrite IH. split.
        -- intros (n & -> & H). exists (b :: n). split; [reflexivity|]. unfold lower in *. cbn [map]. congruence.
        -- intros ([|x n] & E1 & H); [discriminate H|]. cbn [app] in E1. injection E1 as <- ->. exists n. split; [reflexivity|]. unfold lower in *. cbn [map] in H. congruence.
      * split; [discriminate|]. intros ([|x n] & E1 & H); [discriminate H|]. cbn [app] in E1. injection E1 as <- ->. unfold lower in H. cbn [map] in H. congruence.
Qed.
Lemma eat_white_split s : exists ws, s = ws ++ eat_white s /\ Forall white ws.
Proof.
  induction s as [|c s (ws & E & F)]; [exists []; now split|]. cbn [eat_white]. destruct (is_white c) eqn:W.
  - exists (c :: ws). split; [cbn [app]; congruence|]. constructor; [now apply is_white_iff|exact F].
  - exists []. now split.
Qed.
Lemma eat_white_brace ws t : Forall white ws -> eat_white (ws ++ "{"%char :: t) = "{"%char :: t.
Proof. induction 1 as [|c ws H _ IH]; [reflexivity|]. cbn [app eat_white]. apply is_white_iff in H. now rewrite H. Qed.
Lemma eat_to_close_iff s : forall rest, eat_to_close s = Some rest <-> exists body, s = body ++ str "};" ++ rest /\ no_close (body ++ str "}").
Proof.
  assert (forall c, no_close (str "}") /\ no_close [c]) as N1.
  { intro c. split; intros a b E; apply (f_equal (@length ascii)) in E; rewrite !app_length in E; cbn in E; lia. }
  induction s as [|a s IH]; intro rest.
  - cbn [eat_to_close]. split; [discriminate|]. intros ([|x body] & E & _); discriminate E.
  - assert (eat_to_close (a :: s) = match s with b :: r' => if ascii_dec a "}" then (if ascii_dec b ";" then Some r' else eat_to_close s) else eat_to_close s | [] => None end) as -> by (destruct s; reflexivity).
    destruct s as [|b r'].
    + split; [discriminate|]. intros ([|x [|y body]] & E & _); discriminate E.
    + assert (forall body, a :: b :: r' = body ++ str "};" ++ rest -> no_close (body ++ str "}") -> ~ (a = "}"%char /\ b = ";"%char) -> exists body', body = a :: body' /\ b :: r' = body' ++ str "};" ++ rest /\ no_close (body' ++ str "}")) as Down.
      { intros [|x body] E N H. { cbn in E. injection E as -> -> _. tauto. } cbn [app] in E. injection E as <- E. exists body. refine (conj eq_refl (conj E _)). intros p q X. apply (N (a :: p) q). cbn [app]. now rewrite X. }
      assert (forall body, b :: r' = body ++ str "};" ++ rest -> no_close (body ++ str "}") -> ~ (a = "}"%char /\ b = ";"%char) -> no_close (a :: body ++ str "}")) as Up.
      { intros body E N H [|x p] q X; [|cbn [app] in X; injection X as _ X; exact (N p q X)]. cbn in X. injection X as Ha X. apply H. split; [exact Ha|].
        destruct body as [|y body]; cbn in X, E; [discriminate X|]. injection X as -> _. now injection E. }
      assert (eat_to_close (b :: r') = Some rest /\ ~ (a = "}"%char /\ b = ";"%char) <-> exists body, a :: b :: r' = body ++ str "};" ++ rest /\ no_close (body ++ str "}") /\ ~ (a = "}"%char /\ b = ";"%char)) as Q.
      { rewrite IH. split.
        - intros [(body & E & N) H]. exists (a :: body). refine (conj _ (conj (Up body E N H) H)). cbn [app]. now rewrite E.
        - intros (body & E & N & H). destruct (Down body E N H) as (body' & -> & E' & N'). split; [now exists body'|exact H]. }
      destruct (ascii_dec a "}") as [Ha|Ha]; [destruct (ascii_dec b ";") as [Hb|Hb]|].
      * subst. split.
        -- intro H. injection H as ->. exists []. split; [reflexivity|]. apply (N1 "}"%char).
        -- intros (body & E & N). destruct body as [|x body]; [cbn in E; now injection E as ->|]. exfalso. cbn [app] in E. injection E as <- E.
           destruct body as [|y body]; [discriminate E|]. cbn [app] in E. injection E as <- E. exact (N [] (body ++ str "}") eq_refl).
      * assert (~ (a = "}"%char /\ b = ";"%char)) as H by tauto. split; [intro X; destruct (proj1 Q (conj X H)) as (body & E & N & _); now exists body|]. intros (body & E & N). apply Q. now exists body.
      * assert (~ (a = "}"%char /\ b = ";"%char)) as H by tauto. split; [intro X; destruct (proj1 Q (conj X H)) as (body & E & N & _); now exists body|]. intros (body & E & N). apply Q. now exists body.
Qed.
Lemma match_here_iff name s m rest : match_here name s = Some (m, rest) <-> s = m ++ rest /\ block_text name m.
Proof.
  unfold match_here. split.
  - destruct (eat_name name s) as [r|] eqn:E1; [|discriminate]. apply eat_name_iff in E1. destruct E1 as (n & -> & Hn).
    destruct (eat_white_split r) as (ws & Er & Hw). destruct (eat_white r) as [|c r2]; [discriminate|]. destruct (ascii_dec c "{") as [->|]; [|discriminate].
    destruct (eat_to_close r2) as [rest'|] eqn:E2; [|discriminate]. apply eat_to_close_iff in E2. destruct E2 as (body & E2 & N). intro H. injection H as H ->. subst r2 r.
    assert (n ++ ws ++ "{"%char :: body ++ str "};" ++ rest = (n ++ ws ++ str "{" ++ body ++ str "};") ++ rest) as Q by (cbn; rewrite <- !app_assoc; cbn; now rewrite <- app_assoc).
    rewrite Q in H. rewrite app_length in H. replace (length (n ++ ws ++ str "{" ++ body ++ str "};") + length rest - length rest) with (length (n ++ ws ++ str "{" ++ body ++ str "};")) in H by lia.
    rewrite firstn_app, Nat.sub_diag, firstn_all in H. cbn [firstn] in H. rewrite app_nil_r in H. split; [now rewrite Q, H|]. exists n, ws, body. auto.
  - intros [-> (n & ws & body & -> & Hn & Hw & N)].
    assert ((n ++ ws ++ str "{" ++ body ++ str "};") ++ rest = n ++ (ws ++ "{"%char :: (body ++ str "};" ++ rest))) as Q by (cbn; rewrite <- !app_assoc; cbn; now rewrite <- app_assoc).
    rewrite Q. rewrite (proj2 (eat_name_iff name _ (ws ++ "{"%char :: (body ++ str "};" ++ rest)))) by (now exists n).
    rewrite eat_white_brace by exact Hw. destruct (ascii_dec "{" "{") as [_|X]; [|congruence].
    rewrite (proj2 (eat_to_close_iff _ rest)) by (now exists body). rewrite <- Q. f_equal. f_equal. rewrite app_length.
    replace (length (n ++ ws ++ str "{" ++ body ++ str "};") + length rest - length rest) with (length (n ++ ws ++ str "{" ++ body ++ str "};")) by lia.
    rewrite firstn_app, Nat.sub_diag, firstn_all. cbn [firstn]. apply app_nil_r.
Qed.
Lemma match_here_none name s : match_here name s = None <-> forall m rest, s = m ++ rest -> ~ block_text name m.
Proof.
  split.
  - intros H m rest E B. assert (match_here name s = Some (m, rest)) as X by (now apply match_here_iff). congruence.
  - intro H. destruct (match_here name s) as [[m rest]|] eqn:E; [|reflexivity]. apply match_here_iff in E. destruct E as [E B]. destruct (H m rest E B).
Qed.
Lemma block_nonempty name m : block_text name m -> exists c r, m = c :: r.
Proof. intros (n & ws & body & -> & _). destruct n as [|c n]; [destruct ws as [|c ws]|]; cbn; eauto. Qed.

(* ---- theorems ---- *)
(* what is extracted is the first block of the text, whole; None exactly if there is none *)
Theorem C160_extract s name :
  match extract_special_block_content s name with
  | Some m => exists pre post, s = pre ++ m ++ post /\ block_text name m /\
      forall pre' m' post', s = pre' ++ m' ++ post' -> block_text name m' -> length pre <= length pre' /\ (length pre = length pre' -> m' = m)
  | None => forall pre m post, s = pre ++ m ++ post -> ~ block_text name m
  end.
Proof.
  induction s as [|c s IH].
  - cbn [extract_special_block_content]. destruct (match_here name []) as [[m rest]|] eqn:E.
    + apply match_here_iff in E. destruct E as [E B]. destruct (block_nonempty _ _ B) as (c & r & ->). discriminate E.
    + intros pre m post X B. destruct (block_nonempty _ _ B) as (c & r & ->). destruct pre; discriminate X.
  - cbn [extract_special_block_content]. destruct (match_here name (c :: s)) as [[m rest]|] eqn:E.
    + pose proof E as E0. apply match_here_iff in E. destruct E as [E B]. exists [], rest. refine (conj E (conj B _)). intros pre' m' post' X B'. split; [cbn; lia|].
      intro L. destruct pre'; [|discriminate L]. cbn [app] in X. assert (match_here name (c :: s) = Some (m', post')) as Y by (now apply match_here_iff). congruence.
    + pose proof (proj1 (match_here_none _ _) E) as N. destruct (extract_special_block_content s name) as [m|].
      * destruct IH as (pre & post & -> & B & M). exists (c :: pre), post. refine (conj eq_refl (conj B _)). intros [|c' pre'] m' post' X B'; [destruct (N m' post' X B')|].
        cbn [app] in X. injection X as <- X. destruct (M pre' m' post' X B') as [M1 M2]. cbn [length]. split; [lia|]. intro L. apply M2. lia.
      * intros [|c' pre] m post X B; [exact (N m post X B)|]. cbn [app] in X. injection X as _ X. exact (IH pre m post X B).
Qed.
Lemma remove_skip name m : forall s, remove_from name (length m) (m ++ s) = remove_from name 0 s.
Proof. induction m as [|c m IH]; intro s; [reflexivity|]. cbn [length app remove_from]. apply IH. Qed.
Lemma remove_block name m s : block_text name m -> remove_special_block (m ++ s) name = remove_special_block s name.
Proof.
  intro B. pose proof (proj2 (match_here_iff name (m ++ s) m s) (conj eq_refl B)) as E. destruct (block_nonempty _ _ B) as (c & r & ->). unfold remove_special_block. cbn [app remove_from] in *. rewrite E.
  replace (length (c :: r) - 1) with (length r) by (cbn [length]; lia). apply remove_skip.
Qed.
Lemma remove_char name c s : (forall m rest, c :: s = m ++ rest -> ~ block_text name m) -> remove_special_block (c :: s) name = c :: remove_special_block s name.
Proof. intro N. apply match_here_none in N. unfold remove_special_block. cbn [remove_from]. now rewrite N. Qed.
(* removing leaves out every block met from left to right, and nothing else *)
Theorem C160_remove s name t : without name s t <-> remove_special_block s name = t.
Proof.
  split.
  - induction 1 as [|m s t B _ IH|c s t N _ IH]; [reflexivity|now rewrite remove_block|]. rewrite remove_char by exact N. now rewrite IH.
  - intros <-. remember (length s) as k eqn:Ek. revert s Ek. induction k as [k IH] using (well_founded_induction Wf_nat.lt_wf). intros s ->.
    destruct s as [|c s]; [constructor|]. destruct (match_here name (c :: s)) as [[m rest]|] eqn:E.
    + apply match_here_iff in E. destruct E as [E B]. rewrite E. rewrite remove_block by exact B. constructor; [exact B|]. apply (IH (length rest)); [|reflexivity].
      rewrite E, app_length. destruct (block_nonempty _ _ B) as (x & r & ->). cbn [length]. lia.
    + pose proof (proj1 (match_here_none _ _) E) as E0. clear E. rename E0 into E. rewrite remove_char by exact E. constructor; [exact E|]. apply (IH (length s)); [cbn [length]; lia|reflexivity].
Qed.
(* the usual case: one block, nothing before it that begins a match *)
Theorem C160_one_block pre m post name : block_text name m ->
  (forall pre' m' post', pre ++ m ++ post = pre' ++ m' ++ post' -> block_text name m' -> length pre <= length pre') ->
  extract_special_block_content (pre ++ m ++ post) name = Some m /\ remove_special_block (pre ++ m ++ post) name = pre ++ remove_special_block post name.
Proof.
  intros B First. split.
  - pose proof (C160_extract (pre ++ m ++ post) name) as X. destruct (extract_special_block_content (pre ++ m ++ post) name) as [m1|]; [|destruct (X pre m post eq_refl B)].
    destruct X as (pre1 & post1 & E & B1 & M). f_equal. destruct (M pre m post eq_refl B) as [M1 M2]. symmetry. apply M2. apply Nat.le_antisymm; [exact M1|]. exact (First pre1 m1 post1 E B1).
  - revert First. induction pre as [|c pre IH]; intro First; [cbn [app]; now apply remove_block|]. cbn [app]. rewrite remove_char.
    + rewrite IH; [reflexivity|]. intros pre' m' post' E B'. apply le_S_n. apply (First (c :: pre') m' post'); [cbn [app]; now rewrite E|exact B'].
    + intros m' rest E B'. pose proof (First [] m' rest E B') as L. cbn [length] in L. lia.
Qed.
(* without a block nothing changes *)
Theorem C160_no_block s name : (forall pre m post, s = pre ++ m ++ post -> ~ block_text name m) ->
  extract_special_block_content s name = None /\ remove_special_block s name = s.
Proof.
  intro N. split.
  - pose proof (C160_extract s name) as X. destruct (extract_special_block_content s name) as [m|]; [|reflexivity]. destruct X as (pre & post & E & B & _). destruct (N pre m post E B).
  - induction s as [|c s IH]; [reflexivity|]. rewrite remove_char.
    + rewrite IH; [reflexivity|]. intros pre m post E B. apply (N (c :: pre) m post); [cbn [app]; now rewrite E|exact B].
    + intros m rest E B. exact (N [] m rest E B).
Qed.
(* an assumptions block holds blocks itself: the text ends with the first of them, and what follows stays in the file *)
Theorem C160_nested_refuted inner rest : no_close (inner ++ str "}") ->
  extract_special_block_content (str "assumptions {" ++ inner ++ str "};" ++ rest) (str "assumptions") = Some (str "assumptions {" ++ inner ++ str "};") /\
  remove_special_block (str "assumptions {" ++ inner ++ str "};" ++ rest) (str "assumptions") = remove_special_block rest (str "assumptions").
Proof.
  intro N. assert (block_text (str "assumptions") (str "assumptions {" ++ inner ++ str "};")) as B.
  { exists (str "assumptions"), (str " "), inner. refine (conj eq_refl (conj eq_refl (conj _ N))). constructor; [|constructor]. unfold white. cbn. lia. }
  replace (str "assumptions {" ++ inner ++ str "};" ++ rest) with ((str "assumptions {" ++ inner ++ str "};") ++ rest) by (now rewrite <- !app_assoc).
  destruct (C160_one_block [] (str "assumptions {" ++ inner ++ str "};") rest (str "assumptions") B) as [E R]; [intros; cbn; lia|]. cbn [app] in E, R. split; assumption.
Qed.
Theorem C160_nested_left :
  remove_special_block (str "assumptions { positive { C[], K[]; }; }; block HOUSEHOLD { };") (str "assumptions") = str " }; block HOUSEHOLD { };".
Proof. reflexivity. Qed.
(* what is left can contain a new block; other words that end with the name, and comments, count *)
Theorem C160_twice_refuted : exists s, remove_special_block (remove_special_block s (str "options")) (str "options") <> remove_special_block s (str "options").
Proof. exists (str "opt" ++ str "options{};" ++ str "ions{};"). discriminate. Qed.
Theorem C160_words_refuted pre m post name : block_text name m -> exists found, extract_special_block_content (pre ++ m ++ post) name = Some found.
Proof.
  intro B. pose proof (C160_extract (pre ++ m ++ post) name) as X. destruct (extract_special_block_content (pre ++ m ++ post) name) as [f|]; [now exists f|]. destruct (X pre m post eq_refl B).
Qed.
Theorem C160_case :
  extract_special_block_content (str "tryreduce { Pi[]; }; OPTIONS" ++ [ascii_of_nat 10] ++ str "{ output LaTeX = TRUE; };block A { };") (str "options") =
    Some (str "OPTIONS" ++ [ascii_of_nat 10] ++ str "{ output LaTeX = TRUE; };") /\
  remove_special_block (str "tryreduce { Pi[]; }; options { a = b; };block A { };") (str "tryreduce") = str " options { a = b; };block A { };" /\
  extract_special_block_content (str "# my options {};") (str "options") = Some (str "options {};") /\
  extract_special_block_content (str "# options { a = b; }") (str "options") = None.
Proof. repeat split; reflexivity. Qed.
