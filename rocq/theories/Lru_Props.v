(* C143.  The cache of compiled functions. *)
From Verif Require Import Common Lru_Model.
From Coq Require Import Lia.
Local Open Scope list_scope.

Section C.
Variable X : Type.
Variable X_dec : forall a b : X, {a = b} + {a <> b}.
Variable build : key X -> result unit.
Notation cache := (cache X).
Notation run := (run X X_dec build).
Notation compile := (compile_pytensor_function X X_dec build).
Notation cached := (compile_cached X X_dec build).
Notation same := (same X X_dec).

(* ---- specification ---- *)
(* two requests ask for the same: the same nodes, in the same order; a list or tuple of outputs is not a single output;
   updates and givens are the same pairs in the same order, however they were given *)
Definition outs_of (o : outputs) : bool * list nat := match o with One o => (true, [o]) | Many l | Tuple l => (false, l) end.
Definition pairs_of (p : option pairs) : option (list (nat * nat)) := match p with None => None | Some (Dict l) | Some (Pairs l) => Some l end.
Definition same_request (a b : request X) : Prop :=
  r_inputs a = r_inputs b /\ outs_of (r_outputs a) = outs_of (r_outputs b) /\ pairs_of (r_updates a) = pairs_of (r_updates b) /\
  pairs_of (r_givens a) = pairs_of (r_givens b) /\ r_rest a = r_rest b.
(* a function compiled for this request *)
Definition compiled_for (r : request X) (f : function X) : Prop := exists r', same_request r r' /\ f_args f = freeze r'.
Definition reachable (c : cache) : Prop := exists h o, run h empty = (o, c).
Definition no_clear (h : list (call X)) : Prop := ~ In Clear h.

Lemma freeze_iff a b : freeze a = freeze b <-> same_request a b.
Proof.
  unfold freeze, same_request, freeze_pairs. split.
  - intros H. injection H as H1 H2 H3 H4 H5. refine (conj H1 (conj _ (conj _ (conj _ H5)))).
    + destruct (r_outputs a), (r_outputs b); cbn in *; congruence.
    + destruct (r_updates a) as [[]|], (r_updates b) as [[]|]; cbn in *; congruence.
    + destruct (r_givens a) as [[]|], (r_givens b) as [[]|]; cbn in *; congruence.
  - intros (H1 & H2 & H3 & H4 & H5). rewrite H1, H5. f_equal.
    + destruct (r_outputs a), (r_outputs b); cbn in *; congruence.
    + destruct (r_updates a) as [[]|], (r_updates b) as [[]|]; cbn in *; congruence.
    + destruct (r_givens a) as [[]|], (r_givens b) as [[]|]; cbn in *; congruence.
Qed.
Lemma same_iff k e : same k e = true <-> fst e = k.
Proof. unfold Lru_Model.same. destruct (key_dec X X_dec k (fst e)); split; congruence. Qed.

(* ---- invariant: [table] has the arguments of every function object made so far ---- *)
Definition keys (c : cache) := map fst (entries c).
Definition inv (table : list (key X)) (c : cache) : Prop :=
  NoDup (keys c) /\ length (entries c) <= 128 /\ created c = length table /\
  forall k f, In (k, f) (entries c) -> f_args f = k /\ nth_error table (f_object f) = Some k.

Lemma filter_keys k (l : list (key X * function X)) x : In x (filter (fun x => negb (same k x)) l) <-> In x l /\ fst x <> k.
Proof. rewrite filter_In, Bool.negb_true_iff. rewrite <- same_iff. destruct (same k x); split; intros []; split; congruence. Qed.
Lemma nodup_filter k (l : list (key X * function X)) : NoDup (map fst l) -> NoDup (map fst (filter (fun x => negb (same k x)) l)).
Proof.
  induction l as [|e t IH]; cbn [map filter]; intros H; [constructor|]. inversion_clear H as [|? ? H1 H2]. destruct (negb (same k e)); cbn [map]; [|auto].
  constructor; [|auto]. intros Q. apply H1. apply in_map_iff in Q as (x & Q & Hx). apply filter_In in Hx as [Hx _]. apply in_map_iff. eauto.
Qed.
Lemma filter_len (l : list (key X * function X)) k e : NoDup (map fst l) -> In e l -> fst e = k -> S (length (filter (fun x => negb (same k x)) l)) = length l.
Proof.
  induction l as [|x t IH]; cbn [map In filter]; intros ND He Hk; [easy|]. inversion_clear ND as [|? ? N1 N2]. destruct He as [->|He].
  - destruct (same k e) eqn:Es; [|apply same_iff in Hk; congruence]. cbn [negb length]. f_equal.
    assert (filter (fun x => negb (same k x)) t = t) as ->; [|easy]. rewrite <- Hk. clear -N1. induction t as [|y t IHt]; [easy|]. cbn [filter].
    destruct (same (fst e) y) eqn:Ey; [apply same_iff in Ey; destruct N1; left; now symmetry|]. cbn [negb]. f_equal. apply IHt. intros Q. apply N1. now right.
  - assert (same k x = false) as Es. { destruct (same k x) eqn:Es; [|easy]. apply same_iff in Es. destruct N1. apply in_map_iff. exists e. split; [congruence|easy]. }
    rewrite Es. cbn [negb length]. f_equal. auto.
Qed.
Lemma firstn_map {A B} (f : A -> B) n l : map f (firstn n l) = firstn n (map f l).
Proof. revert l. induction n; intros [|x l]; cbn; congruence. Qed.
Lemma nodup_firstn {A} n (l : list A) : NoDup l -> NoDup (firstn n l).
Proof. intros H. rewrite <- (firstn_skipn n l) in H. revert H. generalize (skipn n l). induction (firstn n l) as [|x t IH]; intros r H; [constructor|]. cbn in H. inversion_clear H. constructor; [intros Q; apply H0, in_app_iff; now left|eauto]. Qed.
Lemma nodup_left {A} (a b : list A) : NoDup (a ++ b) -> NoDup a.
Proof. intros H. apply (nodup_firstn (length a)) in H. now rewrite firstn_app, Nat.sub_diag, firstn_all, app_nil_r in H. Qed.
Lemma firstn_in {A} n (l : list A) x : In x (firstn n l) -> In x l.
Proof. intros H. rewrite <- (firstn_skipn n l). apply in_app_iff. now left. Qed.

Lemma step k table c : inv table c -> exists ext, inv (table ++ ext) (snd (cached k c)) /\
  match fst (cached k c) with
  | Ok f => f_args f = k /\ nth_error (table ++ ext) (f_object f) = Some k /\ In (k, f) (entries (snd (cached k c))) /\ hd_error (entries (snd (cached k c))) = Some (k, f)
  | Err e => build k = Err e
  end.
Proof.
  intros (ND & Le & Cr & H). unfold compile_cached. destruct (find (same k) (entries c)) as [[k' f]|] eqn:F.
  - apply find_some in F as [Hin Es]. apply same_iff in Es. cbn [fst] in Es. subst k'. exists []. rewrite app_nil_r. cbn [fst snd entries created hd_error]. destruct (H _ _ Hin) as [Ha Ht].
    split; [|split; [easy|split; [easy|split; [now left|easy]]]]. unfold inv, keys. cbn [entries created map fst]. split; [|split; [|split; [easy|]]].
    + constructor; [|now apply nodup_filter]. intros Q. apply in_map_iff in Q as (x & Q & Hx). apply filter_keys in Hx as [_ Hx]. easy.
    + cbn [length]. rewrite (filter_len _ k (k, f) ND Hin eq_refl). easy.
    + intros k1 f1 [Q|Q]; [injection Q as <- <-; easy|]. apply filter_keys in Q as [Q _]. auto.
  - destruct (build k) as [[]|e] eqn:B; cbn [fst snd entries].
    + exists [k]. assert (~ In k (keys c)) as Nk. { intros Q. apply in_map_iff in Q as (x & Q & Hx). pose proof (find_none _ _ F x Hx) as N. apply same_iff in Q. congruence. }
      split; [|split; [easy|split; [|split; [now left|easy]]]].
      * unfold inv, keys. cbn [entries created]. split; [|split; [|split]].
        -- rewrite firstn_map. apply nodup_firstn. cbn [map fst]. constructor; easy.
        -- rewrite firstn_length. unfold maxsize. lia.
        -- rewrite app_length, Cr. cbn. lia.
        -- intros k1 f1 Q. apply firstn_in in Q as [Q|Q].
           ++ injection Q as <- <-. cbn [f_args f_object]. split; [easy|]. rewrite Cr, nth_error_app2, Nat.sub_diag by lia. reflexivity.
           ++ destruct (H _ _ Q) as [A T]. split; [easy|]. rewrite nth_error_app1; [easy|]. apply nth_error_Some. congruence.
      * cbn [f_object]. rewrite Cr, nth_error_app2, Nat.sub_diag by lia. reflexivity.
    + exists []. rewrite app_nil_r. split; [|easy]. unfold inv, keys. cbn [entries created]. auto.
Qed.
Lemma inv_clear table c : inv table c -> inv table (clear_compile_cache c).
Proof. intros (_ & _ & Cr & _). unfold inv, keys, clear_compile_cache. cbn. repeat split; [constructor|lia|easy| |]; easy. Qed.
Lemma run_inv h : forall table c o c', inv table c -> run h c = (o, c') -> exists ext, inv (table ++ ext) c' /\
  forall r x, In (r, x) o -> match x with Ok f => f_args f = freeze r /\ nth_error (table ++ ext) (f_object f) = Some (freeze r) | Err e => build (freeze r) = Err e end.
Proof.
  induction h as [|[r|] t IH]; intros table c o c' I H; cbn [Lru_Model.run] in H.
  - injection H as <- <-. exists []. rewrite app_nil_r. split; [easy|]. intros ? ? [].
  - unfold compile_pytensor_function in H. destruct (step (freeze r) table c I) as (e1 & I1 & S1). destruct (cached (freeze r) c) as [x c1]. cbn [fst snd] in *.
    destruct (run t c1) as [o' c2] eqn:E. injection H as <- <-. destruct (IH _ _ _ _ I1 E) as (e2 & I2 & S2). exists (e1 ++ e2). rewrite app_assoc. split; [easy|].
    intros r' x' [Q|Q]; [|now apply S2]. injection Q as <- <-. destruct x as [f|e]; [|easy]. destruct S1 as (A & B & _). split; [easy|]. rewrite nth_error_app1; [easy|]. apply nth_error_Some. congruence.
  - destruct (IH _ _ _ _ (inv_clear _ _ I) H) as (e & R). exists e. exact R.
Qed.
Lemma inv_empty : inv [] empty.
Proof. unfold inv, keys. cbn. repeat split; [constructor|lia| |]; easy. Qed.

(* In every history each answer is a function compiled for exactly what was asked, or the error of compiling it. *)
Theorem C143_right h o c r x : run h empty = (o, c) -> In (r, x) o ->
  match x with Ok f => compiled_for r f | Err e => exists r', same_request r r' /\ build (freeze r') = Err e end.
Proof.
  intros H Hin. destruct (run_inv h [] empty o c inv_empty H) as (ext & _ & S). specialize (S r x Hin).
  assert (same_request r r) as Rf by (unfold same_request; auto 10). destruct x as [f|e]; [destruct S as [S _]|]; exists r; easy.
Qed.
(* Requests that differ never share a function object. *)
Theorem C143_distinct h o c r f r' f' : run h empty = (o, c) -> In (r, Ok f) o -> In (r', Ok f') o -> f_object f = f_object f' -> same_request r r' /\ f = f'.
Proof.
  intros H H1 H2 E. destruct (run_inv h [] empty o c inv_empty H) as (ext & _ & S). destruct (S _ _ H1) as [A1 T1], (S _ _ H2) as [A2 T2]. rewrite E in T1.
  assert (freeze r = freeze r') as Q by congruence. split; [now apply freeze_iff|]. destruct f, f'. cbn in *. congruence.
Qed.

(* ---- repeated requests ---- *)
(* before k in the list there are only keys of [ks] *)
Definition recent (k : key X) (f : function X) (ks : list (key X)) (c : cache) : Prop :=
  exists a b, entries c = a ++ (k, f) :: b /\ forall e, In e a -> In (fst e) ks.
Lemma filter_app_same {A} (p : A -> bool) a b : filter p (a ++ b) = filter p a ++ filter p b.
Proof. induction a as [|x a IH]; cbn; [easy|]. destruct (p x); cbn; congruence. Qed.
Lemma recent_step k f ks k' c table : inv table c -> recent k f ks c -> length ks < 128 -> (k' = k \/ In k' ks) -> recent k f ks (snd (cached k' c)) /\ (k' = k -> fst (cached k' c) = Ok f).
Proof.
  intros (ND & Le & _ & _) (a & b & E & Ha) Lk Hk. unfold keys in ND. rewrite E, map_app in ND. cbn [map fst] in ND.
  assert (forall e, In e a \/ In e b -> fst e <> k) as Nk.
  { intros e He Q. apply NoDup_remove_2 in ND. apply ND, in_app_iff. destruct He as [He|He]; [left|right]; apply in_map_iff; eauto. }
  unfold compile_cached. destruct (key_dec X X_dec k' k) as [->|Ne].
  - assert (find (same k) (entries c) = Some (k, f)) as F.
    { rewrite E. clear E Ha ND. induction a as [|x a IH]; cbn [app find].
      - now rewrite (proj2 (same_iff k (k, f)) eq_refl).
      - destruct (same k x) eqn:Es; [apply same_iff in Es; destruct (Nk x (or_introl (or_introl eq_refl)) Es)|]. apply IH. intros e [He|He]; apply Nk; [left; now right|now right]. }
    rewrite F. cbn [fst snd]. split; [|easy]. exists [], (filter (fun x => negb (same k x)) (entries c)). cbn [entries app]. split; [easy|]. intros ? [].
  - destruct Hk as [->|Hk]; [easy|]. split; [|easy]. destruct (find (same k') (entries c)) as [[k1 f1]|] eqn:F.
    + apply find_some in F as [Hin Es]. apply same_iff in Es. cbn [fst] in Es. subst k1. cbn [snd]. exists ((k', f1) :: filter (fun x => negb (same k' x)) a), (filter (fun x => negb (same k' x)) b).
      cbn [entries]. split.
      * rewrite E, filter_app_same. cbn [filter]. destruct (same k' (k, f)) eqn:Es; [apply same_iff in Es; cbn in Es; congruence|]. reflexivity.
      * intros e [<-|He]; [easy|]. apply filter_In in He as [He _]. auto.
    + destruct (build k') as [[]|e] eqn:B; cbn [snd].
      * assert (NoDup (k' :: map fst a)) as ND'.
        { constructor; [|now apply nodup_left in ND]. intros Q. apply in_map_iff in Q as (x & Q & Hx). assert (In x (entries c)) as Hx' by (rewrite E; apply in_app_iff; now left). pose proof (find_none _ _ F x Hx') as N. apply same_iff in Q. congruence. }
        assert (S (length a) <= length ks) as La.
        { pose proof (NoDup_incl_length ND' (l' := ks)) as P. cbn [length] in P. rewrite map_length in P. apply P. intros y [<-|Hy]; [easy|]. apply in_map_iff in Hy as (x & <- & Hx). auto. }
        exists ((k', Fn (created c) k') :: a), (firstn (126 - length a) b). cbn [entries]. rewrite E. split.
        -- unfold maxsize. change 128 with (S 127). rewrite firstn_cons, firstn_app, firstn_all2 by lia. replace (127 - length a) with (S (126 - length a)) by lia. rewrite firstn_cons. reflexivity.
        -- intros e [<-|He]; [easy|auto].
      * exists a, b. cbn [entries]. auto.
Qed.
Lemma recent_run h : forall k f ks c table o c', inv table c -> recent k f ks c -> length ks < 128 -> no_clear h ->
  (forall r, In (Compile r) h -> freeze r = k \/ In (freeze r) ks) -> run h c = (o, c') -> exists table', inv table' c' /\ recent k f ks c'.
Proof.
  induction h as [|[r|] t IH]; intros k f ks c table o c' I R Lk Nc Hk H; cbn [Lru_Model.run] in H.
  - injection H as <- <-. eauto.
  - unfold compile_pytensor_function in H. destruct (step (freeze r) table c I) as (e1 & I1 & _). destruct (recent_step k f ks (freeze r) c table I R Lk (Hk r (or_introl eq_refl))) as [R1 _].
    destruct (cached (freeze r) c) as [x c1]. cbn [fst snd] in *. destruct (run t c1) as [o' c2] eqn:E. injection H as <- <-. eapply IH; eauto; [intros Q; apply Nc; now right|]. intros r' Hr'. apply Hk. now right.
  - destruct Nc. now left.
Qed.
(* As long as the cache is not cleared and fewer than 128 other requests are made in between, the same request gets the
   very same function, without compiling again. *)
Theorem C143_same_object c r f c1 h o c2 r' ks : reachable c -> compile r c = (Ok f, c1) -> run h c1 = (o, c2) -> no_clear h ->
  length ks < 128 -> (forall q, In (Compile q) h -> same_request q r \/ exists q', In q' ks /\ same_request q q') -> same_request r' r ->
  exists c3, compile r' c2 = (Ok f, c3) /\ created c3 = created c2.
Proof.
  intros (h0 & o0 & H0) H1 H2 Nc Lk Hk Sr. destruct (run_inv h0 [] empty o0 c inv_empty H0) as (tb & I & _). cbn [app] in I. unfold compile_pytensor_function in *.
  destruct (step (freeze r) tb c I) as (e1 & I1 & S1). rewrite H1 in I1, S1. cbn [fst snd] in *. destruct S1 as (A1 & _ & _ & Hd).
  assert (recent (freeze r) f (map freeze ks) c1) as R1. { destruct (entries c1) as [|e t] eqn:Ee; [discriminate|]. cbn in Hd. injection Hd as ->. exists [], t. split; [easy|]. intros ? []. }
  destruct (recent_run h (freeze r) f (map freeze ks) c1 _ o c2 I1 R1) as (tb2 & I2 & R2); auto.
  { now rewrite map_length. }
  { intros q Hq. destruct (Hk q Hq) as [Q|(q' & Hq' & Q)]; apply freeze_iff in Q; [now left|right]. rewrite Q. now apply in_map. }
  destruct (recent_step (freeze r) f (map freeze ks) (freeze r') c2 _ I2 R2) as [_ F]; [now rewrite map_length|left; now apply freeze_iff|].
  apply freeze_iff in Sr. specialize (F Sr). unfold compile_cached in *. destruct (find (same (freeze r')) (entries c2)) as [e|] eqn:Fd.
  - cbn [fst] in F. eexists. split; [rewrite F; reflexivity|reflexivity].
  - exfalso. destruct R2 as (a & b & E & _). assert (In (freeze r, f) (entries c2)) as Hin by (rewrite E; apply in_app_iff; right; now left). pose proof (find_none _ _ Fd _ Hin) as N. rewrite (proj2 (same_iff (freeze r') (freeze r, f))) in N; [discriminate|now cbn].
Qed.

(* Statistics: at most 128 entries; without clearing, hits and misses add up to the calls, and functions are created on
   misses only. *)
Fixpoint calls_since_clear (h : list (call X)) (n : nat) : nat :=
  match h with [] => n | Compile _ :: t => calls_since_clear t (S n) | Clear :: t => calls_since_clear t 0 end.
Theorem C143_info h o c : run h empty = (o, c) ->
  let '(hit, miss, most, size) := compile_cache_info c in hit + miss = calls_since_clear h 0 /\ most = 128 /\ size <= 128 /\ size <= miss.
Proof.
  intros H. unfold compile_cache_info. destruct (run_inv h [] empty o c inv_empty H) as (tb & (_ & Le & _) & _).
  assert (forall h c o c', run h c = (o, c') -> length (entries c) <= misses c -> hits c' + misses c' = calls_since_clear h (hits c + misses c) /\ length (entries c') <= misses c') as G.
  { clear. induction h as [|[r|] t IH]; intros c o c' H Lm; cbn [Lru_Model.run calls_since_clear] in *.
    - injection H as <- <-. auto.
    - destruct (compile r c) as [x c1] eqn:E. destruct (run t c1) as [o' c2] eqn:E2. injection H as <- <-.
      assert (hits c1 + misses c1 = S (hits c + misses c) /\ length (entries c1) <= misses c1) as (Q1 & Q2).
      { unfold compile_pytensor_function, compile_cached in E. destruct (find (same (freeze r)) (entries c)) as [e|] eqn:F.
        - injection E as <- <-. cbn [hits misses entries length]. split; [lia|]. apply find_some in F as [Hin Es]. clear -Hin Es Lm.
          enough (S (length (filter (fun x => negb (same (freeze r) x)) (entries c))) <= length (entries c)) by lia.
          clear Lm. induction (entries c) as [|y l IH]; [easy|]. cbn [filter]. destruct Hin as [->|Hin].
          + rewrite Es. cbn [negb length]. apply le_n_S. clear. induction l as [|z l IH]; [easy|]. cbn [filter]. destruct (negb _); cbn [length]; lia.
          + specialize (IH Hin). destruct (negb (same (freeze r) y)); cbn [length]; lia.
        - destruct (build (freeze r)) as [[]|e].
          + injection E as _ <-. change (hits c + S (misses c) = S (hits c + misses c) /\ length (firstn 128 ((freeze r, Fn (created c) (freeze r)) :: entries c)) <= S (misses c)). split; [lia|]. rewrite firstn_length. cbn [length]. lia.
          + injection E as <- <-. cbn [hits misses entries]. split; lia. }
      rewrite <- Q1. eapply IH; eauto.
    - destruct (IH (clear_compile_cache c) o c' H) as [Q1 Q2]; [cbn; lia|]. split; [exact Q1|exact Q2]. }
  destruct (G _ _ _ _ H) as [Q1 Q2]; [cbn; lia|]. cbn [hits misses empty] in Q1. repeat split; auto.
Qed.
End C.

(* With 128 other requests in between, the first function is forgotten and compiled again; and a dict of givens in another
   order is another request. *)
Definition req (n : nat) : request unit := Req [n] (One n) None None tt.
Definition unit_dec (a b : unit) : {a = b} + {a <> b}.
Proof. left. now destruct a, b. Defined.
Definition always (k : key unit) : result unit := Ok tt.
Theorem C143_same_object_refuted :
  ~ (forall h o c f f' r a b d, run unit unit_dec always h empty = (o, c) -> no_clear unit h -> o = a ++ (r, Ok f) :: b ++ (r, Ok f') :: d -> f = f').
Proof.
  intros H. pose (h := map (fun n => Compile (req n)) (seq 0 129 ++ [0])).
  pose (o := fst (run unit unit_dec always h empty)). pose (c := snd (run unit unit_dec always h empty)).
  specialize (H h o c (Fn 0 (freeze (req 0))) (Fn 129 (freeze (req 0))) (req 0) [] (firstn 128 (skipn 1 o)) []).
  assert (Fn 0 (freeze (req 0)) = Fn 129 (freeze (req 0))) as Q.
  { apply H; [unfold o, c; now destruct (run unit unit_dec always h empty)| |vm_compute; reflexivity].
    unfold no_clear, h. intros Q. apply in_map_iff in Q as (n & Q & _). discriminate. }
  discriminate.
Qed.
Theorem C143_dict_order_refuted :
  ~ (forall (r : request unit) g g' f f' c, (forall p, In p g <-> In p g') -> NoDup (map fst g) -> NoDup (map fst g') ->
       fst (run unit unit_dec always [Compile (Req (r_inputs r) (r_outputs r) None (Some (Dict g)) tt); Compile (Req (r_inputs r) (r_outputs r) None (Some (Dict g')) tt)] c)
         = [(Req (r_inputs r) (r_outputs r) None (Some (Dict g)) tt, Ok f); (Req (r_inputs r) (r_outputs r) None (Some (Dict g')) tt, Ok f')] -> f = f').
Proof.
  intros H. specialize (H (req 0) [(1, 2); (3, 4)] [(3, 4); (1, 2)] (Fn 0 (freeze (Req [0] (One 0) None (Some (Dict [(1, 2); (3, 4)])) tt))) (Fn 1 (freeze (Req [0] (One 0) None (Some (Dict [(3, 4); (1, 2)])) tt))) empty).
  assert (Fn 0 (freeze (Req [0] (One 0) None (Some (Dict [(1, 2); (3, 4)])) tt)) = Fn 1 (freeze (Req [0] (One 0) None (Some (Dict [(3, 4); (1, 2)])) tt))) as Q.
  { apply H; [cbn; intros p; tauto|repeat constructor; cbn; intuition discriminate|repeat constructor; cbn; intuition discriminate|reflexivity]. }
  discriminate.
Qed.
Theorem C143_case : exists o c, run unit unit_dec always [Compile (req 1); Compile (req 2); Compile (req 1); Clear; Compile (req 1)] empty = (o, c) /\
  map (fun x => match snd x with Ok f => Some (f_object f) | Err _ => None end) o = [Some 0; Some 1; Some 0; Some 2] /\ compile_cache_info c = (0, 1, 128, 1) /\
  reachable unit unit_dec always c.
Proof.
  pose (x := run unit unit_dec always [Compile (req 1); Compile (req 2); Compile (req 1); Clear; Compile (req 1)] empty).
  exists (fst x), (snd x). assert (run unit unit_dec always [Compile (req 1); Compile (req 2); Compile (req 1); Clear; Compile (req 1)] empty = (fst x, snd x)) as E by (fold x; now destruct x).
  split; [exact E|]. split; [vm_compute; reflexivity|]. split; [vm_compute; reflexivity|]. exists [Compile (req 1); Compile (req 2); Compile (req 1); Clear; Compile (req 1)], (fst x). exact E.
Qed.
