(* C140.  Model.get. *)
From Verif Require Import Common SymDict_Model SymDict_More Sym_Model Lin_Model Get_Model.
From Coq Require Import Lia.
Local Open Scope list_scope.

(* ---- specification ---- *)
Definition is_parameter (m : named) (n : chars) : Prop := In n (n_params m) \/ In n (n_calibrated m) \/ In n (n_deterministic m).
(* the object a name stands for: a shock before a parameter before a variable *)
Inductive stands_for (m : named) (n : chars) : sym -> Prop :=
| a_shock : In n (n_shocks m) -> stands_for m n (SDate n 0)
| a_param : ~ In n (n_shocks m) -> is_parameter m n -> stands_for m n (SPar n)
| a_var : ~ In n (n_shocks m) -> ~ is_parameter m n -> In n (n_vars m) -> stands_for m n (SDate n 0).
Definition known (m : named) (n : chars) : Prop := In n (n_shocks m) \/ is_parameter m n \/ In n (n_vars m).

Definition mem_dec (n : chars) (l : list chars) : {In n l} + {~ In n l} := in_dec (list_eq_dec ascii_dec) n l.
Lemma ends_app n : ends_with_ss (n ++ suffix_ss) = true /\ removesuffix (n ++ suffix_ss) = n.
Proof.
  unfold ends_with_ss, removesuffix. rewrite app_length. change (length suffix_ss) with 3%nat.
  replace (length n + 3 - 3)%nat with (length n) by lia.
  rewrite skipn_app, Nat.sub_diag, skipn_all. cbn [app skipn]. rewrite chars_eqb_refl.
  destruct (Nat.leb 3 (length n + 3)) eqn:E; [|apply Nat.leb_gt in E; lia]. cbn [andb]. split; [easy|].
  rewrite firstn_app, Nat.sub_diag, firstn_all. cbn. apply app_nil_r.
Qed.
Lemma ends_not n : ends_with_ss n = false -> removesuffix n = n.
Proof. unfold ends_with_ss, removesuffix. now intros ->. Qed.
Lemma ends_iff n : ends_with_ss n = true <-> exists k, n = k ++ suffix_ss.
Proof.
  split; [|intros (k & ->); apply ends_app]. unfold ends_with_ss. intros H. apply andb_true_iff in H. destruct H as [_ H]. apply chars_eqb_eq in H.
  exists (firstn (length n - 3) n). rewrite <- H. symmetry. apply firstn_skipn.
Qed.

Lemma dget_dupd (u : list (chars * sym)) : forall d n, dget chars_eqb n (dupd chars_eqb d u) =
  match dget chars_eqb n (rev u) with Some s => Some s | None => dget chars_eqb n d end.
Proof.
  assert (forall a b n, dget chars_eqb n (a ++ b : list (chars * sym)) = match dget chars_eqb n a with Some s => Some s | None => dget chars_eqb n b end) as App.
  { induction a as [|[k v] a IH]; intros b n; [easy|]. cbn. destruct (chars_eqb n k); auto. }
  induction u as [|[k v] u IH]; intros d n; [easy|].
  change (dupd chars_eqb d ((k, v) :: u)) with (dupd chars_eqb (dset chars_eqb k v d) u). rewrite IH. cbn [rev]. rewrite App.
  destruct (dget chars_eqb n (rev u)); [easy|]. cbn [dget]. rewrite (dget_dset chars_eqb chars_eqb_eq). now destruct (chars_eqb n k).
Qed.
Lemma dget_map_in (f : chars -> sym) n : forall l : list chars, In n l -> dget chars_eqb n (map (fun b => (b, f b)) l) = Some (f n).
Proof.
  induction l as [|a r IH]; [easy|]. intros H. cbn. destruct (chars_eqb n a) eqn:E; [apply chars_eqb_eq in E; now subst|].
  destruct H as [-> | H]; [now rewrite chars_eqb_refl in E|auto].
Qed.
Lemma dget_map_out (f : chars -> sym) n : forall l : list chars, ~ In n l -> dget chars_eqb n (map (fun b => (b, f b)) l) = None.
Proof.
  induction l as [|a r IH]; [easy|]. intros H. cbn. destruct (chars_eqb n a) eqn:E.
  - apply chars_eqb_eq in E. subst. exfalso. apply H. now left.
  - apply IH. intros Q. apply H. now right.
Qed.
Lemma dget_rev_map (f : chars -> sym) (l : list chars) n : dget chars_eqb n (rev (map (fun b => (b, f b)) l)) = if mem_dec n l then Some (f n) else None.
Proof.
  rewrite <- map_rev. destruct (mem_dec n l) as [H|H].
  - apply dget_map_in. now apply -> in_rev.
  - apply dget_map_out. intros Q. apply H. now apply in_rev.
Qed.
Lemma lookup m n : dget chars_eqb n (all_names m) =
  if mem_dec n (n_shocks m) then Some (SDate n 0)
  else if mem_dec n (n_params m ++ n_calibrated m ++ n_deterministic m) then Some (SPar n)
  else if mem_dec n (n_vars m) then Some (SDate n 0) else None.
Proof.
  unfold all_names. rewrite dget_dupd. cbn [dget]. rewrite !rev_app_distr.
  assert (forall a b, dget chars_eqb n (a ++ b : list (chars * sym)) = match dget chars_eqb n a with Some s => Some s | None => dget chars_eqb n b end) as App.
  { induction a as [|[k v] a IH]; intros b; [easy|]. cbn. destruct (chars_eqb n k); auto. }
  rewrite !App, !dget_rev_map.
  destruct (mem_dec n (n_shocks m)); [easy|]. destruct (mem_dec n (n_params m ++ _)); [easy|]. now destruct (mem_dec n (n_vars m)).
Qed.
Lemma params_iff m n : In n (n_params m ++ n_calibrated m ++ n_deterministic m) <-> is_parameter m n.
Proof. unfold is_parameter. rewrite !in_app_iff. tauto. Qed.
Lemma lookup_iff m n s : dget chars_eqb n (all_names m) = Some s <-> stands_for m n s.
Proof.
  rewrite lookup. destruct (mem_dec n (n_shocks m)) as [H1|H1].
  - split; [intros E; injection E as <-; now constructor|]. now inversion 1.
  - destruct (mem_dec n (n_params m ++ _)) as [H2|H2]; rewrite params_iff in H2.
    + split; [intros E; injection E as <-; now constructor|]. now inversion 1.
    + destruct (mem_dec n (n_vars m)) as [H3|H3].
      * split; [intros E; injection E as <-; now constructor|]. now inversion 1.
      * split; [discriminate|]. now inversion 1.
Qed.
Lemma lookup_none m n : dget chars_eqb n (all_names m) = None <-> ~ known m n.
Proof.
  rewrite lookup. unfold known. destruct (mem_dec n (n_shocks m)); [split; [discriminate|tauto]|].
  destruct (mem_dec n (n_params m ++ _)) as [H2|H2]; rewrite params_iff in H2; [split; [discriminate|tauto]|].
  destruct (mem_dec n (n_vars m)); split; tauto || discriminate.
Qed.

(* A name that does not end in _ss gives the object of that name, or IndexError if the model has none. *)
Theorem C140_plain close m name s : (forall k, name <> k ++ suffix_ss) ->
  (get close m name = Ok s <-> stands_for m name s) /\ (get close m name = Err IndexError <-> ~ known m name).
Proof.
  intros Hn. assert (ends_with_ss name = false) as E by (destruct (ends_with_ss name) eqn:E; [apply ends_iff in E; destruct E as (k & ->); now destruct (Hn k)|easy]).
  unfold get. rewrite E, (ends_not _ E). rewrite <- lookup_iff, <- lookup_none. destruct (dget chars_eqb name (all_names m)) as [r|].
  - split; split; congruence.
  - split; split; try congruence; destruct (close _ _); congruence.
Qed.

(* name_ss gives the steady-state symbol of the variable or shock called name; a parameter of that name hides a variable
   and raises AttributeError; otherwise IndexError. *)
Theorem C140_steady_state close m name s :
  (get close m (name ++ suffix_ss) = Ok s <-> s = SSs name /\ stands_for m name (SDate name 0)) /\
  (get close m (name ++ suffix_ss) = Err AttributeError <-> stands_for m name (SPar name)) /\
  (get close m (name ++ suffix_ss) = Err IndexError <-> ~ known m name).
Proof.
  unfold get. destruct (ends_app name) as [-> ->]. rewrite <- !lookup_iff, <- lookup_none.
  pose proof (lookup m name) as L. destruct (dget chars_eqb name (all_names m)) as [r|] eqn:E.
  - assert (r = SDate name 0 \/ r = SPar name) as [-> | ->].
    { destruct (mem_dec name (n_shocks m)); [injection L as ->; auto|]. destruct (mem_dec name (n_params m ++ _)); [injection L as ->; auto|].
      destruct (mem_dec name (n_vars m)); [injection L as ->; auto|discriminate]. }
    + cbn [to_ss]. repeat split; try congruence; intros H; try discriminate; try (injection H as <-; auto); destruct H as [-> _]; easy.
    + cbn [to_ss]. repeat split; try congruence; intros H; try discriminate; destruct H as [_ H]; discriminate.
  - destruct (close _ _); repeat split; try congruence; try discriminate; intros [_ H]; discriminate.
Qed.

(* Every failure for an unknown name is an IndexError, whether or not a similar name exists. *)
Theorem C140_unknown close m name : ~ known m (removesuffix name) -> get close m name = Err IndexError.
Proof. intros H. unfold get. rewrite (proj2 (lookup_none m _) H). now destruct (close _ _). Qed.

(* So with distinct names every variable and shock is found under its name and under name_ss ... *)
Theorem C140_round_trip close m b : In b (n_vars m) \/ In b (n_shocks m) -> ~ is_parameter m b -> (forall k, b <> k ++ suffix_ss) ->
  get close m b = Ok (SDate b 0) /\ get close m (b ++ suffix_ss) = Ok (SSs b).
Proof.
  intros H Hp Hk. assert (stands_for m b (SDate b 0)) as S.
  { destruct (mem_dec b (n_shocks m)) as [Hs|Hs]; [now constructor|]. apply a_var; tauto. }
  split; [now apply C140_plain|now apply C140_steady_state].
Qed.
(* ... but a parameter, or a variable, whose own name ends in _ss cannot be reached by any name. *)
Theorem C140_ss_names_unreachable close m b name s : get close m name = Ok s -> s <> SPar (b ++ suffix_ss) /\
  (s = SDate (b ++ suffix_ss) 0 -> False).
Proof.
  intros H. destruct (ends_with_ss name) eqn:E.
  - apply ends_iff in E. destruct E as (k & ->). apply (C140_steady_state close m k s) in H. destruct H as [-> _]. split; [discriminate|discriminate].
  - assert (forall k, name <> k ++ suffix_ss) as Hn.
    { intros k ->. destruct (ends_app k) as [E' _]. congruence. }
    apply (C140_plain close m name s Hn) in H. split.
    + intros ->. inversion H; subst. eapply Hn; reflexivity.
    + intros ->. inversion H; subst; eapply Hn; reflexivity.
Qed.

(* a model with a parameter r_ss, a parameter A beside a variable A[], and a variable x *)
Definition demo : named := Named [str "A"; str "x"] [str "A"; str "r_ss"] [] [] [str "e"].
Theorem C140_case (close : chars -> list chars -> list chars) :
  get close demo (str "x_ss") = Ok (SSs (str "x")) /\ get close demo (str "A") = Ok (SPar (str "A")) /\
  get close demo (str "A_ss") = Err AttributeError /\ get close demo (str "r_ss") = Err IndexError /\ In (str "r_ss") (n_params demo).
Proof.
  refine (conj eq_refl (conj eq_refl (conj eq_refl (conj _ _)))); [|cbn; auto].
  apply C140_unknown. change (removesuffix (str "r_ss")) with (str "r"). unfold known, is_parameter. cbn. intuition discriminate.
Qed.
