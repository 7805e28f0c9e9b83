(* C149.  The priors of a state space model in a PyMC model. *)
From Verif Require Import Common Build_Model Pym_Model.
Local Open Scope list_scope.

Section C.
Context {D : Type}.
Notation statespace := (statespace D).
Notation pymc := (pymc D).

Lemma mem_iff x (l : list chars) : mem x l = true <-> In x l.
Proof. unfold mem. rewrite existsb_exists. split; [intros (y & H & E); apply chars_eqb_eq in E; now subst|intros H; exists x; split; [easy|apply chars_eqb_refl]]. Qed.
Lemma mem_false x (l : list chars) : mem x l = false <-> ~ In x l.
Proof. rewrite <- mem_iff. destruct (mem x l); intuition congruence. Qed.

(* What is to be registered: the parameters' priors that are not skipped, then for each shock that is not skipped (by the
   name of the shock) the priors of its own parameters. *)
Definition wanted (s : statespace) (constant exclude : list chars) (n : chars) (d : D) : Prop :=
  (In (n, d) (param_priors s) /\ ~ In n exclude /\ ~ In n constant) \/
  (exists shock c kw, In (shock, c) (shock_priors s) /\ ~ In shock exclude /\ ~ In shock constant /\ In (kw, n, Some d) c).
Definition asked (s : statespace) (constant exclude : list chars) : list (chars * D) :=
  filter (fun p => negb (mem (fst p) (exclude ++ constant))) (param_priors s) ++
  flat_map (fun sc => if mem (fst sc) (exclude ++ constant) then [] else composite_vars (snd sc)) (shock_priors s).
Lemma asked_wanted (s : statespace) c e n d : In (n, d) (asked s c e) <-> wanted s c e n d.
Proof.
  unfold asked, wanted. rewrite in_app_iff, filter_In, in_flat_map. cbn [fst snd]. rewrite Bool.negb_true_iff, mem_false, in_app_iff. split.
  - intros [[H N]|((sh & co) & H & I)]; [left; tauto|right]. cbn [fst snd] in I. destruct (mem sh (e ++ c)) eqn:E; [destruct I|]. apply mem_false in E. rewrite in_app_iff in E.
    unfold composite_vars in I. apply in_flat_map in I as (((kw & h) & o) & Hk & I). cbn [fst snd] in I. destruct o as [d'|]; [|destruct I]. destruct I as [I|[]]. injection I as -> ->. exists sh, co, kw. tauto.
  - intros [(H & N1 & N2)|(sh & co & kw & H & N1 & N2 & I)]; [left; tauto|right]. exists (sh, co). split; [easy|]. cbn [fst snd]. rewrite (proj2 (mem_false sh (e ++ c))) by (rewrite in_app_iff; tauto).
    unfold composite_vars. apply in_flat_map. exists (kw, n, Some d). split; [easy|]. now left.
Qed.
Lemma register_app vs ws (m : pymc) : register_all (vs ++ ws) m = match register_all vs m with (Ok _, m) => register_all ws m | (Err e, m) => (Err e, m) end.
Proof. revert m. induction vs as [|v t IH]; intros m; cbn [app register_all]; [easy|]. destruct (mem (fst v) (map fst m)); [easy|apply IH]. Qed.
Lemma to_pymc_asked s c e m : to_pymc s c e m = register_all (asked s c e) m.
Proof. unfold to_pymc, asked. rewrite register_app. reflexivity. Qed.
Lemma register_ok vs : forall (m : pymc), NoDup (map fst m) ->
  (NoDup (map fst (m ++ vs)) /\ register_all vs m = (Ok tt, m ++ vs)) \/
  (exists a v b, vs = a ++ v :: b /\ NoDup (map fst (m ++ a)) /\ In (fst v) (map fst (m ++ a)) /\ register_all vs m = (Err ValueError, m ++ a)).
Proof.
  induction vs as [|v t IH]; intros m N; cbn [register_all]; [left; now rewrite app_nil_r|]. destruct (mem (fst v) (map fst m)) eqn:E.
  - right. apply mem_iff in E. exists [], v, t. rewrite !app_nil_r. auto.
  - apply mem_false in E. assert (NoDup (map fst (m ++ [v]))) as N1.
    { rewrite map_app. cbn [map]. apply NoDup_Add with (a := fst v) (l := map fst m); [|auto]. pose proof (Add_app (fst v) (map fst m) []) as A. now rewrite app_nil_r in A. }
    destruct (IH (m ++ [v]) N1) as [[H1 H2]|(a & x & b & -> & H1 & H2 & H3)]; rewrite <- !app_assoc in *; cbn [app] in *.
    + left. auto.
    + right. exists (v :: a), x, b. auto.
Qed.
(* It succeeds exactly when no name is there twice, and then the model has what it had and what is wanted, and nothing else;
   when it fails, with ValueError, what was registered stays. *)
Theorem C149_registered s c e (m : pymc) : NoDup (map fst m) -> exists added,
  (forall n d, In (n, d) (added) -> wanted s c e n d) /\
  match to_pymc s c e m with
  | (Ok _, m') => m' = m ++ added /\ NoDup (map fst m') /\ (forall n d, wanted s c e n d -> In (n, d) added)
  | (Err x, m') => x = ValueError /\ m' = m ++ added /\ NoDup (map fst m') /\ exists n d, wanted s c e n d /\ In n (map fst m')
  end.
Proof.
  intros N. rewrite to_pymc_asked. destruct (register_ok (asked s c e) m N) as [[H1 H2]|(a & v & b & E & H1 & H2 & H3)].
  - exists (asked s c e). rewrite H2. split; [intros n d; apply asked_wanted|]. split; [easy|]. split; [easy|]. intros n d. apply asked_wanted.
  - exists a. rewrite H3. split; [intros n d Hn; apply asked_wanted; rewrite E; apply in_or_app; now left|]. split; [easy|]. split; [easy|]. split; [easy|].
    destruct v as [n d]. exists n, d. split; [apply asked_wanted; rewrite E; apply in_or_app; right; now left|easy].
Qed.
Theorem C149_fails s c e (m : pymc) : NoDup (map fst m) -> (fst (to_pymc s c e m) = Ok tt <-> NoDup (map fst m ++ map fst (asked s c e))).
Proof.
  intros N. rewrite to_pymc_asked, <- map_app. destruct (register_ok (asked s c e) m N) as [[H1 ->]|(a & v & b & E & H1 & H2 & ->)]; cbn [fst]; [easy|].
  split; [discriminate|]. rewrite E, app_assoc, map_app. cbn [map]. intros X. apply NoDup_remove_2 in X. destruct X. apply in_or_app. now left.
Qed.
(* With constant_params='auto' each input parameter is either constant or, if nothing is excluded, in the model; never both
   unless it is also a parameter of a shock. *)
Theorem C149_auto s c (m m' : pymc) u x : NoDup (map fst m) -> constant_parameters s Auto = Ok c -> to_pymc s c [] m = (Ok u, m') -> In x (input_parameters s) ->
  (In x c \/ In x (map fst m')) /\ (In x c -> In x (map fst m') -> In x (map fst m) \/ exists shock co kw d, In (shock, co) (shock_priors s) /\ In (kw, x, Some d) co).
Proof.
  intros N C T Hx. injection C as <-. destruct (C149_registered s (filter (fun y => negb (mem y (map fst (param_priors s)))) (input_parameters s)) [] m N) as (added & A & B). rewrite T in B. destruct B as (-> & _ & W). split.
  - destruct (mem x (map fst (param_priors s))) eqn:E; [right|left; apply filter_In; now rewrite E]. apply mem_iff in E. apply in_map_iff in E as ((n & d) & En & Hn). cbn in En. subst n. rewrite map_app, in_app_iff. right. apply (in_map fst _ (x, d)). apply W. left. split; [easy|]. split; [intros []|].
    intros F. apply filter_In in F as [_ F]. apply Bool.negb_true_iff, mem_false in F. apply F. apply (in_map fst _ (x, d)), Hn.
  - intros Hc Hm. rewrite map_app, in_app_iff in Hm. destruct Hm as [Hm|Hm]; [now left|right]. apply in_map_iff in Hm as ((n & d) & En & Hn). cbn in En. subst n. destruct (A x d Hn) as [(_ & _ & N2)|(sh & co & kw & H1 & _ & _ & H2)]; [easy|exists sh, co, kw, d; auto].
Qed.
(* If moreover the standard deviation of every shock is a parameter named after it, with a prior, the state space finds all
   it needs (without measurement errors and with uncorrelated shocks). *)
Theorem C149_needed s c (m m' : pymc) u : NoDup (map fst m) -> constant_parameters s Auto = Ok c -> to_pymc s c [] m = (Ok u, m') ->
  full_covariance s = false -> error_states s = [] ->
  (forall x, In x (shocks s) -> ~ In x (input_parameters s) /\ exists co kw d, In (x, co) (shock_priors s) /\ In (kw, str "sigma_" ++ x, Some d) co) ->
  forall n, In n (needed s c) -> In n (map fst m').
Proof.
  intros N C T F E S n Hn. unfold needed in Hn. rewrite F, E in Hn. rewrite !in_app_iff in Hn. destruct Hn as [Hn|[Hn|[]]].
  - apply filter_In in Hn as [Hi Hc]. apply Bool.negb_true_iff, mem_false in Hc. destruct (C149_auto s c m m' u n N C T Hi) as [[H|H] _]; easy.
  - apply in_map_iff in Hn as (x & <- & Hx). destruct (S x Hx) as (Ni & co & kw & d & H1 & H2). destruct (C149_registered s c [] m N) as (added & A & B). rewrite T in B. destruct B as (-> & _ & W).
    rewrite map_app, in_app_iff. right. apply (in_map fst _ (str "sigma_" ++ x, d)). apply W. right. exists x, co, kw. split; [easy|]. split; [intros []|]. split; [|easy]. injection C as <-. intros Fx. apply filter_In in Fx as [Fx _]. easy.
Qed.
(* Constants given as a list are the user's list, if all are input parameters, and refused otherwise. *)
Theorem C149_constants (s : statespace) l : (exists c, constant_parameters s (These l) = Ok c /\ c = l /\ incl l (input_parameters s)) \/ (constant_parameters s (These l) = Err ValueError /\ exists x, In x l /\ ~ In x (input_parameters s)).
Proof.
  cbn. destruct (filter _ l) as [|x t] eqn:E.
  - left. exists l. split; [easy|]. split; [easy|]. intros x Hx. destruct (mem x (input_parameters s)) eqn:M; [now apply mem_iff|]. exfalso. assert (In x (filter (fun x => negb (mem x (input_parameters s))) l)) as Q by (apply filter_In; now rewrite M). now rewrite E in Q.
  - right. split; [easy|]. exists x. assert (In x (filter (fun x => negb (mem x (input_parameters s))) l)) as Q by (rewrite E; now left). apply filter_In in Q as [Q1 Q2]. apply Bool.negb_true_iff, mem_false in Q2. easy.
Qed.
End C.

(* ---- what is false ---- *)
Definition rbc (hyper : chars) : statespace nat :=
  StateSpace [str "alpha"; str "delta"] [(str "alpha", 1)] [str "eps"] [(str "eps", [(str "sigma", hyper, Some 2)])] false [].
(* Excluding the prior of a shock's standard deviation by its name has no effect. *)
Theorem C149_exclude_refuted : ~ (forall (s : statespace nat) c e m u m' x, to_pymc s c e m = (Ok u, m') -> In x e -> ~ In x (map fst m) -> ~ In x (map fst m')).
Proof. intros H. refine (H (rbc (str "sigma_eps")) [] [str "sigma_eps"] [] tt _ (str "sigma_eps") eq_refl _ _ _); vm_compute; auto. Qed.
(* If the standard deviation is a parameter of another name, the state space does not find what it needs. *)
Theorem C149_needed_refuted : ~ (forall (s : statespace nat) c m' u, constant_parameters s Auto = Ok c -> to_pymc s c [] [] = (Ok u, m') -> error_states s = [] -> full_covariance s = false ->
  (forall x, In x (shocks s) -> exists co kw n d, In (x, co) (shock_priors s) /\ In (kw, n, Some d) co) -> forall n, In n (needed s c) -> In n (map fst m')).
Proof.
  intros H. specialize (H (rbc (str "s_A")) _ _ _ eq_refl eq_refl eq_refl eq_refl). specialize (fun h => H h (str "sigma_eps")).
  assert (In (str "sigma_eps") (map fst [(str "alpha", 1); (str "s_A", 2)])) as Q.
  { apply H; [|vm_compute; auto]. intros x [<-|[]]. exists [(str "sigma", str "s_A", Some 2)], (str "sigma"), (str "s_A"), 2. split; now left. }
  vm_compute in Q. destruct Q as [Q|[Q|[]]]; discriminate Q.
Qed.
(* Two shocks with the same standard deviation cannot be put into a PyMC model. *)
Definition shared : statespace nat := StateSpace [str "alpha"] [(str "alpha", 1)] [str "eps"; str "eta"]
  [(str "eps", [(str "sigma", str "s", Some 2)]); (str "eta", [(str "sigma", str "s", Some 2)])] false [].
Theorem C149_shared_refuted : ~ (forall s : statespace nat, NoDup (map fst (param_priors s)) -> NoDup (map fst (shock_priors s)) -> exists m', to_pymc s [] [] [] = (Ok tt, m')).
Proof. intros H. destruct (H shared) as [m' E]; [repeat constructor; cbn; intuition discriminate|repeat constructor; vm_compute; intuition discriminate|]. vm_compute in E. discriminate E. Qed.
Theorem C149_case : constant_parameters (rbc (str "sigma_eps")) Auto = Ok [str "delta"] /\
  to_pymc (rbc (str "sigma_eps")) [str "delta"] [] [(str "mu", 9)] = (Ok tt, [(str "mu", 9); (str "alpha", 1); (str "sigma_eps", 2)]) /\
  needed (rbc (str "sigma_eps")) [str "delta"] = [str "alpha"; str "sigma_eps"] /\
  to_pymc shared [] [] [] = (Err ValueError, [(str "alpha", 1); (str "s", 2)]) /\ to_pymc shared [] [str "eta"] [] = (Ok tt, [(str "alpha", 1); (str "s", 2)]).
Proof. repeat split. Qed.
