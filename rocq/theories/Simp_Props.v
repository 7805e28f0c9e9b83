(* Simplification of the equation system: tryreduce and constants. *)
From Verif Require Import Common Sym_Model Sym_Spec Sym_Proofs Sym_More Sym_Flatten SS_Proofs SymDict_Model Sort_Lib Build_Proofs
  Simp_Model Simp_Spec Simp_Proofs Simp_More.
From Coq Require Import Permutation Sorted Reals Lra.
Local Open Scope list_scope.

(* ---------- C98: eliminating variables loses no solution ---------- *)
Theorem C98_solutions_survive {V} (A : alg V) simp auto tr eqs vars d eqs' vars' gone :
  faithful A simp -> faithful A auto -> can_subtract A ->
  (forall b rhs, In b tr -> lookup b d = Some rhs -> In (eq_zero (Sy (SDate b 0)) rhs) eqs) ->
  simplify_tryreduce simp auto tr eqs vars d = (eqs', vars', gone) ->
  forall env, solves A env eqs -> solves A env eqs'.
Proof.
  intros Hs Ha Hc Hd H env Hsol. destruct (Nat.eq_dec (length eqs) (length vars)) as [E|E].
  - destruct (tryreduce_shape simp auto _ _ _ _ _ _ _ H E) as (-> & _ & _). apply loop_keeps; [assumption|assumption| |].
    + intros b rhs Hb Hl g Hg. pose proof (Hsol g _ Hg (Hd b rhs Hb Hl)) as X. cbn in X. now apply Hc in X.
    + eapply solves_incl; [apply drop_incl|assumption].
  - rewrite (tryreduce_not_square simp auto tr eqs vars d E) in H. now injection H as <- _ _.
Qed.

Lemma filter_ext_on {X} (p q : X -> bool) l : (forall x, In x l -> p x = q x) -> filter p l = filter q l.
Proof.
  induction l as [|x l IH]; intro H; cbn; [reflexivity|]. rewrite (H x (or_introl eq_refl)), IH; [reflexivity|]. intros; apply H; now right.
Qed.

(* ---------- C99: and every solution of the reduced system comes from one of the original ---------- *)
Theorem C99_solutions_extend {V} (A : alg V) simp auto tr eqs vars d eqs' vars' gone :
  faithful A simp -> faithful A auto -> no_new_symbol simp -> no_new_symbol auto ->
  (forall e, In e eqs -> near e) -> incl tr vars ->
  (forall b rhs, In b tr -> lookup b d = Some rhs -> near rhs /\ ~ mentions rhs b) ->
  (forall e b, In e eqs -> In b tr -> In (SDate b 0) (atoms e) ->
     (forall e', In e' eqs -> mentions e' b -> e' = e) -> closable A e b) ->
  simplify_tryreduce simp auto tr eqs vars d = (eqs', vars', gone) ->
  forall env, solves A env eqs' ->
    exists env', solves A env' eqs /\ same_but tr env env' /\
      ((forall b rhs x, In b tr -> lookup b d = Some rhs -> In x tr -> ~ mentions rhs x) -> same_but gone env env').
Proof.
  intros Hs Ha Ns Na Hn Hv Hd Hcl H env Hsol. destruct (Nat.eq_dec (length eqs) (length vars)) as [E|E].
  2:{ rewrite (tryreduce_not_square simp auto tr eqs vars d E) in H. injection H as <- _ <-. exists env. split; [assumption|].
      split; [intros s _; reflexivity|intros _ s _; reflexivity]. }
  destruct (tryreduce_shape simp auto _ _ _ _ _ _ _ H E) as (E1 & _ & Eg).
  assert (Hnd : forall e, In e (drop_isolated tr vars eqs) -> near e) by (intros e He; apply drop_in in He; apply Hn; tauto).
  rewrite E1 in Hsol.
  destruct (loop_extends simp auto A d tr Hs Ha Ns Na Hd _ env Hnd Hsol) as (C & env1 & HC & S1 & Hs1 & Hclear).
  set (bs := filter (fun b => existsb (fun e => smem (now b) (atoms e)) eqs) (to_remove tr vars eqs)).
  assert (Hbs : forall b, In b bs -> In b tr /\ column_sum eqs b = 1 /\ exists e, In e eqs /\ In (now b) (atoms e)).
  { intros b Hb. apply filter_In in Hb as [Hb He]. apply to_remove_in in Hb as (_ & Hb & Hc). apply existsb_exists in He as (e & He & Hi).
    apply smem_In in Hi. eauto. }
  assert (Hone : forall b e e', In b bs -> In e eqs -> In e' eqs -> uses e b = true -> uses e' b = true -> e = e').
  { intros b e e' Hb He He' U U'. apply (one_elt (filter (fun e => uses e b) eqs)); [apply Hbs, Hb|now apply filter_In|now apply filter_In]. }
  assert (Hf : drop_isolated tr vars eqs = filter (fun e => negb (existsb (fun b => smem (now b) (atoms e)) bs)) eqs).
  { unfold drop_isolated. apply filter_ext_on. intros e He. f_equal. apply eq_true_iff_eq. rewrite !existsb_exists. split.
    - intros (b & Hb & Hi). exists b. split; [|assumption]. apply filter_In. split; [assumption|]. apply existsb_exists. eauto.
    - intros (b & Hb & Hi). exists b. split; [|assumption]. now apply filter_In in Hb. }
  rewrite Hf in Hs1.
  destruct (isolated_extends A eqs bs Hn (fun b Hb => proj1 (proj2 (Hbs b Hb)))) with (env := env1) as (env2 & S2 & Hs2); [|assumption|].
  { intros e b He Hb Hi. apply Hcl; [assumption|apply Hbs, Hb|assumption|]. intros e' He' Hm.
    apply (Hone b); auto; [now apply mentions_uses; auto|now apply now_uses]. }
  exists env2. split; [assumption|]. pose proof (same_but_trans C bs env env1 env2 S1 S2) as S12.
  assert (Hin : forall b, In b (C ++ bs) -> In b tr) by (intros b Hb; apply in_app_iff in Hb as [Hb|Hb]; [now apply HC|now apply Hbs]).
  split.
  - intros s Hx. apply S12. intros b Hb Hi. apply (Hx b Hb), Hin, Hi.
  - intros Hfree s Hx. apply S12. intros b Hb Hi. apply (Hx b Hb). rewrite Eg. apply rvl_gone. split; [now apply Hv, Hin|].
    intros (e & He & Hm). apply in_app_iff in Hi as [Hi|Hi].
    + apply (Hclear Hfree b Hi e); [now rewrite <- E1|assumption].
    + assert (Hc : clear (drop_isolated tr vars eqs) b).
      { intros e1 He1 Hm1. rewrite Hf in He1. apply filter_In in He1 as [He1 Hk]. destruct (Hbs b Hi) as (_ & _ & e2 & He2 & Hn2).
        assert (e1 = e2) by (apply (Hone b); auto; [now apply mentions_uses; auto|now apply now_uses]). subst e2.
        apply negb_true_iff in Hk. assert (X : existsb (fun b => smem (now b) (atoms e1)) bs = true) by (apply existsb_exists; exists b; now rewrite smem_In).
        congruence. }
      rewrite E1 in He. apply (loop_clear simp auto d tr b Ns Na (drop_isolated tr vars eqs)) with (e := e); auto.
      intros b0 rhs Hb0 Hl. apply (Hfree b0 rhs b); auto. now apply Hbs.
Qed.

(* A system in which both stages do something: v occurs only in the first equation, w = 2x is substituted out. *)
Definition sx_eq_dec (a b : sx) : {a = b} + {a <> b}.
Proof. decide equality; try apply Z.eq_dec; try apply Nat.eq_dec; try apply sym_eq_dec; apply chars_dec. Defined.
Definition cancel (e : sx) : sx := match e with Ad a (Ng b) => if sx_eq_dec a b then Cst 0 else e | _ => e end.
Definition v0 := str "v". Definition w0 := str "w". Definition x0 := str "x". Definition y0 := str "y". Definition c0 := str "c".
Definition at0 (b : chars) : sx := Sy (SDate b 0).
Definition two_x : sx := Mu (Cst 2) (at0 x0).
Definition sys : list sx :=
  [eq_zero (at0 v0) (Ad (at0 w0) (at0 x0)); eq_zero (at0 w0) two_x;
   eq_zero (at0 y0) (Ad (at0 w0) (Ng (Sy (SDate y0 (-1))))); eq_zero (at0 x0) (Sy (SPar c0))].
Definition sysvars := [v0; w0; x0; y0].
Definition sysenv : sym -> Z := fun s =>
  match s with
  | SPar _ => 1
  | SDate b _ | SSs b => if chars_eqb b v0 then 3 else if chars_eqb b w0 then 2 else 1
  end%Z.
Theorem C98_case :
  simplify_tryreduce cancel (fun e => e) [v0; w0] sys sysvars [(w0, two_x)] =
    ([eq_zero (at0 y0) (Ad two_x (Ng (Sy (SDate y0 (-1))))); eq_zero (at0 x0) (Sy (SPar c0))], [x0; y0], [v0; w0]) /\
  faithful Zalg cancel /\ can_subtract Zalg /\
  (forall b rhs, In b [v0; w0] -> lookup b [(w0, two_x)] = Some rhs -> In (eq_zero (Sy (SDate b 0)) rhs) sys) /\
  exists env, solves Zalg env sys /\ env (SDate v0 0) <> env (SDate y0 0).
Proof.
  split; [vm_compute; reflexivity|]. split; [|split; [|split]].
  - intros env e. destruct e as [z|s|a b|a b|a|f k a]; try reflexivity. cbn [cancel]. destruct b as [z|s|b1 b2|b1 b2|b|f k b]; try reflexivity.
    destruct (sx_eq_dec a b) as [->|]; [|reflexivity]. cbn. lia.
  - intros x y H. cbn in H. lia.
  - intros b rhs [<-|[<-|[]]] H; vm_compute in H; [discriminate|]. injection H as <-. right. now left.
  - exists sysenv. split; [|discriminate]. intros g e Hg He. cbn in He.
    destruct He as [<-|[<-|[<-|[<-|[]]]]]; destruct Hg; reflexivity.
Qed.
Theorem C99_case :
  no_new_symbol cancel /\ (forall e, In e sys -> near e) /\
  (forall b rhs, In b [v0; w0] -> lookup b [(w0, two_x)] = Some rhs -> near rhs /\ ~ mentions rhs b) /\
  (forall b rhs x, In b [v0; w0] -> lookup b [(w0, two_x)] = Some rhs -> In x [v0; w0] -> ~ mentions rhs x) /\
  (forall e b, In e sys -> In b [v0; w0] -> In (SDate b 0) (atoms e) ->
     (forall e', In e' sys -> mentions e' b -> e' = e) -> closable Zalg e b).
Proof.
  split; [|split; [|split; [|split]]].
  - intros e s H. destruct e as [z|s'|a b|a b|a|f k a]; try exact H. cbn [cancel] in H. destruct b as [z|s'|b1 b2|b1 b2|b|f k b]; try exact H.
    destruct (sx_eq_dec a b) as [->|]; [destruct H|exact H].
  - intros e He b t Hi. cbn in He. destruct He as [<-|[<-|[<-|[<-|[]]]]]; cbn in Hi; intuition (try discriminate);
    match goal with E : SDate _ _ = SDate _ _ |- _ => injection E as _ <-; lia | _ => idtac end.
  - intros b rhs Hb H. destruct Hb as [<-|[<-|[]]]; vm_compute in H; [discriminate|]. injection H as <-. split.
    + intros b t [E|[]]. injection E as _ <-. lia.
    + intros (s & [<-|[]] & E). discriminate.
  - intros b rhs x Hb H Hx. destruct Hb as [<-|[<-|[]]]; vm_compute in H; [discriminate|]. injection H as <-.
    intros (s & [<-|[]] & E). destruct Hx as [<-|[<-|[]]]; discriminate.
  - intros e b He Hb Hi Hone.
    assert (X : (e = eq_zero (at0 v0) (Ad (at0 w0) (at0 x0)) /\ b = v0) \/ b = w0).
    { destruct Hb as [<-|[<-|[]]]; [left|now right]. split; [|reflexivity]. cbn in He.
      destruct He as [<-|[<-|[<-|[<-|[]]]]]; [reflexivity| | |]; exfalso; cbn in Hi; intuition discriminate. }
    destruct X as [[-> ->]| ->].
    + intro env. exists (follow Zalg env v0 (Ad (at0 w0) (at0 x0))). split; [apply follow_same|]. intros g e Hg [<-|[]].
      assert (Hm : ~ mentions (Ad (at0 w0) (at0 x0)) v0) by (intros (s & Hs & E); cbn in Hs; intuition (subst; discriminate)).
      pose proof (follow_always Zalg env v0 _ Hm g Hg) as F. cbn [ev eq_zero at0] in *. rewrite F. cbn. lia.
    + exfalso. assert (E1 : eq_zero (at0 w0) two_x = e) by (apply Hone; [right; now left|exists (SDate w0 0); cbn; auto 6]).
      assert (E2 : eq_zero (at0 v0) (Ad (at0 w0) (at0 x0)) = e) by (apply Hone; [now left|exists (SDate w0 0); cbn; auto]).
      rewrite <- E1 in E2. discriminate.
Qed.

(* ---------- C100: what is left is still as many equations as variables ---------- *)
Theorem C100_isolated_stage_stays_square simp auto tr eqs vars eqs' vars' gone :
  NoDup vars -> length eqs = length vars -> (forall e, In e eqs -> near e) -> matched eqs vars ->
  simplify_tryreduce simp auto tr eqs vars [] = (eqs', vars', gone) ->
  length eqs' = length vars' /\ incl gone tr.
Proof.
  intros Hnd E Hn Hm H. destruct (tryreduce_shape simp auto _ _ _ _ _ _ _ H E) as (E1 & E2 & E3).
  assert (F : forall l eqs, fold_left (reduce_one simp auto []) l eqs = eqs) by (induction l as [|b l IH]; intros; cbn; auto).
  rewrite F in E1. subst eqs' vars' gone. split; [symmetry; now apply isolated_square|]. intros b Hb. now apply (isolated_requested tr eqs vars Hnd Hm Hn).
Qed.
Theorem C100_case : NoDup sysvars /\ length sys = length sysvars /\ matched sys sysvars /\
  simplify_tryreduce cancel (fun e => e) [v0] sys sysvars [] = (tl sys, [w0; x0; y0], [v0]).
Proof.
  split; [repeat constructor; cbn; intuition discriminate|]. split; [reflexivity|]. split; [|vm_compute; reflexivity].
  exists (combine [v0; w0; y0; x0] sys). split; [|split].
  - cbn. do 2 apply perm_skip. apply perm_swap.
  - cbn. apply Permutation_refl.
  - intros b e Hi. cbn in Hi. destruct Hi as [Hi|[Hi|[Hi|[Hi|[]]]]]; injection Hi as <- <-;
    [exists (SDate v0 0)|exists (SDate w0 0)|exists (SDate y0 0)|exists (SDate x0 0)]; cbn; auto 6.
Qed.
(* Without such an assignment it need not be: asking for v drops the only equation of w as well. *)
Theorem C100_unmatched_refuted :
  ~ (forall simp auto tr eqs vars d eqs' vars' gone, NoDup vars -> length eqs = length vars -> (forall e, In e eqs -> near e) ->
       simplify_tryreduce simp auto tr eqs vars d = (eqs', vars', gone) -> length eqs' = length vars') /\
  exists simp auto tr eqs vars d eqs' vars' gone, length eqs = length vars /\
    simplify_tryreduce simp auto tr eqs vars d = (eqs', vars', gone) /\ In w0 gone /\ ~ In w0 tr.
Proof.
  set (bad := [Ad (at0 v0) (at0 w0); Ad (at0 x0) (Sy (SDate x0 1)); Ad (at0 x0) (Ng (Sy (SDate x0 (-1))))]).
  assert (R : simplify_tryreduce (fun e => e) (fun e => e) [v0] bad [v0; w0; x0] [] = (tl bad, [x0], [v0; w0])) by (vm_compute; reflexivity).
  split.
  - intro H. assert (X : length (tl bad) = length [x0]); [|discriminate].
    eapply (H (fun e => e) (fun e => e) [v0] bad [v0; w0; x0] []); [| | |exact R].
    + repeat constructor; cbn; intuition discriminate.
    + reflexivity.
    + intros e He b t Hi. cbn in He. destruct He as [<-|[<-|[<-|[]]]]; cbn in Hi; intuition (try discriminate);
      match goal with E : SDate _ _ = SDate _ _ |- _ => injection E as _ <-; lia | _ => idtac end.
  - exists (fun e => e), (fun e => e), [v0], bad, [v0; w0; x0], [], (tl bad), [x0], [v0; w0]. split; [reflexivity|]. split; [exact R|].
    split; [right; now left|]. intros [E|[]]. discriminate.
Qed.

(* ---------- C101: constants ---------- *)
(* every equation that is short enough and has a single variable pins that variable, dated, to a value in parameters *)
Definition well_pinned {V} (A : alg V) natoms (solve : sx -> sym -> list sx) (eqs : list sx) : Prop :=
  forall e x, In e eqs -> (natoms e <= 3)%nat -> var_atoms e = [x] ->
    exists b t c, x = SDate b t /\ solve e x = [c] /\ defines A e x c.
Theorem C101_constants_equivalent {V} (A : alg V) auto natoms solve sord eqs vars :
  faithful A auto -> (forall d, Permutation (sord d) d) -> well_pinned A natoms solve eqs -> length eqs = length vars ->
  exists eqs' vars' gone, simplify_constants auto natoms solve sord eqs vars = Ok (eqs', vars', gone) /\
    forall env, solves A env eqs <->
      solves A env eqs' /\
      (forall e b t c, In e eqs -> (natoms e <= 3)%nat -> var_atoms e = [SDate b t] -> solve e (SDate b t) = [c] -> constant_path A env b c).
Proof.
  intros Ha Hso Hw El.
  assert (Hne : forall e x, In e eqs -> pins natoms e x -> solve e x <> []).
  { intros e x He [H1 H2]. destruct (Hw e x He H1 H2) as (b & t & c & _ & -> & _). discriminate. }
  destruct (constants_ok natoms solve eqs Hne []) as (d & Ed & Hd & _ & _).
  unfold simplify_constants. pose proof El as El0. apply Nat.eqb_eq in El. rewrite El, Ed. cbn [negb bind].
  eexists _, _, _. split; [reflexivity|]. intro env.
  set (consts := forall e b t c, In e eqs -> (natoms e <= 3)%nat -> var_atoms e = [SDate b t] -> solve e (SDate b t) = [c] -> constant_path A env b c).
  assert (Hmod : consts -> forall g e, view g -> ev A (fun s => env (g s)) (auto (subs_seq (sord d) e)) = ev A (fun s => env (g s)) e).
  { intros Hc g e Hg. rewrite Ha. apply subs_seq_holds. apply (model_of_perm A _ d); [symmetry; apply Hso|]. apply (model_view A env d g Hg).
    intros k v Hkv. destruct (Hd _ Hkv) as [[]|(e0 & x & s & He0 & [Hp1 Hp2] & Hh & Hin)].
    destruct (Hw e0 x He0 Hp1 Hp2) as (b & t & c & -> & Es & Hpc & Hdef). rewrite Es in Hh. injection Hh as <-.
    destruct (expand_const (SDate b t) c Hpc k v Hin) as [-> Hk]. exists b. split; [cbn in Hk; intuition (subst; reflexivity)|]. split; [assumption|].
    eapply Hc; eauto. }
  assert (Hpath : solves A env eqs -> consts).
  { intros Hsol e b t c He H1 H2 Hs. destruct (Hw e _ He H1 H2) as (b' & t' & c' & E & Es & Hpc & Hdef). injection E as <- <-.
    rewrite Hs in Es. injection Es as <-.
    assert (Ec : forall g, view g -> ev A (fun s => env (g s)) c = ev A env c).
    { intros g Hg. apply ev_ext. intros s Hx. destruct (Hpc s Hx) as (n & ->). now rewrite view_par. }
    split.
    - intro k. pose proof (Hsol (step_sym (k - t)) e (at_date _) He) as X. apply Hdef in X. rewrite Ec in X by constructor. cbn in X.
      replace (t + (k - t))%Z with k in X by lia. exact X.
    - pose proof (Hsol to_ss_sym e at_rest He) as X. apply Hdef in X. rewrite Ec in X by constructor. exact X. }
  split.
  - intro Hsol. pose proof (Hpath Hsol) as Hc. split; [|exact Hc]. apply drop_zero_sound. intros g e Hg He.
    apply in_map_iff in He as (e0 & <- & He). rewrite (Hmod Hc) by assumption. now apply Hsol.
  - intros [Hr Hc]. apply (proj1 (drop_zero_sound A env _)) in Hr. intros g e Hg He. rewrite <- (Hmod Hc g e Hg). apply Hr; [assumption|].
    apply in_map_iff. eauto.
Qed.
(* ... and the pinned variable is gone from the system. *)
Theorem C101_constants_are_removed auto natoms solve sord eqs vars eqs' vars' gone e b t c :
  no_new_symbol auto -> (forall d, Permutation (sord d) d) -> length eqs = length vars ->
  (forall e, In e eqs -> near e) ->
  (forall e x s, In e eqs -> (natoms e <= 3)%nat -> var_atoms e = [x] -> hd_error (solve e x) = Some s -> param_only s) ->
  simplify_constants auto natoms solve sord eqs vars = Ok (eqs', vars', gone) ->
  In e eqs -> (natoms e <= 3)%nat -> var_atoms e = [SDate b t] -> hd_error (solve e (SDate b t)) = Some c ->
  (forall e', In e' eqs' -> ~ mentions e' b) /\ (In b vars -> In b gone).
Proof.
  intros Na Hso El Hn Hp H He H1 H2 Hh. unfold simplify_constants in H. pose proof El as El0. apply Nat.eqb_eq in El. rewrite El in H. cbn [negb] in H.
  destruct (constants natoms solve [] eqs) as [d|] eqn:Ed; [|discriminate]. cbn [bind] in H.
  assert (Hne : forall e x, In e eqs -> pins natoms e x -> solve e x <> []).
  { intros e1 x1 He1 [Q1 Q2] Es. clear -Ed He1 Q1 Q2 Es. revert Ed. generalize (@nil (sym * sx)). induction eqs as [|e0 eqs IH]; [destruct He1|].
    intros d0 Ed. cbn [constants] in Ed. destruct (constant_step natoms solve d0 e0) as [d1|] eqn:E1; [|discriminate]. cbn [bind] in Ed.
    destruct He1 as [->|He1]; [|eauto]. unfold constant_step in E1. apply Nat.leb_le in Q1. rewrite Q1, Q2, Es in E1. discriminate. }
  destruct (constants_ok natoms solve eqs Hne []) as (d' & Ed' & Hd & Hk & _). rewrite Ed in Ed'. injection Ed' as <-.
  set (red := filter _ _) in H. injection H as <- <- <-.
  assert (Hpd : forall k v, In (k, v) (sord d) -> param_only v).
  { intros k v Hkv. apply (Permutation_in _ (Hso d)) in Hkv. destruct (Hd _ Hkv) as [[]|(e1 & x & s & He1 & [Q1 Q2] & Q3 & Hin)].
    pose proof (Hp e1 x s He1 Q1 Q2 Q3) as Hps. destruct (expand_const x s Hps k v Hin) as [-> _]. assumption. }
  assert (Hgone : forall e', In e' red -> ~ mentions e' b).
  { intros e' He' (s & Hs & Hb). apply filter_In in He' as [He' _]. apply in_map_iff in He' as (e0 & <- & He0). apply Na in Hs.
    assert (Hta : time_aware s = true) by (destruct s; [discriminate|reflexivity|reflexivity]).
    destruct (subs_seq_gone (sord d) Hpd e0 s Hta Hs) as [Hs0 Hnk]. apply Hnk.
    apply (Permutation_in _ (Permutation_map fst (Permutation_sym (Hso d)))). apply (Hk e (SDate b t) c He (conj H1 H2) Hh).
    pose proof (mentions_uses e0 b (Hn e0 He0) (mentions_atom e0 s b Hs0 Hb)) as _.
    destruct s as [n|x k|x]; cbn in Hb; inversion Hb; subst x; cbn; [|auto 6].
    apply (Hn e0 He0) in Hs0. assert (k = -1 \/ k = 0 \/ k = 1)%Z as [-> | [-> | ->]] by lia; auto. }
  split; [exact Hgone|]. intro Hv. apply (proj2 (rvl_gone red vars b)). split; [assumption|]. intros (e' & He' & Hm). exact (Hgone e' He' Hm).
Qed.
(* A system with the numeraire P = c. *)
Definition p0 := str "P".
Definition csys : list sx := [eq_zero (at0 p0) (Sy (SPar c0)); eq_zero (at0 y0) (Ad (at0 p0) (Ad (Sy (SDate p0 1)) (Ng (Sy (SDate y0 (-1))))))].
Definition csolve (e : sx) (x : sym) : list sx := [Sy (SPar c0)].
Theorem C101_case :
  well_pinned Zalg (fun e => length (atoms e)) csolve csys /\
  simplify_constants cancel (fun e => length (atoms e)) csolve (fun d => d) csys [p0; y0] =
    Ok ([eq_zero (at0 y0) (Ad (Sy (SPar c0)) (Ad (Sy (SPar c0)) (Ng (Sy (SDate y0 (-1))))))], [y0], [p0]).
Proof.
  split; [|vm_compute; reflexivity]. intros e x He H1 H2. cbn in He. destruct He as [<-|[<-|[]]].
  - vm_compute in H2. injection H2 as <-. exists p0, 0%Z, (Sy (SPar c0)). split; [reflexivity|]. split; [reflexivity|]. split.
    + intros s [<-|[]]. eexists. reflexivity.
    + intro env. change (env (SPar c0) + - env (SDate p0 0) = 0 <-> env (SDate p0 0) = env (SPar c0))%Z. lia.
  - vm_compute in H1. lia.
Qed.
(* Two roots: the first one is taken, solutions with the other one are lost. *)
Definition rsys : list sx := [Ad (Mu (at0 p0) (at0 p0)) (Cst (-1)); eq_zero (at0 y0) (at0 p0)].
Definition rsolve (e : sx) (x : sym) : list sx := [Cst (-1); Cst 1].
Theorem C101_two_roots_refuted :
  (forall env, ev Zalg env (hd (Cst 0) rsys) = 0%Z <-> exists c, In c (rsolve (hd (Cst 0) rsys) (SDate p0 0)) /\ env (SDate p0 0) = ev Zalg env c) /\
  exists eqs' vars' gone env, simplify_constants (fun e => e) (fun e => length (atoms e)) rsolve (fun d => d) rsys [p0; y0] = Ok (eqs', vars', gone) /\
    solves Zalg env rsys /\ ~ solves Zalg env eqs'.
Proof.
  split.
  - intro env. split.
    + intro H. change (env (SDate p0 0) * env (SDate p0 0) + -1 = 0)%Z in H. assert (env (SDate p0 0) = -1 \/ env (SDate p0 0) = 1)%Z as [E|E] by nia; [exists (Cst (-1))|exists (Cst 1)]; cbn; auto.
    + intros (c & [<-|[<-|[]]] & E); cbn in E |- *; rewrite E; reflexivity.
  - eexists _, _, _, (fun _ => 1%Z). split; [vm_compute; reflexivity|]. split.
    + intros g e Hg He. cbn in He. destruct He as [<-|[<-|[]]]; reflexivity.
    + intro H. match type of H with solves _ _ (?a :: ?b :: _) => specialize (H (step_sym 0) b (at_date 0) (or_intror (or_introl eq_refl))) end.
      cbn in H. discriminate.
Qed.

(* An equation about the steady-state value alone pins the whole path. *)
Definition ssys : list sx := [eq_zero (Sy (SSs p0)) (Sy (SPar c0)); eq_zero (at0 y0) (at0 p0)].
Theorem C101_steady_state_refuted :
  (forall env, ev Zalg env (hd (Cst 0) ssys) = 0%Z <-> env (SSs p0) = ev Zalg env (Sy (SPar c0))) /\
  exists eqs' vars' gone env,
    simplify_constants cancel (fun e => length (atoms e)) csolve (fun d => d) ssys [p0; y0] = Ok (eqs', vars', gone) /\
    solves Zalg env ssys /\ ~ solves Zalg env eqs'.
Proof.
  split.
  - intro env. change (env (SPar c0) + - env (SSs p0) = 0 <-> env (SSs p0) = env (SPar c0))%Z. lia.
  - eexists _, _, _, (fun s => match s with SDate _ _ => 7 | _ => 1 end)%Z. split; [vm_compute; reflexivity|]. split.
    + intros g e Hg He. cbn in He. destruct He as [<-|[<-|[]]]; destruct Hg; reflexivity.
    + intro H. specialize (H (step_sym 0) _ (at_date 0) (or_introl eq_refl)). cbn in H. discriminate.
Qed.
(* An unsolvable pinning equation stops the build with an IndexError. *)
Theorem C101_unsolvable_constant_crashes auto natoms solve sord eqs1 e eqs2 vars x :
  length (eqs1 ++ e :: eqs2) = length vars -> (forall e x, In e eqs1 -> (natoms e <= 3)%nat -> var_atoms e = [x] -> solve e x <> []) ->
  (natoms e <= 3)%nat -> var_atoms e = [x] -> solve e x = [] ->
  simplify_constants auto natoms solve sord (eqs1 ++ e :: eqs2) vars = Err IndexError.
Proof.
  intros El H1 H2 H3 H4. unfold simplify_constants. apply Nat.eqb_eq in El. rewrite El. cbn [negb].
  rewrite (constants_crash natoms solve eqs1 e eqs2 x); [reflexivity| |now split|assumption]. intros e' x' He' [Q1 Q2]. now apply H1.
Qed.

(* ---------- C102: the variable lists; what is left alone ---------- *)
Theorem C102_variable_lists_exact eqs vars :
  NoDup vars ->
  let kept := fst (reduce_variable_list eqs vars) in
  let gone := snd (reduce_variable_list eqs vars) in
  Permutation (kept ++ gone) vars /\
  (forall b, In b kept <-> In b vars /\ exists e, In e eqs /\ mentions e b) /\
  StronglySorted (fun a b => chars_leb (a ++ str "_t") (b ++ str "_t") = true) kept /\
  StronglySorted (fun a b => chars_leb (a ++ str "_t") (b ++ str "_t") = true) gone.
Proof.
  intros Hn kept gone. split; [now apply rvl_partition|]. split; [intro b; apply rvl_kept|]. apply (rvl_sorted eqs vars).
Qed.
Theorem C102_simplifications_report_their_lists simp auto natoms solve sord tr eqs vars d eqs' vars' gone :
  (simplify_tryreduce simp auto tr eqs vars d = (eqs', vars', gone) \/
   simplify_constants auto natoms solve sord eqs vars = Ok (eqs', vars', gone)) ->
  (length eqs <> length vars -> eqs' = eqs /\ vars' = vars /\ gone = []) /\
  (length eqs = length vars -> vars' = fst (reduce_variable_list eqs' vars) /\ gone = snd (reduce_variable_list eqs' vars)).
Proof.
  intros [H|H]; (split; intro E).
  - rewrite (tryreduce_not_square simp auto tr eqs vars d E) in H. injection H as <- <- <-. auto.
  - now destruct (tryreduce_shape simp auto _ _ _ _ _ _ _ H E) as (_ & H2 & H3).
  - unfold simplify_constants in H. apply Nat.eqb_neq in E. rewrite E in H. cbn in H. injection H as <- <- <-. auto.
  - unfold simplify_constants in H. apply Nat.eqb_eq in E. rewrite E in H. cbn [negb] in H.
    destruct (constants natoms solve [] eqs) as [d0|]; [|discriminate]. cbn [bind] in H. injection H as <- <- <-. auto.
Qed.
Theorem C102_flags simp auto natoms solve sord tr eqs vars d :
  apply_simplifications simp auto natoms solve sord tr eqs vars d false false = Ok (eqs, vars, None, None) /\
  (forall eqs' vars' gone, simplify_tryreduce simp auto tr eqs vars d = (eqs', vars', gone) ->
     apply_simplifications simp auto natoms solve sord tr eqs vars d true false = Ok (eqs', vars', Some gone, None) /\
     (forall eqs2 vars2 gone2, simplify_constants auto natoms solve sord eqs' vars' = Ok (eqs2, vars2, gone2) ->
       apply_simplifications simp auto natoms solve sord tr eqs vars d true true = Ok (eqs2, vars2, Some gone, Some gone2))) /\
  (forall eqs2 vars2 gone2, simplify_constants auto natoms solve sord eqs vars = Ok (eqs2, vars2, gone2) ->
     apply_simplifications simp auto natoms solve sord tr eqs vars d false true = Ok (eqs2, vars2, None, Some gone2)).
Proof.
  split; [reflexivity|]. split.
  - intros eqs' vars' gone H. unfold apply_simplifications. rewrite H. split; [reflexivity|]. intros eqs2 vars2 gone2 H2. now rewrite H2.
  - intros eqs2 vars2 gone2 H2. unfold apply_simplifications. now rewrite H2.
Qed.
(* tryreduce entries: the ones naming a model variable, in order; an unknown name is skipped without a word. *)
Theorem C102_tryreduce_entries (names : list chars) vars :
  (forall n, In n names -> forall c, In c n -> blank c = false /\ c <> "["%char) ->
  extract_tryreduce (map (fun n => n ++ str "[]") names) vars = filter (fun n => cmem n vars) names.
Proof.
  intro H. unfold extract_tryreduce. induction names as [|n names IH]; cbn [map flat_map filter]; [reflexivity|].
  rewrite IH by (intros; eapply H; eauto; now right).
  assert (E : strip (drop_brackets (n ++ str "[]")) = n).
  { assert (Hn : forall c, In c n -> blank c = false /\ c <> "["%char) by (apply H; now left). clear -Hn.
    assert (D : drop_brackets (n ++ str "[]") = n).
    { induction n as [|c n IH]; [reflexivity|]. cbn [app].
      assert (Hc : c <> "["%char) by (apply Hn; now left).
      assert (X : drop_brackets (c :: n ++ str "[]") = c :: drop_brackets (n ++ str "[]")).
      { destruct c as [[] [] [] [] [] [] [] []]; try reflexivity. exfalso. now apply Hc. }
      rewrite X, IH; [reflexivity|]. intros; apply Hn; now right. }
    rewrite D. unfold strip.
    assert (L : forall l : chars, (forall c, In c l -> blank c = false) -> lstrip l = l).
    { intros [|c l] Hl; [reflexivity|]. cbn [lstrip]. now rewrite (Hl c (or_introl eq_refl)). }
    rewrite (L n) by (intros; apply Hn; assumption). rewrite (L (rev n)); [apply rev_involutive|].
    intros c Hc. apply in_rev in Hc. now apply Hn. }
  rewrite E. destruct (cmem n vars); reflexivity.
Qed.
Theorem C102_case :
  apply_simplifications cancel cancel (fun e => length (atoms e)) csolve (fun d => d) [v0; w0] sys sysvars [(w0, two_x)] true true
    = Ok ([eq_zero (at0 y0) (Ad (Mu (Cst 2) (Sy (SPar c0))) (Ng (Sy (SDate y0 (-1)))))], [y0], Some [v0; w0], Some [x0]) /\
  extract_tryreduce [str "w[]"; str "nobody[]"; str " v[] "] sysvars = [w0; v0].
Proof. split; vm_compute; reflexivity. Qed.
