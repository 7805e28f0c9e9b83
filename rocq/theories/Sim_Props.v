(* The statements: impulse responses and simulations. *)
From mathcomp Require Import all_ssreflect all_algebra.
From Verif Require Import Sim_Model Sim_Spec Sim_Proofs.
Import GRing.Theory Num.Theory Order.TTheory.
Set Implicit Arguments.
Unset Strict Implicit.
Unset Printing Implicit Defensive.
Local Open Scope ring_scope.
Section IRF.
Variables (F : rcfType) (Name : eqType) (names : seq Name) (n : nat).
Notation k := (size names).
Variables (T : 'M[F]_n) (R : 'M[F]_(n, k)).
Variables (allclose : ndarray F -> ndarray F -> bool) (cholesky : 'M[F]_k -> outcome 'M[F]_k) (draw : 'cV[F]_k).
Hypothesis names_differ : uniq names.
Notation irf := (impulse_response T R allclose cholesky draw).
Notation name_of := (tnth (in_tuple names)).
Notation Size s := (Args (Some s) None None).
Notation Cov c := (Args None (Some c) None).
Notation Traj t := (Args None None (Some t)).
(* the rows of a trajectory array with one column per shock *)
Definition rows_of (a : ndarray F) (l : nat) : seq 'cV[F]_k := mkseq (fun t => \col_i entry a t i) l.
(* one response per selected shock, in model order *)
Definition each_shock (P : pred 'I_k) (path : 'I_k -> seq 'cV[F]_n) : response F Name n :=
  Individual [seq (name_of i, path i) | i <- enum 'I_k & P i].

Lemma one_by_one_ok sel P base : [seq x <- names | x \in sel] = sel -> (forall i, (name_of i \in sel) = P i) -> base <> [::] ->
  one_by_one T R sel base = Returned (each_shock P (fun i => moving_average T R (only_shock i base))).
Proof.
move=> E HP nb; rewrite /one_by_one (in_turn_map (g := fun i => moving_average T R (only_shock i base))); last first.
  by move=> i _; apply/sim_iff; split; [case: base nb|exact: follows_ma].
rewrite /= /each_shock; congr (Returned (Individual _)).
have -> : [seq i <- enum 'I_k | P i] = shock_idxs names sel by apply: eq_filter => i; rewrite HP.
by rewrite -{1}E -idxs_names // zip_map.
Qed.
Lemma all_names : [seq x <- names | x \in names] = names.
Proof. by apply/all_filterP/allP. Qed.
Lemma name_in i : name_of i \in names. Proof. exact: mem_tnth. Qed.
Lemma impulse_ma e l : moving_average T R (e :: nseq l 0) = impulse_path T R e l.+1.
Proof. exact: follows_unique (follows_ma _ _ _) (follows_impulse _ _ _ _). Qed.
Lemma one_impulse sel P row l : [seq x <- names | x \in sel] = sel -> (forall i, (name_of i \in sel) = P i) ->
  one_by_one T R sel (row :: nseq l 0) = Returned (each_shock P (fun i => impulse_path T R (alone i (row i 0)) l.+1)).
Proof.
move=> E HP; rewrite (one_by_one_ok E HP) //; congr (Returned (Individual _)).
by apply: eq_map => i; rewrite only_cons only_zero impulse_ma.
Qed.
Lemma mem_selected (d : dict F Name) i : (name_of i \in [seq x <- names | x \in keys d]) = (name_of i \in keys d).
Proof. by rewrite mem_filter name_in andbT. Qed.
Lemma sel_filter (d : dict F Name) :
  [seq x <- names | x \in [seq x <- names | x \in keys d]] = [seq x <- names | x \in keys d].
Proof. by apply: eq_in_filter => x hx; rewrite mem_filter hx andbT. Qed.
Lemma row_full v : size v = k -> @assign_row F Name names v = Returned (\col_i v`_i).
Proof. by rewrite /assign_row => ->; rewrite eqxx. Qed.
Lemma col_nseq x : (\col_i (nseq k x)`_i) = const_mx x :> 'cV[F]_k.
Proof. by apply/matrixP => i j; rewrite !mxE nth_nseq ltn_ord. Qed.

Lemma selected_ok (m : mode F Name) sel : selected_shock_names names m = Returned sel -> [seq x <- names | x \in sel] = sel.
Proof.
case: m => [t|c|[[x|a|d]|]] /=; try (by move=> [<-]; exact: all_names).
by do 2 case: ifP => // _; move=> [<-]; exact: sel_filter.
Qed.
Lemma one_by_one_inv sel base r : [seq x <- names | x \in sel] = sel -> one_by_one T R sel base = Returned r ->
  r = Individual [::] \/ (exists2 P, base <> [::] & r = each_shock P (fun i => moving_average T R (only_shock i base))).
Proof.
move=> E; case: (base =P [::]) => [->|nb].
  rewrite /one_by_one; case: shock_idxs => //= -[<-]; left; by case: (sel).
rewrite (one_by_one_ok E (P := fun i => name_of i \in sel)) // => -[<-]; right; eexists; first exact: nb.
by [].
Qed.
Lemma irf_inv a requested len r : irf a requested len = Returned r ->
  (exists2 e, e <> [::] & r = Joint Name (moving_average T R e)) \/ r = Individual [::] \/
  (exists P base, base <> [::] /\ r = each_shock P (fun i => moving_average T R (only_shock i base))).
Proof.
rewrite /impulse_response; case: make_shock_spec => [m|//] /=; case S : selected_shock_names => [sel|//] /=.
have E := selected_ok S; set L := (X in andThen X); case: L => [l|//] /=.
have D base : one_by_one T R sel base = Returned r -> r = Individual [::] \/
   (exists P base, base <> [::] /\ r = each_shock P (fun i => moving_average T R (only_shock i base))).
  by move/(one_by_one_inv E) => [?|[P nb H]]; [left|right; exists P, base].
case: infer_individual => [H|]; last first.
  case: build_trajectory => [e|//] /=; case X : simulate_linear_system => [x|//] /= [<-]; left.
  by move/sim_iff: X => [ne fx]; exists e; rewrite // (follows_unique fx (follows_ma T R e)).
right; case: m S H => [t|c|s] S /=; last 2 first.
- by case: ifP => // _; case: cholesky => [W|//] /=; case: impulse => [base|//] /= /D.
- by case: shock_vector => [v|//] /=; case: l => [//|l]; case: assign_row => [v'|//] /= /D.
by case: (shape t) => [//|d [//|d' [|//]]]; case: ifP => // _ /D.
Qed.
(* C31: every response returned is a path of the system, driven by some shocks; a response reported for one shock is driven by
   that shock alone *)
Theorem C31_state_equation a requested len r : irf a requested len = Returned r ->
  match r with
  | Joint x => exists2 e, e <> [::] & follows T R e x
  | Individual l => forall nm x, (nm, x) \in l ->
      exists i e, [/\ name_of i = nm, e <> [::], follows T R e x & forall t j, j != i -> nth 0 e t j 0 = 0]
  end.
Proof.
case/irf_inv => [[e ne ->]|[->|[P [base [nb ->]]]]] /=; [|by []|].
  by exists e => //; exact: follows_ma.
move=> nm x /mapP [i _ [-> ->]]; exists i, (only_shock i base); split=> //; [by case: base nb|exact: follows_ma|].
move=> t j ji; case: (ltnP t (size base)) => Ht; last by rewrite nth_default ?size_map // mxE.
by rewrite (nth_map 0) // mxE (negbTE ji).
Qed.
(* the closed forms: the response to a trajectory of shocks, and to an impulse *)
Theorem C31_closed_form e x : simulate_linear_system T R e = Returned x <-> e <> [::] /\ x = moving_average T R e.
Proof.
split=> [/sim_iff [ne fx]|[ne ->]]; last by apply/sim_iff; split=> //; exact: follows_ma.
by split=> //; exact: follows_unique fx (follows_ma _ _ _).
Qed.
Theorem C31_linear a b e f x y : size e = size f ->
  simulate_linear_system T R e = Returned x -> simulate_linear_system T R f = Returned y ->
  simulate_linear_system T R [seq a *: p.1 + b *: p.2 | p <- zip e f] = Returned [seq a *: p.1 + b *: p.2 | p <- zip x y].
Proof.
move=> S /sim_iff [ne fx] /sim_iff [_ fy]; apply/sim_iff; split; last exact: follows_linear.
by case: e f ne S {fx fy} => [|? ?] [].
Qed.
(* the responses to the shocks taken one at a time add up to the joint response, whatever the shocks, unless shock_size is a
   dictionary *)
Theorem C31_superposition a len l x : (forall d, shock_size a <> Some (Dict d)) ->
  irf a (Some true) len = Returned (Individual l) -> irf a (Some false) len = Returned (Joint Name x) ->
  [seq p.1 | p <- l] = names /\ forall t, nth 0 x t = \sum_(p <- l) nth 0 p.2 t.
Proof.
rewrite /impulse_response => nd; case M : make_shock_spec => [m|//] /=; case S : selected_shock_names => [sel|//] /=.
have Es : sel = names.
  case: m M S => [t|c|[[v|v|d]|]] M /= => [[<-]|[<-]|[<-]|[<-]||[<-]] //.
  move: M; rewrite /make_shock_spec; case: validate_irf_shock_arguments => //= _ [].
  by case: (shock_trajectory a) => [?|] //; case: (shock_cov a) => //; case=> E; case: (nd d).
rewrite Es {S Es}; set L := (X in andThen X); case EL : L => [l'|//] /=.
have D base : one_by_one T R names base = Returned (Individual l) -> simulate_linear_system T R base = Returned x ->
    [seq p.1 | p <- l] = names /\ forall t, nth 0 x t = \sum_(p <- l) nth 0 p.2 t.
  move=> H1 /C31_closed_form [nb ->]; move: H1; rewrite (one_by_one_ok all_names (P := predT)) ?mem_tnth //; last first.
    by move=> i; exact: name_in.
  move=> [<-]; rewrite filter_predT -map_comp /= (map_tnth_enum (in_tuple names)); split=> // t.
  rewrite big_map big_enum /=; case: (ltnP t (size base)) => Ht; last first.
    by rewrite nth_default ?size_mkseq // big1 // => i _; rewrite nth_default // size_mkseq size_map.
  rewrite nth_mkseq // (eq_bigr (fun i => \sum_(s < t.+1) after T (t - s) (R *m nth 0 (only_shock i base) s))); last first.
    by move=> i _; rewrite nth_mkseq // size_map.
  rewrite exchange_big /=; apply: eq_bigr => s _.
  have Hs : (s < size base)%N by apply: leq_ltn_trans Ht; rewrite -ltnS.
  have {1}-> : nth 0 base s = \sum_i nth 0 (only_shock i base) s.
    apply/matrixP => i j; rewrite summxE (bigD1 i) //= (nth_map 0) // mxE eqxx ord1 big1 ?addr0 // => i' ni.
    by rewrite (nth_map 0) // mxE eq_sym (negbTE ni).
  rewrite mulmx_sumr; elim/big_rec2: _ => [|i y z _ <-]; first exact: after0.
  exact: afterD.
have J base : (let! x0 := simulate_linear_system T R base in Returned (Joint Name x0)) = Returned (Joint Name x) ->
    simulate_linear_system T R base = Returned x by case: simulate_linear_system => //= ? [->].
case: m M L EL => [t|c|s] M L EL /=; last 2 first.
- case: ifP => // _; case: cholesky => [W|//] /=; case: impulse => [base|//] /= H /J; exact: D.
- by case: shock_vector => [v|//] /=; case: l' EL => [//|l'] _; case: assign_row => [v'|//] /= H [E]; apply: (D _ H); rewrite /= E.
case: (shape t) => [//|d [//|d' [|//]]]; case: ifP => // _ /= H /J; exact: D.
Qed.

(* C70: the shocks applied are the ones requested. One response per shock: *)
Theorem C70_individual_scalar v len requested : requested <> Some false ->
  irf (Size (Scalar Name v)) requested len.+1 =
  Returned (each_shock predT (fun i => impulse_path T R (alone i v) len.+1)).
Proof.
move=> H; have I : infer_individual allclose requested (M_size (Some (Scalar Name v))) k by case: requested H => [[]|].
rewrite /impulse_response /= I row_full ?size_nseq //= (one_impulse _ _ all_names (P := predT)) ?mem_tnth //; last by move=> i; exact: name_in.
by congr (Returned (Individual _)); apply: eq_map => i; rewrite mxE nth_nseq ltn_ord.
Qed.
Theorem C70_individual_array v len requested : requested <> Some false -> shape v = [:: k] ->
  irf (Size (Array Name v)) requested len.+1 =
  Returned (each_shock predT (fun i => impulse_path T R (alone i (entry v i 0%N)) len.+1)).
Proof.
move=> H S; have I : infer_individual allclose requested (M_size (Some (Array Name v))) k.
  by case: requested H => [[]|] //= _; rewrite S eqxx orbT.
rewrite /impulse_response /= I S eqxx /= row_full ?size_mkseq //= (one_impulse _ _ all_names (P := predT)) ?mem_tnth //; last by move=> i; exact: name_in.
by congr (Returned (Individual _)); apply: eq_map => i; rewrite mxE nth_mkseq.
Qed.
(* a dictionary: the named shocks only, each with its own size, in model order whatever the order of the dictionary *)
Theorem C70_individual_dict d len requested : requested <> Some false -> d <> [::] -> {subset keys d <= names} ->
  irf (Size (Dict d)) requested len.+1 =
  Returned (each_shock (fun i => name_of i \in keys d) (fun i => impulse_path T R (alone i (odflt 0 (dict_get d (name_of i)))) len.+1)).
Proof.
move=> H nd sub; rewrite /impulse_response /=; have -> : size d == 0%N = false by case: d nd {sub}.
have -> : has (fun x => x \notin names) (keys d) = false by apply/hasPn => x /sub; rewrite negbK.
rewrite /=; have -> : infer_individual allclose requested (M_size (Some (Dict d))) (size [seq x <- names | x \in keys d]) by case: requested H => [[]|].
rewrite row_full ?size_map //= (one_impulse _ _ (sel_filter d) (mem_selected d)).
congr (Returned (Individual _)); apply: eq_map => i; rewrite mxE (nth_map (name_of i)) //.
by have -> : nth (name_of i) names i = name_of i by rewrite [RHS](tnth_nth (name_of i)).
Qed.
(* all shocks together *)
Theorem C70_joint_scalar v len : irf (Size (Scalar Name v)) (Some false) len.+1 = Returned (Joint Name (impulse_path T R (const_mx v) len.+1)).
Proof.
rewrite /impulse_response /= row_full ?size_nseq //= col_nseq.
by have /= [->] := sim_impulse T R (const_mx v) len.
Qed.
Theorem C70_joint_array v len : shape v = [:: k] ->
  irf (Size (Array Name v)) (Some false) len.+1 = Returned (Joint Name (impulse_path T R (\col_i entry v i 0%N) len.+1)).
Proof.
move=> S; rewrite /impulse_response /= S eqxx /= row_full ?size_mkseq //=.
have -> : (\col_i (mkseq (fun i => entry v i 0%N) k)`_i) = \col_i entry v i 0%N :> 'cV[F]_k.
  by apply/matrixP => i j; rewrite !mxE nth_mkseq.
by have /= [->] := sim_impulse T R (\col_i entry v i 0%N) len.
Qed.
Theorem C70_joint_cov c requested L len : shape c = [:: k; k] -> cholesky (as_matrix k k c) = Returned L ->
  requested = Some false \/ requested = None /\ ~~ allclose c (diag_of c) ->
  irf (Cov c) requested len.+1 = Returned (Joint Name (impulse_path T R (L *m draw) len.+1)).
Proof.
move=> S C H; rewrite /impulse_response /=.
have -> : infer_individual allclose requested (M_cov Name c) k = false by case: H => [->|[-> /= /negbTE]].
rewrite S eqxx C /=; by have /= [->] := sim_impulse T R (L *m draw) len.
Qed.
Theorem C70_trajectory a len l requested : requested <> Some true -> shape a = [:: l.+1; k] ->
  irf (Traj a) requested len = Returned (Joint Name (moving_average T R (rows_of a l.+1))).
Proof.
move=> H S; rewrite /impulse_response /= S /=.
have -> : infer_individual allclose requested (M_trajectory Name a) k = false by case: requested H => [[]|].
rewrite eqxx /=; set ma := moving_average T R _.
have E : simulate_linear_system T R (rows_of a l.+1) = Returned ma by apply/C31_closed_form.
exact: (congr1 (fun r => andThen r (fun x => Returned (Joint Name x))) E).
Qed.
Theorem C70_trajectory_individual a len l : shape a = [:: l.+1; k] ->
  irf (Traj a) (Some true) len = Returned (each_shock predT (fun i => moving_average T R (only_shock i (rows_of a l.+1)))).
Proof. by move=> S; rewrite /impulse_response /= S /= eqxx (one_by_one_ok all_names (P := predT)) // => i; exact: name_in. Qed.
(* a dictionary that names a shock the model does not have, or nothing at all, is refused *)
Theorem C70_bad_dict d requested len : d = [::] \/ ~~ all (mem names) (keys d) -> irf (Size (Dict d)) requested len = Raised ValueError.
Proof.
rewrite /impulse_response /= => -[->|H] //; case: eqP => //= _; have -> // : has (fun x => x \notin names) (keys d).
by rewrite has_predC.
Qed.
(* so is an array with another number of sizes *)
Theorem C70_bad_array v requested len : shape v <> [:: k] -> irf (Size (Array Name v)) requested len = Raised ValueError.
Proof. by move=> /eqP /negbTE S; rewrite /impulse_response /= S; case: infer_individual. Qed.
(* more than one kind of shock is refused *)
Theorem C70_one_option a requested len r : irf a requested len = Returned r ->
  (isSome (shock_size a) + isSome (shock_cov a) + isSome (shock_trajectory a))%N = 1%N.
Proof. by rewrite /impulse_response /make_shock_spec /validate_irf_shock_arguments; case: addn => [|[]]. Qed.
(* but so is the call that leaves all three at their default, which the signature allows *)
Theorem C70_default_call_refuted requested len : irf (Args None None None) requested len = Raised ValueError.
Proof. by []. Qed.
(* a dictionary applied jointly: correct when it names every shock *)
Theorem C70_joint_dict_full d len : (0 < k)%N -> {subset keys d <= names} -> {subset names <= keys d} ->
  irf (Size (Dict d)) (Some false) len.+1 =
  Returned (Joint Name (impulse_path T R (\col_i odflt 0 (dict_get d (name_of i))) len.+1)).
Proof.
move=> k0 sub sup; rewrite /impulse_response /=.
have -> : size d == 0%N = false.
  by case: (d) sup => // sup; move: k0; case: (names) sup => [//|x ? /(_ x)]; rewrite inE eqxx => /(_ isT).
have -> : has (fun x => x \notin names) (keys d) = false by apply/hasPn => x /sub; rewrite negbK.
have -> : [seq x <- names | x \in keys d] = names by apply/all_filterP/allP.
rewrite /= row_full ?size_map //=.
have -> : (\col_i [seq odflt 0 (dict_get d x) | x <- names]`_i) = \col_i odflt 0 (dict_get d (name_of i)) :> 'cV[F]_k.
  by apply/matrixP => i j; rewrite !mxE (nth_map (name_of i)) //; have -> : nth (name_of i) names i = name_of i by rewrite [RHS](tnth_nth (name_of i)).
set v := \col_i _; by have /= [->] := sim_impulse T R v len.
Qed.
(* but when it names exactly one of several shocks, every shock receives that size *)
Theorem C70_joint_dict_refuted s v len : (1 < k)%N -> s \in names ->
  irf (Size (Dict [:: (s, v)])) (Some false) len.+1 = irf (Size (Scalar Name v)) (Some false) len.+1.
Proof.
move=> k1 sn; rewrite C70_joint_scalar /impulse_response /= sn /=.
have -> : [seq x <- names | x \in [:: s]] = [:: s].
  by rewrite (eq_filter (a2 := pred1 s)) ?filter_pred1_uniq // => x; rewrite inE.
rewrite /= eqxx /assign_row /= (ltn_eqF k1) /=.
have -> : (\col__ v) = const_mx v :> 'cV[F]_k by apply/matrixP => i j; rewrite !mxE.
by have /= [->] := sim_impulse T R (const_mx v) len.
Qed.
(* and when it names several but not all, the call is refused *)
Theorem C70_joint_dict_subset_refuted d len : uniq (keys d) -> {subset keys d <= names} -> (1 < size d < k)%N ->
  irf (Size (Dict d)) (Some false) len.+1 = Raised ValueError.
Proof.
move=> u sub /andP [d1 dk]; rewrite /impulse_response /=.
case: eqP => // _; case: ifP => // _ /=.
have := d1; rewrite /assign_row size_map.
have -> : size [seq x <- names | x \in keys d] = size d.
  rewrite -(size_map (@fst _ _) d); apply/perm_size/uniq_perm => //; first exact: filter_uniq.
  by move=> x; rewrite mem_filter; case: (boolP (x \in keys d)) => //= /sub ->.
by rewrite (ltn_eqF dk) => H; rewrite (gtn_eqF H).
Qed.
End IRF.
