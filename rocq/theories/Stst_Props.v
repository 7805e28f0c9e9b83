(* C161: the steady state that a computation starts from, and what is reported about it *)
From Verif Require Import Common SymDict_Model SymDict_More Sym_Model Lin_Model Get_Model Get_Props Stst_Model.
From Coq Require Import QArith Qabs Lia.
Local Open Scope list_scope.
Local Open Scope nat_scope.

(* ---- specification ---- *)
(* a dictionary gives a variable a value, under its name or under its steady-state name *)
Definition gives {V} (s : dict V) (n : chars) (v : V) : Prop := In (n, v) s \/ In (n ++ str "_ss", v) s.
Definition plain_names {V M} (m : model V M) : Prop := forall n, In n (variables m) -> forall k, n <> k ++ str "_ss".
(* farther from zero than 1e-8 *)
Definition nonzero (x : fl) : Prop := match x with NaN => False | Inf => True | Fin q => (1 # 100000000 < Qabs q)%Q end.
(* the elements with a property, in order *)
Inductive picked {A} (P : A -> Prop) : list A -> list A -> Prop :=
| P_end : picked P [] []
| P_take a l l' : P a -> picked P l l' -> picked P (a :: l) (a :: l')
| P_drop a l l' : ~ P a -> picked P l l' -> picked P (a :: l) l'.
(* a line of the printed steady state: the value ends below those of the other lines *)
Definition line_of (w : nat) (e : chars * bool * chars) (l : chars) : Prop :=
  exists k, l = fst (fst e) ++ repeat " "%char k ++ snd e /\ 5 <= k /\
    (length (snd e) <= 10 -> length l = w + 15) /\ (10 < length (snd e) -> length (fst (fst e)) + k = w + 5).

(* ---- lemmas ---- *)
Lemma above_iff x : above_zero x = true <-> nonzero x.
Proof.
  destruct x as [| |q]; cbn [above_zero nonzero]; [easy|easy|]. rewrite orb_true_iff, !negb_true_iff.
  assert (forall a b, Qle_bool a b = false <-> (b < a)%Q) as X.
  { intros a b. destruct (Qle_bool a b) eqn:E.
    - apply Qle_bool_iff in E. split; [discriminate|]. intro L. destruct (Qlt_not_le _ _ L E).
    - split; [intros _|reflexivity]. apply Qnot_le_lt. intro L. apply Qle_bool_iff in L. congruence. }
  rewrite !X. split.
  - intros [L|L].
    + eapply Qlt_le_trans; [exact L|]. apply Qle_Qabs.
    + apply (Qlt_le_trans _ (- q)%Q).
      * apply Qopp_lt_compat in L. now rewrite Qopp_involutive in L.
      * rewrite <- (Qabs_opp q). apply Qle_Qabs.
  - apply (Qabs_case q (fun a => (1 # 100000000 < a)%Q -> _)).
    + intros _ L. now left.
    + intros _ L. right. apply Qopp_lt_compat in L. now rewrite Qopp_involutive in L.
Qed.
Lemma picked_filter {A} (P : A -> Prop) (f : A -> bool) l : (forall a, f a = true <-> P a) -> picked P l (filter f l).
Proof.
  intro H. induction l as [|a l IH]; [constructor|]. cbn [filter]. destruct (f a) eqn:E; constructor; auto; [now apply H|].
  intro X. apply H in X. congruence.
Qed.
Lemma picked_fun {A} (P : A -> Prop) l a b : picked P l a -> picked P l b -> a = b.
Proof. intro H. revert b. induction H; intros b Hb; inversion Hb; subst; try easy; f_equal; auto. Qed.
Lemma flat_filter {A B} (f : A -> bool) (g : A -> list B) l : flat_map (fun a => if f a then g a else []) l = flat_map g (filter f l).
Proof. induction l as [|a l IH]; [easy|]. cbn [flat_map filter]. destruct (f a); cbn [flat_map app]; now rewrite IH. Qed.
Lemma suffix_iff k n : (forall b, n <> b ++ str "_ss") -> (removesuffix k = n <-> k = n \/ k = n ++ str "_ss").
Proof.
  intro N. change (str "_ss") with suffix_ss in *. destruct (ends_with_ss k) eqn:E.
  - apply ends_iff in E. destruct E as (b & ->). rewrite (proj2 (ends_app b)). split; [intros ->; now right|]. intros [X|X]; [destruct (N b (eq_sym X))|]. now apply app_inv_tail in X.
  - rewrite (ends_not _ E). split; [now left|]. intros [X|X]; [exact X|]. subst. rewrite (proj1 (ends_app n)) in E. discriminate E.
Qed.
Lemma look {V} (s : dict V) n : (forall b, n <> b ++ str "_ss") -> forall d,
  let r := dget chars_eqb n (fold_left (fun d kv => dset chars_eqb (removesuffix (fst kv)) (snd kv) d) s d) in
  (exists v, r = Some v /\ (gives s n v \/ dget chars_eqb n d = Some v /\ forall v', ~ gives s n v')) \/ (r = None /\ dget chars_eqb n d = None /\ forall v, ~ gives s n v).
Proof.
  intro N. induction s as [|[k v] s IH]; intro d; cbv zeta.
  - cbn [fold_left]. destruct (dget chars_eqb n d) as [v|]; [left; exists v; split; [easy|]; right; split; [easy|]|right; split; [easy|split; [easy|]]]; intros v' [[]|[]].
  - cbn [fold_left fst snd]. specialize (IH (dset chars_eqb (removesuffix k) v d)). cbv zeta in IH.
    set (r := dget chars_eqb n (fold_left _ s _)) in *. rewrite (dget_dset chars_eqb chars_eqb_eq) in IH.
    destruct (chars_eqb n (removesuffix k)) eqn:E.
    + apply chars_eqb_eq in E. symmetry in E. apply suffix_iff in E; [|exact N].
      assert (gives ((k, v) :: s) n v) as G by (destruct E as [->| ->]; [left|right]; now left).
      left. destruct IH as [(v0 & Hr & [Hs|[Hv Hn]])|(_ & X & _)]; [| |discriminate X].
      * exists v0. split; [easy|]. left. destruct Hs as [Hs|Hs]; [left|right]; now right.
      * injection Hv as <-. exists v. split; [easy|]. now left.
    + apply chars_eqb_neq in E. assert (forall v', gives ((k, v) :: s) n v' <-> gives s n v') as G.
      { intro v'. unfold gives. cbn [In]. split; [|tauto]. intros [[X|X]|[X|X]]; [|tauto| |tauto]; injection X as X _; exfalso; apply E; symmetry; apply suffix_iff; auto. }
      destruct IH as [(v0 & Hr & [Hs|[Hv Hn]])|(Hr & Hd & Hn)].
      * left. exists v0. split; [easy|]. left. now apply G.
      * left. exists v0. split; [easy|]. right. split; [easy|]. intros v' X. apply G in X. now apply Hn in X.
      * right. split; [easy|]. split; [easy|]. intros v' X. apply G in X. now apply Hn in X.
Qed.
Lemma all_ok_values {V} (d : dict V) names vals : Forall2 (fun n v => dget chars_eqb n d = Some v) names vals -> all_ok (key d) names = Ok vals.
Proof. induction 1 as [|n v names vals H _ IH]; [easy|]. cbn [all_ok]. unfold key at 1. rewrite H. cbn [bind]. now rewrite IH. Qed.
Lemma all_ok_missing {V} (d : dict V) names n : In n names -> dget chars_eqb n d = None -> all_ok (key d) names = Err KeyError.
Proof.
  induction names as [|a names IH]; [intros []|]. intros H E. cbn [all_ok]. destruct (dget chars_eqb a d) as [v|] eqn:Ea; unfold key at 1; rewrite Ea; [|easy]. cbn [bind].
  destruct H as [->|H]; [congruence|]. now rewrite IH.
Qed.
Lemma all_ok_error {V} (d : dict V) names e : all_ok (key d) names = Err e -> e = KeyError.
Proof.
  induction names as [|n names IH]; [discriminate|]. cbn [all_ok]. unfold key at 1. destruct (dget chars_eqb n d) as [v|]; cbn [bind]; [|congruence].
  destruct (all_ok (key d) names) as [vs|e']; cbn [bind]; [discriminate|]. intro H. injection H as ->. now apply IH.
Qed.

(* ---- theorems: where the matrices are evaluated ---- *)
(* each variable's own value is used, whatever the order of the entries, under its name or its steady-state name *)
Theorem C161_point {V M} (m : model V M) s kwargs verbose updates p vals :
  plain_names m -> parameters m updates = Ok p ->
  (forall n v v', In n (variables m) -> gives s n v -> gives s n v' -> v = v') ->
  Forall2 (gives s) (variables m) vals -> fst (linearize m (Some s) kwargs verbose updates) = Ok (jacobians m vals p).
Proof.
  intros N P U F. unfold linearize. cbn [fst]. rewrite P. cbn [bind]. erewrite all_ok_values with (vals := vals); [reflexivity|].
  assert (forall names, (forall n, In n names -> In n (variables m)) -> Forall2 (gives s) names vals -> Forall2 (fun n v => dget chars_eqb n (fold_left (fun d kv => dset chars_eqb (removesuffix (fst kv)) (snd kv) d) s []) = Some v) names vals) as X.
  { clear F. intros names I F. induction F as [|n v names vals G F IH]; constructor.
    - destruct (look s n (fun b => N n (I n (or_introl eq_refl)) b) []) as [(v0 & Hr & [Hs|[Hv _]])|(_ & _ & X)]; [|discriminate Hv|destruct (X v G)].
      rewrite Hr. f_equal. exact (U n v0 v (I n (or_introl eq_refl)) Hs G).
    - apply IH. intros x Hx. apply I. now right. }
  now apply X.
Qed.
Theorem C161_point_missing {V M} (m : model V M) s kwargs verbose updates p n :
  plain_names m -> parameters m updates = Ok p -> In n (variables m) -> (forall v, ~ gives s n v) ->
  fst (linearize m (Some s) kwargs verbose updates) = Err KeyError.
Proof.
  intros N P I G. unfold linearize. cbn [fst]. rewrite P. cbn [bind].
  destruct (look s n (fun b => N n I b) []) as [(v0 & Hr & [Hs|[Hv _]])|(Hr & _ & X)]; [destruct (G v0 Hs)|discriminate Hv|]. now rewrite (all_ok_missing _ _ n I Hr).
Qed.
(* nothing given: the solver's point is used, with the parameters asked for - even if it is not a steady state *)
Theorem C161_not_checked_refuted {V M} (m : model V M) kwargs verbose updates p s found :
  is_linear m = false -> parameters m updates = Ok p -> steady_state m p kwargs = Ok (s, found) ->
  matrices_to_solve m None kwargs verbose updates = fst (linearize m (Some s) [] verbose updates).
Proof. intros L P S. unfold matrices_to_solve, maybe_solve. rewrite L, P. cbn [bind]. rewrite S. reflexivity. Qed.
Theorem C161_linearize_solves {V M} (m : model V M) kwargs verbose updates p s found :
  is_linear m = false -> parameters m updates = Ok p -> parameters m p = Ok p ->
  steady_state m p (snd (linearize m None kwargs verbose updates)) = Ok (s, found) ->
  fst (linearize m None kwargs verbose updates) = fst (linearize m (Some s) kwargs verbose updates).
Proof. intros L P P2 S. unfold linearize in *. cbn [fst snd] in *. rewrite P. cbn [bind]. rewrite P2. cbn [bind]. rewrite L, S. reflexivity. Qed.
(* a point that is given is refused exactly if an equation does not hold at it *)
Theorem C161_given {V M} (m : model V M) s kwargs verbose updates p : parameters m updates = Ok p ->
  (matrices_to_solve m (Some s) kwargs verbose updates = Err SteadyStateNotFoundError <-> Exists nonzero (residuals m (entries s) p)) /\
  (~ Exists nonzero (residuals m (entries s) p) -> matrices_to_solve m (Some s) kwargs verbose updates = fst (linearize m (Some (entries s)) [] verbose updates)).
Proof.
  intro P. assert (existsb above_zero (residuals m (entries s) p) = true <-> Exists nonzero (residuals m (entries s) p)) as X.
  { rewrite existsb_exists, Exists_exists. split; intros (x & I & H); exists x; split; auto; now apply above_iff. }
  unfold matrices_to_solve, maybe_solve. rewrite P. cbn [bind]. destruct (existsb above_zero (residuals m (entries s) p)) eqn:E.
  - split; [|intro H; destruct (H (proj1 X eq_refl))]. split; [|easy]. intros _. now apply X.
  - cbn [bind entries]. split; [|easy]. split; [|intro H; apply X in H; discriminate H]. unfold linearize. cbn [fst]. rewrite P. cbn [bind].
    match goal with |- context [all_ok (key ?d) ?l] => destruct (all_ok (key d) l) as [vs|e] eqn:A end; [discriminate|]. apply all_ok_error in A. subst e. discriminate.
Qed.
(* a linear model of which no steady-state relation is known: steady_state() gives zeros, but nothing uses it *)
Theorem C161_linear_refuted {V M} four (m : model V M) kwargs verbose updates p :
  is_linear m = true -> f_ss m = None -> parameters m updates = Ok p -> parameters m p = Ok p ->
  matrices_to_solve m None kwargs verbose updates = Err TypeError /\ fst (linearize m None kwargs verbose updates) = Err TypeError /\
  check_steady_state four m None kwargs updates = Err TypeError.
Proof.
  intros L F P P2. unfold matrices_to_solve, check_steady_state, maybe_solve, linearize, call_f_ss. cbn [fst]. rewrite P. cbn [bind]. rewrite P2. cbn [bind]. rewrite L, F. now repeat split.
Qed.
(* with relations for some of its variables only, the others are missing *)
Theorem C161_linear_partial_refuted {V M} (m : model V M) f kwargs verbose updates p n :
  is_linear m = true -> f_ss m = Some f -> parameters m updates = Ok p -> plain_names m -> In n (variables m) -> (forall v, ~ gives (f p) n v) ->
  matrices_to_solve m None kwargs verbose updates = Err KeyError.
Proof.
  intros L F P N I G. unfold matrices_to_solve, maybe_solve, call_f_ss. rewrite L, F, P. cbn [bind entries]. now apply (C161_point_missing m (f p) [] verbose updates p n).
Qed.
(* with relations for all of them it can be solved, but not checked *)
Theorem C161_linear_check_refuted {V M} four (m : model V M) f kwargs updates p :
  is_linear m = true -> f_ss m = Some f -> parameters m updates = Ok p -> check_steady_state four m None kwargs updates = Err AttributeError.
Proof. intros L F P. unfold check_steady_state, maybe_solve, call_f_ss. now rewrite L, F, P. Qed.
(* the caller's options: "verbose" is overwritten in their dictionary, the others stay *)
Theorem C161_options_refuted {V M} (m : model V M) given kwargs verbose updates n :
  dget chars_eqb n (snd (linearize m given kwargs verbose updates)) =
  if chars_eqb n (str "verbose") then Some (if verbose then str "True" else str "False") else dget chars_eqb n kwargs.
Proof. unfold linearize. cbn [snd]. unfold with_verbose. now rewrite (dget_dset chars_eqb chars_eqb_eq). Qed.

(* ---- theorems: what is reported ---- *)
Definition header := str "Steady state NOT successful. The following equations have non-zero residuals:".
(* the equations that do not hold are listed, each with its residual, in order *)
Theorem C161_listed {V M} four (m : model V M) kwargs updates p s shown :
  is_linear m = false -> parameters m updates = Ok p -> steady_state m p kwargs = Ok (s, false) ->
  picked (fun re : fl * chars => nonzero (fst re)) (combine (residuals m s p) (equations m)) shown ->
  check_steady_state four m None kwargs updates = Ok (header :: flat_map (fun re => [snd re; str "Residual: " ++ four (fst re)]) shown).
Proof.
  intros L P S K. unfold check_steady_state, maybe_solve. rewrite L, P. cbn [bind]. rewrite S. cbn [bind fst snd success entries]. do 2 f_equal. rewrite flat_filter. f_equal.
  eapply picked_fun; [|exact K]. apply picked_filter. intro a. apply above_iff.
Qed.
Theorem C161_found {V M} four (m : model V M) kwargs updates p s :
  is_linear m = false -> parameters m updates = Ok p -> steady_state m p kwargs = Ok (s, true) ->
  check_steady_state four m None kwargs updates = Ok [str "Steady state successfully found!"].
Proof. intros L P S. unfold check_steady_state, maybe_solve. now rewrite L, P; cbn [bind]; rewrite S. Qed.
(* a point that is given is never described: it is a steady state or an error is raised *)
Theorem C161_given_not_listed_refuted {V M} four (m : model V M) s kwargs updates p : parameters m updates = Ok p ->
  check_steady_state four m (Some s) kwargs updates = Ok [str "Steady state successfully found!"] /\ ~ Exists nonzero (residuals m (entries s) p) \/
  check_steady_state four m (Some s) kwargs updates = Err SteadyStateNotFoundError /\ Exists nonzero (residuals m (entries s) p).
Proof.
  intro P. assert (existsb above_zero (residuals m (entries s) p) = true <-> Exists nonzero (residuals m (entries s) p)) as X.
  { rewrite existsb_exists, Exists_exists. split; intros (x & I & H); exists x; split; auto; now apply above_iff. }
  unfold check_steady_state, maybe_solve. rewrite P. cbn [bind]. destruct (existsb above_zero (residuals m (entries s) p)).
  - right. split; [easy|]. now apply X.
  - left. split; [easy|]. intro H. apply X in H. discriminate H.
Qed.
(* an equation that cannot be evaluated is not listed *)
Theorem C161_nan_refuted {V M} four (m : model V M) kwargs updates p s :
  is_linear m = false -> parameters m updates = Ok p -> steady_state m p kwargs = Ok (s, false) -> Forall (eq NaN) (residuals m s p) ->
  check_steady_state four m None kwargs updates = Ok [header].
Proof.
  intros L P S F. rewrite (C161_listed four m kwargs updates p s [] L P S); [reflexivity|]. revert F. generalize (residuals m s p) (equations m). intros rs. induction rs as [|r rs IH]; intros es F; [constructor|].
  inversion F; subst. destruct es as [|e es]; [constructor|]. cbn [combine]. constructor; [easy|]. now apply IH.
Qed.

Definition is_var (e : chars * bool * chars) : Prop := snd (fst e) = true.
Lemma longest (names : list chars) : names <> [] -> let w := fold_right Nat.max 0 (map (@length _) names) in (forall n, In n names -> length n <= w) /\ exists n, In n names /\ length n = w.
Proof.
  induction names as [|a names IH]; [easy|]. intros _ w. subst w. cbn [map fold_right]. destruct names as [|b names].
  - cbn. split; [intros n [<-|[]]; lia|]. exists a. split; [now left|lia].
  - destruct IH as [H1 (n & H2 & H3)]; [easy|]. set (w := fold_right Nat.max 0 (map (@length _) (b :: names))) in *. split.
    + intros x [<-|X]; [lia|]. specialize (H1 x X). lia.
    + destruct (Nat.le_gt_cases (length a) w); [exists n; split; [now right|lia]|exists a; split; [now left|lia]].
Qed.
Lemma line_ok w (e : chars * bool * chars) : length (fst (fst e)) <= w -> line_of w e (left_in (w + 5) (fst (fst e)) ++ right_in 10 (snd e)).
Proof.
  intro L. unfold left_in, right_in. exists ((w + 5 - length (fst (fst e))) + (10 - length (snd e))). rewrite repeat_app, <- !app_assoc. split; [easy|]. split; [lia|]. split.
  - intro H. rewrite !app_length, !repeat_length. lia.
  - lia.
Qed.
(* every value is printed once, variables first, each on its line, the values below one another *)
Theorem C161_printed ok d vars others : d <> [] ->
  picked is_var d vars -> picked (fun e => ~ is_var e) d others ->
  exists w l1 l2, (forall e, In e d -> length (fst (fst e)) <= w) /\ (exists e, In e d /\ length (fst (fst e)) = w) /\
    Forall2 (line_of w) vars l1 /\ Forall2 (line_of w) others l2 /\
    print_steady_state (Some ok) d =
      Ok ((if ok then [] else [str "Values come from the latest solver iteration but are NOT a valid steady state."]) ++ l1 ++
          match others with [] => [] | _ => [ascii_of_nat 10] :: l2 end).
Proof.
  intros D K1 K2. assert (map (fun e : chars * bool * chars => fst (fst e)) d <> []) as D' by (destruct d; easy).
  destruct (longest _ D') as [H1 (n & H2 & H3)]. rewrite map_map in H1, H3. set (w := fold_right Nat.max 0 (map (fun e : chars * bool * chars => length (fst (fst e))) d)) in *.
  assert (forall e, In e d -> length (fst (fst e)) <= w) as W by (intros e I; apply H1; apply in_map_iff; now exists e).
  set (line := fun e : chars * bool * chars => left_in (w + 5) (fst (fst e)) ++ right_in 10 (snd e)).
  assert (vars = filter (fun e => snd (fst e)) d) as E1 by (eapply picked_fun; [exact K1|]; apply picked_filter; intro; reflexivity).
  assert (others = filter (fun e => negb (snd (fst e))) d) as E2 by (eapply picked_fun; [exact K2|]; apply picked_filter; intro; unfold is_var; rewrite negb_true_iff; split; [congruence|apply not_true_is_false]).
  assert (forall l, (forall e, In e l -> In e d) -> Forall2 (line_of w) l (map line l)) as F.
  { induction l as [|e l IH]; intro I; constructor; [|apply IH; intros x X; apply I; now right]. apply line_ok. apply W. apply I. now left. }
  exists w, (map line vars), (map line others). split; [exact W|]. split; [apply in_map_iff in H2; destruct H2 as (e & <- & I); now exists e|].
  split; [apply F; subst vars; intros e I; now apply filter_In in I|]. split; [apply F; subst others; intros e I; now apply filter_In in I|].
  transitivity (Ok ((if ok then [] else [str "Values come from the latest solver iteration but are NOT a valid steady state."]) ++ map line (filter (fun e => snd (fst e)) d) ++
    match map line (filter (fun e => negb (snd (fst e))) d) with [] => [] | _ => [ascii_of_nat 10] :: map line (filter (fun e => negb (snd (fst e))) d) end)).
  { clear - D. subst line w. unfold print_steady_state. destruct d as [|e0 d0]; [easy|]. reflexivity. }
  rewrite <- E1, <- E2. do 3 f_equal. destruct others; reflexivity.
Qed.
Theorem C161_print_refuted d : print_steady_state None d = Err AttributeError /\ print_steady_state (Some true) [] = Err ValueError.
Proof. now split. Qed.

(* ---- a model with two variables ---- *)
Definition sample (linear : bool) (f : option (dict Q -> dict Q)) (found : bool) : model Q (list Q) :=
  Model _ _ [str "K"; str "C"] [str "K = 3"; str "C = 1"] linear (fun u => Ok u) f
    (fun p _ => Ok ([(str "C_ss", 1%Q); (str "K_ss", 2%Q)], found))
    (fun s _ => map (fun nk => match dget chars_eqb (fst nk) s with Some v => Fin (v - snd nk) | None => NaN end) [(str "K_ss", 3%Q); (str "C_ss", 1%Q)])
    (fun vals _ => vals).
Theorem C161_case :
  matrices_to_solve (sample false None false) None [] true [] = Ok [2%Q; 1%Q] /\
  matrices_to_solve (sample false None false) (Some (Ss [(str "C_ss", 1%Q); (str "K_ss", 3%Q)] None)) [] true [] = Ok [3%Q; 1%Q] /\
  matrices_to_solve (sample false None false) (Some (Ss [(str "C_ss", 1%Q); (str "K_ss", 2%Q)] None)) [] true [] = Err SteadyStateNotFoundError /\
  check_steady_state (fun _ => str "-1.0000") (sample false None false) None [] [] = Ok [header; str "K = 3"; str "Residual: -1.0000"] /\
  matrices_to_solve (sample true None true) None [] true [] = Err TypeError /\
  matrices_to_solve (sample true (Some (fun _ => [(str "K_ss", 0%Q)])) true) None [] true [] = Err KeyError /\
  snd (linearize (sample true None true) None [(str "verbose", str "False")] true []) = [(str "verbose", str "True")] /\
  print_steady_state (Some false) [(str "C_ss", true, str "1.000"); (str "beta", false, str "0.990"); (str "Kap_ss", true, str "2.500")] =
    Ok [str "Values come from the latest solver iteration but are NOT a valid steady state."; str "C_ss            1.000"; str "Kap_ss          2.500"; [ascii_of_nat 10]; str "beta            0.990"].
Proof. repeat split; reflexivity. Qed.
