(* Bounds and reparametrisation in the minimising steady-state solver, gEconpy/model/model.py:
     infer_variable_bounds l.60-67, infer_variable_transform l.70-104, transform_steady_state_system l.107-152,
     _initialize_x0 l.155-170 (without jitter), the bound dictionary of _solve_steady_state_with_minimize l.1266-1288;
     assumptions: gEconpy/parser/grammar/special_blocks.py l.94-103 (unit_interval also sets positive).
   The PyMC transforms are given by their formulas (Interval: a two-sided bound uses the logistic function, one-sided
   bounds use exp; log; logodds).  Real arithmetic instead of floating point. *)
From Verif Require Import Common Sym_Model Sym_Spec SS_Driver.
From Coq Require Import Reals Lra.
Local Open Scope list_scope.
Local Open Scope R_scope.

Record assumptions := Assum { a_positive : bool; a_negative : bool; a_unit : bool }.
(* special_blocks.py l.94-103 *)
Definition declare_unit_interval (a : assumptions) : assumptions := Assum true (a_negative a) true.
Definition bound := (option R * option R)%type.
Definition infer_bounds (a : assumptions) : bound :=
  ((if a_positive a then Some atol else None), (if a_negative a then Some (- atol) else None)).
Inductive transform := TInterval (lo hi : option R) | TLogodds | TLog | TNone.
Definition infer_transform (a : assumptions) (b : bound) : transform :=
  match b with
  | (None, None) =>
      if a_unit a then TLogodds else if a_positive a then TLog else if a_negative a then TInterval None (Some 0) else TNone
  | (lo, hi) => TInterval lo hi
  end.
(* l.1266-1268, l.1286: inferred bounds, overridden by the user's entry for the symbol's full name ("K_ss") *)
Definition ss_name (s : sym) : chars := match s with SSs b => b ++ str "_ss" | SPar n => n | SDate b _ => b end.
Definition bound_of (user : list (chars * bound)) (a : assumptions) (s : sym) : bound :=
  match lookup (ss_name s) user with Some b => b | None => infer_bounds a end.
Definition used_transform (user : list (chars * bound)) (a : assumptions) (s : sym) : transform :=
  infer_transform a (bound_of user a s).

Definition sigmoid (y : R) : R := / (1 + exp (- y)).
Definition backward (t : transform) (y : R) : R :=
  match t with
  | TInterval (Some a) (Some b) => sigmoid y * b + (1 - sigmoid y) * a
  | TInterval (Some a) None => exp y + a
  | TInterval None (Some b) => b - exp y
  | TInterval None None => y
  | TLogodds => sigmoid y
  | TLog => exp y
  | TNone => y
  end.
Definition forward (t : transform) (x : R) : R :=
  match t with
  | TInterval (Some a) (Some b) => ln (x - a) - ln (b - x)
  | TInterval (Some a) None => ln (x - a)
  | TInterval None (Some b) => ln (b - x)
  | TInterval None None => x
  | TLogodds => ln (x / (1 - x))
  | TLog => ln x
  | TNone => x
  end.
(* the feasible region described by a transform *)
Definition region (t : transform) (x : R) : Prop :=
  match t with
  | TInterval lo hi => match lo with Some a => a < x | None => True end /\ match hi with Some b => x < b | None => True end
  | TLogodds => 0 < x < 1
  | TLog => 0 < x
  | TNone => True
  end.
Definition proper (t : transform) : Prop := match t with TInterval (Some a) (Some b) => a < b | _ => True end.

(* transform_steady_state_system: the residuals as functions of the vector of unknowns *)
Fixpoint map2 (ts : list transform) (y : list R) : list R :=
  match ts, y with t :: ts', v :: y' => backward t v :: map2 ts' y' | _, _ => [] end.
Definition transformed (F : list R -> list R) (ts : list transform) : list R -> list R := fun y => F (map2 ts y).
(* l.155-163 *)
Definition default_x0 (a : assumptions) : R := if a_negative a then - (8 / 10) else 8 / 10.

(* ---------------- proofs ---------------- *)
Lemma sigmoid_range y : 0 < sigmoid y < 1.
Proof.
  unfold sigmoid. pose proof (exp_pos (- y)). split.
  - apply Rinv_0_lt_compat. lra.
  - apply Rmult_lt_reg_l with (1 + exp (- y)); [lra|]. rewrite Rinv_r by lra. lra.
Qed.
Lemma backward_region t y : proper t -> region t (backward t y).
Proof.
  intro P. destruct t as [[a|] [b|]| | |]; cbn in *; repeat split; try (pose proof (exp_pos y); lra).
  - pose proof (sigmoid_range y) as [H1 H2]. assert (0 < sigmoid y * (b - a)) by (apply Rmult_lt_0_compat; lra). lra.
  - pose proof (sigmoid_range y) as [H1 H2]. assert (0 < (1 - sigmoid y) * (b - a)) by (apply Rmult_lt_0_compat; lra). lra.
  - apply sigmoid_range.
  - apply sigmoid_range.
Qed.
Lemma sigmoid_ln p q : 0 < p -> 0 < q -> sigmoid (ln p - ln q) = p / (p + q).
Proof.
  intros Hp Hq. unfold sigmoid. replace (- (ln p - ln q)) with (ln q + - ln p) by ring.
  rewrite exp_plus, exp_Ropp, !exp_ln by assumption. field. lra.
Qed.
Lemma backward_forward t x : region t x -> backward t (forward t x) = x.
Proof.
  destruct t as [[a|] [b|]| | |]; cbn; intro H.
  - rewrite sigmoid_ln by lra. field. lra.
  - rewrite exp_ln by lra. lra.
  - rewrite exp_ln by lra. lra.
  - reflexivity.
  - replace (ln (x / (1 - x))) with (ln x - ln (1 - x)).
    + rewrite sigmoid_ln by lra. field. lra.
    + unfold Rdiv. rewrite ln_mult, ln_Rinv; try lra. apply Rinv_0_lt_compat. lra.
  - apply exp_ln. exact H.
  - reflexivity.
Qed.
Lemma sigmoid_odds y : sigmoid y / (1 - sigmoid y) = exp y.
Proof.
  unfold sigmoid. pose proof (exp_pos (- y)) as H. replace y with (- - y) at 3 by ring. rewrite (exp_Ropp (- y)). field. split; lra.
Qed.
Lemma forward_backward t y : proper t -> forward t (backward t y) = y.
Proof.
  destruct t as [[a|] [b|]| | |]; cbn; intro H.
  - pose proof (sigmoid_range y) as [H1 H2].
    replace (sigmoid y * b + (1 - sigmoid y) * a - a) with (sigmoid y * (b - a)) by ring.
    replace (b - (sigmoid y * b + (1 - sigmoid y) * a)) with ((1 - sigmoid y) * (b - a)) by ring.
    rewrite !ln_mult by lra. replace (ln (sigmoid y) + ln (b - a) - (ln (1 - sigmoid y) + ln (b - a)))
      with (ln (sigmoid y) + - ln (1 - sigmoid y)) by ring.
    rewrite <- ln_Rinv by lra. rewrite <- ln_mult; [|lra|apply Rinv_0_lt_compat; lra].
    change (ln (sigmoid y / (1 - sigmoid y)) = y). rewrite sigmoid_odds. apply ln_exp.
  - replace (exp y + a - a) with (exp y) by ring. apply ln_exp.
  - replace (b - (b - exp y)) with (exp y) by ring. apply ln_exp.
  - reflexivity.
  - rewrite sigmoid_odds. apply ln_exp.
  - apply ln_exp.
  - reflexivity.
Qed.
Lemma map2_length ts : forall y, length y = length ts -> length (map2 ts y) = length ts.
Proof. induction ts as [|t ts IH]; intros [|v y] H; cbn in *; try discriminate; [reflexivity|]. f_equal. apply IH. lia. Qed.
Lemma map2_region ts : Forall proper ts -> forall y, length y = length ts -> Forall2 region ts (map2 ts y).
Proof.
  induction 1 as [|t ts P _ IH]; intros [|v y] H; cbn in *; try discriminate; constructor.
  - now apply backward_region. - apply IH. lia.
Qed.
Lemma map2_onto ts : forall x, Forall2 region ts x -> exists y, length y = length ts /\ map2 ts y = x.
Proof.
  induction 1 as [|t v ts x H _ (y & L & E)]; [exists []; auto|]. exists (forward t v :: y). cbn.
  rewrite L, E, backward_forward by exact H. auto.
Qed.
Lemma transformed_roots F ts : Forall proper ts ->
  (forall y, length y = length ts -> Forall (fun r => r = 0) (transformed F ts y) ->
     Forall2 region ts (map2 ts y) /\ Forall (fun r => r = 0) (F (map2 ts y))) /\
  (forall x, Forall2 region ts x -> Forall (fun r => r = 0) (F x) ->
     exists y, length y = length ts /\ map2 ts y = x /\ Forall (fun r => r = 0) (transformed F ts y)).
Proof.
  intro P. split.
  - intros y L H. split; [now apply map2_region|exact H].
  - intros x Hx H. destruct (map2_onto ts x Hx) as (y & L & E). exists y. unfold transformed. rewrite E. auto.
Qed.
Lemma no_user_positive user a s x : lookup (ss_name s) user = None -> a_positive a = true ->
  region (used_transform user a s) x -> 0 < x.
Proof.
  intros H P. unfold used_transform, bound_of. rewrite H. unfold infer_bounds. rewrite P. cbn [infer_transform].
  assert (0 < atol) by (unfold atol; lra). destruct (a_negative a); cbn; lra.
Qed.
Lemma no_user_negative user a s x : lookup (ss_name s) user = None -> a_negative a = true -> a_positive a = false ->
  region (used_transform user a s) x -> x < 0.
Proof.
  intros H N P. unfold used_transform, bound_of. rewrite H. unfold infer_bounds. rewrite P, N. cbn [infer_transform].
  assert (0 < atol) by (unfold atol; lra). cbn. lra.
Qed.
Lemma user_respected (user : list (chars * bound)) a s (lo hi : option R) x : lookup (ss_name s) user = Some (lo, hi) -> (lo, hi) <> (None, None) ->
  region (used_transform user a s) x <->
    match lo with Some l => l < x | None => True end /\ match hi with Some h => x < h | None => True end.
Proof.
  intros H N. unfold used_transform, bound_of. rewrite H. destruct lo, hi; try contradiction; cbn; tauto.
Qed.
Lemma default_start a s : (a_positive a = true -> a_negative a = false) ->
  region (used_transform [] a s) (default_x0 a).
Proof.
  intro H. unfold used_transform, bound_of, default_x0. cbn [lookup find]. unfold infer_bounds.
  assert (0 < atol < 1/10) by (unfold atol; lra).
  destruct (a_positive a) eqn:P; [rewrite (H eq_refl)|destruct (a_negative a) eqn:N]; cbn [infer_transform].
  - cbn. lra.
  - cbn. lra.
  - rewrite P, N. destruct (a_unit a); cbn; [lra|exact I].
Qed.
