(* What the statements about the root finder talk about. *)
From Verif Require Import Common SR_Model.
From Coq Require Import Reals.
Local Open Scope R_scope.

Section Spec.
Variable n : nat.
Variable f : vec -> vec * mat.
Definition residual (x : vec) : vec := fst (f x).
Definition jacobian (x : vec) : mat := snd (f x).
(* half the sum of squared residuals *)
Definition objective (x : vec) : R := / 2 * rsum n (fun i => residual x i * residual x i).
(* derivative of the objective at x in direction d, computed with the Jacobian *)
Definition slope_at (x d : vec) : R := rsum n (fun i => residual x i * rsum n (fun j => jacobian x i j * d j)).
(* x and y are k accepted steps apart *)
Inductive path (accepted : vec -> vec -> Prop) : vec -> nat -> vec -> Prop :=
| Here x : path accepted x 0 x
| There x k y z : path accepted x k y -> accepted y z -> path accepted x (S k) z.
(* m is the largest absolute value among the first n entries of v *)
Definition largest (v : vec) (m : R) : Prop := (forall i, (i < n)%nat -> Rabs (v i) <= m) /\ exists i, (i < n)%nat /\ m = Rabs (v i).
(* Armijo's rule: the step length is the first of 1, beta, beta^2, ... that gives the required decrease; dir x d: d is a direction
   that may be searched at x *)
Definition armijo_step (dir : vec -> vec -> Prop) (c1 beta : R) (max_iter : nat) (x y : vec) : Prop :=
  exists d k, dir x d /\ (k < max_iter)%nat /\ y = vadd x (vscale (beta ^ k) d) /\ slope_at x d <= 0 /\
    objective y <= objective x + c1 * beta ^ k * slope_at x d /\
    forall j, (j < k)%nat -> objective x + c1 * beta ^ j * slope_at x d < objective (vadd x (vscale (beta ^ j) d)).
(* no permitted length along a direction at x gives the required decrease *)
Definition no_armijo_step (dir : vec -> vec -> Prop) (c1 beta : R) (max_iter : nat) (x : vec) : Prop :=
  exists d, dir x d /\ slope_at x d <= 0 /\
    forall j, (j < max_iter)%nat -> objective x + c1 * beta ^ j * slope_at x d < objective (vadd x (vscale (beta ^ j) d)).
Definition any_direction (x d : vec) : Prop := True.
(* minus the gradient of the objective *)
Definition steepest (x : vec) : vec := fun j => - rsum n (fun i => jacobian x i j * residual x i).
(* what the linear solver returns for J d = -residual, minus the gradient if it fails; turned round if it does not point downhill *)
Definition newton_direction (lin : mat -> vec -> option vec) (x d : vec) : Prop :=
  exists e, (lin (jacobian x) (fun i => - residual x i) = Some e \/ lin (jacobian x) (fun i => - residual x i) = None /\ e = steepest x) /\
    (slope_at x e < 0 /\ d = e \/ 0 <= slope_at x e /\ d = (fun i => - e i)).
(* half the sum of squares of the residuals predicted at x + p by the Jacobian at x *)
Definition linear_model (x p : vec) : R :=
  / 2 * rsum n (fun i => (residual x i + rsum n (fun j => jacobian x i j * p j)) * (residual x i + rsum n (fun j => jacobian x i j * p j))).
Definition within (p : vec) (radius : R) : Prop := rsum n (fun i => p i * p i) <= radius * radius.
(* a step inside the trust region that lowers the objective by more than the fraction eta of the reduction the model promises *)
Definition trust_step (eta largest_radius : R) (x y : vec) : Prop :=
  exists p radius, y = vadd x p /\ 0 < radius <= largest_radius /\ within p radius /\
    0 < objective x - linear_model x p /\ eta * (objective x - linear_model x p) < objective x - objective y.
(* a trial step that is not good enough *)
Definition poor_step (eta : R) (x p : vec) : Prop :=
  objective x - linear_model x p <= 0 \/ objective x - objective (vadd x p) <= eta * (objective x - linear_model x p).
(* the damping of Levenberg and Marquardt: lambda times the sum of D_i p_i^2, D_i the larger of 1 and the squared i-th column of the Jacobian *)
Definition column_weight (x : vec) (i : nat) : R := Rmax 1 (rsum n (fun k => jacobian x k i * jacobian x k i)).
Definition damping (x p : vec) (lam : R) : R := / 2 * (lam * rsum n (fun i => column_weight x i * (p i * p i))).
Definition damped_step (eta smallest largest : R) (x y : vec) : Prop :=
  exists p lam, y = vadd x p /\ smallest <= lam <= largest /\
    0 < objective x - (linear_model x p + damping x p lam) /\
    eta * (objective x - (linear_model x p + damping x p lam)) < objective x - objective y.
(* a linear solver that solves *)
Definition solves (A : mat) (b p : vec) : Prop := forall i, (i < n)%nat -> rsum n (fun j => A i j * p j) = b i.
Definition exact_solver (lin : mat -> vec -> option vec) : Prop := forall A b p, lin A b = Some p -> solves A b p.
(* a merit function that agrees with the residuals *)
Definition same_residuals (m : option (vec -> vec)) : Prop := match m with Some g => forall x, g x = residual x | None => True end.
End Spec.
