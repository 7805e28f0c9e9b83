(* What the sensitivity of an eigenvalue to a parameter is, without reference to how it is computed. *)
From Verif Require Import Common SymDict_Model Lin_Model Sens_Model.
From Coq Require Import Reals.
Local Open Scope list_scope.
Local Open Scope R_scope.

Fixpoint total {A} (f : A -> R) (l : list A) : R := match l with [] => 0 | x :: t => f x + total f t end.

Inductive part := Re | Im.
Definition take (p : part) (z : R * R) : R := match p with Re => fst z | Im => snd z end.

(* reading a dataset: .eigenvalues[k, part] and .gradients.sel(eigenvalue=k, part=part, parameter=n) *)
Definition eigenvalue (ds : dataset) (k : nat) (p : part) : R := take p (fst (nth k (d_eigenvalues ds) (0, 0, 0))).
Definition row (ds : dataset) (k : nat) (p : part) : list R :=
  let g := nth k (d_gradients ds) ([], []) in match p with Re => fst g | Im => snd g end.
Definition gradient (ds : dataset) (k : nat) (p : part) (n : chars) : R :=
  match find (fun kv => chars_eqb n (fst kv)) (combine (d_params ds) (row ds k p)) with Some kv => snd kv | None => 0 end.

(* what the model's own methods return for these parameter values *)
Definition param_of (m : sens_model) (updates : list (chars * R)) (n : chars) : R :=
  match parameters m updates with Ok ps => rval ps n | Err _ => 0 end.
Definition steady_of (m : sens_model) (updates : list (chars * R)) (v : chars) : R :=
  match parameters m updates with
  | Ok ps => match s_solve m ps with Ok ss => rval (strip_keys ss) v | Err _ => 0 end
  | Err _ => 0
  end.
Definition values (m : sens_model) (updates : list (chars * R)) : env :=
  fun n => match n with NSS v => steady_of m updates v | NPar q => param_of m updates q end.

(* the k-th eigenvalue of the linear system as a function of all the numbers in it *)
Definition eig (m : sens_model) (k : nat) (p : part) (e : env) : R := take p (nth k (eigenvalues_at m e) (0, 0)).
Definition inputs (m : sens_model) : list node := map NSS (s_vars m) ++ map NPar (s_nodes m).
Definition change (e : env) (n : node) (x : R) : env := fun n' => if node_eqb n' n then x else e n'.

(* F is differentiable at e, jointly in the inputs l, with partial derivatives g *)
Definition differentiable (F : env -> R) (l : list node) (e : env) (g : node -> R) : Prop :=
  forall eps, 0 < eps -> exists delta, 0 < delta /\
    forall e', (forall n, In n l -> Rabs (e' n - e n) < delta) ->
      Rabs (F e' - F e - total (fun n => g n * (e' n - e n)) l) <= eps * total (fun n => Rabs (e' n - e n)) l.

(* pytensor differentiates: where the k-th eigenvalue has a partial derivative in a parameter, it is what is returned *)
Definition differentiates (m : sens_model) : Prop :=
  forall e k n d,
    (derivable_pt_lim (fun x => eig m k Re (change e (NPar n) x)) (e (NPar n)) d -> s_jac_re m e k n = d) /\
    (derivable_pt_lim (fun x => eig m k Im (change e (NPar n) x)) (e (NPar n)) d -> s_jac_im m e k n = d).

(* the call with parameter q set to x on top of the other updates *)
Definition with_param (updates : list (chars * R)) (q : chars) (x : R) : list (chars * R) := dset chars_eqb q x updates.
