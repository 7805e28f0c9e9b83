(* What an eigenvalue-sensitivity plot shows.
     gEconpy/plotting.py: _compute_axis_limits l.786-831, _filter_eigenvalues l.949-978, _validate_params_to_plot l.981-992.
   Simplifications: floating-point numbers are real numbers (no inf or nan); a dataset is the list of its eigenvalues with
   the gradient rows, in order; the coordinate 'eigenvalue' is 0, 1, 2, ... as eigenvalue_sensitivity makes it (l.338), so
   that selecting by label is selecting by position. *)
From Verif Require Import Common Sens_Model.
From Coq Require Import Reals.
Local Open Scope list_scope.
Local Open Scope R_scope.

Record erow := ER { e_label : nat; e_re : R; e_im : R; e_mod : R; e_grad : list R * list R }.
Definition rows_of (ds : dataset) : list erow :=
  map (fun x => ER (fst x) (fst (fst (fst (snd x)))) (snd (fst (fst (snd x)))) (snd (fst (snd x))) (snd (snd x)))
      (combine (seq 0 (length (d_eigenvalues ds))) (combine (d_eigenvalues ds) (d_gradients ds))).

Definition Rltb (a b : R) : bool := if Rlt_dec a b then true else false.
Fixpoint maximum (x : R) (l : list R) : R := match l with [] => x | y :: t => Rmax x (maximum y t) end.
Fixpoint minimum (x : R) (l : list R) : R := match l with [] => x | y :: t => Rmin x (minimum y t) end.

Definition default_inf_tol (mods : list R) : R :=
  match filter (fun x => Rltb x (10 ^ 6)) mods with
  | [] => 10 ^ 6
  | x :: t => Rmax (10 * maximum x t) 10
  end.
Definition keep (filter_zeros filter_infinite : bool) (zero_tol inf_tol : R) (r : erow) : bool :=
  ((negb filter_zeros || Rltb zero_tol (e_mod r)) && (negb filter_infinite || Rltb (e_mod r) inf_tol))%bool.
(* the three arrays, the selected dataset (by label) and the number left out *)
Definition filter_eigenvalues (rows : list erow) (filter_zeros filter_infinite : bool) (zero_tol : R) (inf_tol : option R)
  : list R * list R * list R * list erow * nat :=
  let tol := match inf_tol with Some t => t | None => default_inf_tol (map e_mod rows) end in
  let mask := map (keep filter_zeros filter_infinite zero_tol tol) rows in
  let sel {A} (l : list A) := map fst (filter snd (combine l mask)) in
  let valid := sel (map e_label rows) in
  let chosen := flat_map (fun i => match find (fun r => Nat.eqb (e_label r) i) rows with Some r => [r] | None => [] end) valid in
  (sel (map e_re rows), sel (map e_im rows), sel (map e_mod rows), chosen, (length rows - length (filter (fun b => b) mask))%nat).

Definition axis_limits (re im : list R) : (R * R) * (R * R) * R :=
  match re, im with
  | r :: rs, i :: is =>
      let re_min := minimum r rs in let re_max := maximum r rs in
      let im_min := minimum i is in let im_max := maximum i is in
      let re_range := Rmax (re_max - re_min) (/ 10) in
      let im_range := Rmax (im_max - im_min) (/ 10) in
      let pad_re := re_range * (3 / 10) in
      let pad_im := im_range * (3 / 10) in
      let xlim := (re_min - pad_re, re_max + pad_re) in
      let ylim := (im_min - pad_im, im_max + pad_im) in
      let x_center := (fst xlim + snd xlim) / 2 in
      let y_center := (fst ylim + snd ylim) / 2 in
      let half_range := Rmax (snd xlim - fst xlim) (snd ylim - fst ylim) / 2 in
      ((x_center - half_range, x_center + half_range), (y_center - half_range, y_center + half_range), half_range)
  | _, _ => ((- (3 / 2), 3 / 2), (- (3 / 2), 3 / 2), 3 / 2)
  end.
