(* What the remaining figures show.
     gEconpy/plotting.py: plot_eigenvalues l.689-783, _draw_eigenvalue_panel l.834-946, _validate_params_to_plot l.981-992,
       plot_eigenvalue_sensitivity l.995-1135, _collect_acf_diagonals l.1355-1369, _draw_acf_panel l.1375-1424,
       _add_acf_legend l.1427-1452, plot_acf l.1455-1575, plot_kalman_filter l.1788-1873, plot_priors l.1876-1928,
       plot_estimated_matrix l.1979-2015.
   A figure is the list of its panels with their places (Fig_Model.v); a panel is the data drawn in it and its texts.
   Simplifications: sizes, styles and colours that do not depend on the data are omitted, except for the default height of the
   priors' figure; real numbers instead of floats; an infinite modulus is a case of its own, nan is left out; means, intervals and
   densities are abstract. *)
From Verif Require Import Common Panel_Model Fig_Model Cls_Model Sens_Model Eplot_Model.
From Coq Require Import Reals QArith.
Local Open Scope list_scope.
Local Open Scope nat_scope.
Definition StopIteration : exn := GEconError 63.

(* ---- dictionaries ---- *)
(* d[k] *)
Fixpoint lookup {A} (k : chars) (d : list (chars * A)) : result A :=
  match d with [] => Err KeyError | (n, v) :: r => if chars_eqb k n then Ok v else lookup k r end.
(* d[k] = v *)
Fixpoint put {A} (k : chars) (v : A) (d : list (chars * A)) : list (chars * A) :=
  match d with [] => [(k, v)] | (n, w) :: r => if chars_eqb k n then (n, v) :: r else (n, w) :: put k v r end.
(* d | e, d.update(e) *)
Definition union {A} (d e : list (chars * A)) : list (chars * A) := fold_left (fun d kv => put (fst kv) (snd kv) d) e d.

(* ---- plot_eigenvalues ---- *)
Inductive size := Finite (m : R) | Infinite.
Record eigenvalue := Eig { eig_size : size; eig_real : R; eig_imag : R }.
Definition Rgtb (a b : R) : bool := if Rlt_dec b a then true else false.
Definition size_gt (s : size) (b : R) : bool := match s with Finite m => Rgtb m b | Infinite => true end.
Definition size_lt (s : size) (b : R) : bool := match s with Finite m => Rgtb b m | Infinite => false end.
Record eig_figure := EigFigure { dots : list (R * R * chars); not_shown : nat }.
(* [check]: check_bk_condition(model, **kwargs), a table or an error.  The second result is the caller's dictionary afterwards. *)
Definition plot_eigenvalues {V} (check : list (chars * V) -> result (list eigenvalue)) (kwargs : option (list (chars * V))) (updates : list (chars * V))
  : result eig_figure * option (list (chars * V)) :=
  let passed := union (match kwargs with None => [] | Some d => d end) updates in
  (data <- check passed ;;
   let n_infinity := length (filter (fun x => size_gt (eig_size x) 10) data) in
   let data := filter (fun x => size_lt (eig_size x) 10) data in
   Ok (EigFigure (map (fun x => (eig_real x, eig_imag x, if size_gt (eig_size x) 1 then str "tab:red" else str "tab:blue")) data) n_infinity),
   match kwargs with None => None | Some _ => Some passed end).

(* ---- plot_eigenvalue_sensitivity ---- *)
Record sens_panel := SensPanel {
  s_param : chars; s_place : loc; s_stable : list (R * R); s_unstable : list (R * R);
  s_arrows : list ((R * R) * (R * R));                 (* from, to *)
  s_value : R; s_perturbed : R; s_xlim : R * R; s_ylim : R * R; s_legend : bool }.
Definition gradient (r : erow) (idx : nat) : R * R := (nth idx (fst (e_grad r)) 0%R, nth idx (snd (e_grad r)) 0%R).
Definition magnitude (g : R * R) : R := sqrt (fst g ^ 2 + snd g ^ 2).
(* _draw_eigenvalue_panel; the points, moduli and gradients come in four arrays *)
Definition draw_panel (re im md : list R) (grads : list (R * R)) (param : chars) (place : loc) (value perturbation : R) (xlim ylim : R * R)
  (legend : bool) (min_arrow_frac : R) : sens_panel :=
  let pts := combine (combine re im) md in
  let stable_mask x := negb (Rgtb (snd x) 1) in
  let delta_p := (value * perturbation)%R in
  let mags := map magnitude grads in
  let max_grad := match mags with [] => 1%R | x :: t => if Rgtb (maximum x t) (/ 10 ^ 12) then maximum x t else 1%R end in
  let threshold := (max_grad * min_arrow_frac)%R in
  SensPanel param place (map fst (filter stable_mask pts)) (map fst (filter (fun x => negb (stable_mask x)) pts))
    (flat_map (fun x => let '((r, i), g) := x in
                 if Rgtb (magnitude g) threshold then [((r, i), (r + fst g * delta_p, i + snd g * delta_p)%R)] else [])
              (combine (combine re im) grads))
    value (value * (1 + perturbation)) xlim ylim legend.
Definition validate (requested : option (list chars)) (all_params : list chars) : result (list chars) :=
  match requested with
  | None => Ok all_params
  | Some l => if forallb (fun p => mem p all_params) l then Ok l else Err ValueError
  end.
Record options := Opt { o_perturbation : R; o_zeros : bool; o_infinite : bool; o_zero_tol : R; o_inf_tol : option R; o_min_arrow : R; o_n_cols : option nat }.
(* [updates] are the keyword arguments that set parameters; the panels and the number of eigenvalues left out *)
Definition plot_eigenvalue_sensitivity (m : sens_model) (data : option dataset) (requested : option (list chars)) (o : options)
  (steady_state : option (list (chars * R))) (updates : list (chars * R)) : result (list sens_panel * nat) :=
  ds <- match data with Some d => Ok d | None => eigenvalue_sensitivity m steady_state updates end ;;
  let '(re, im, md, filtered, n_filtered) := filter_eigenvalues (rows_of ds) (o_zeros o) (o_infinite o) (o_zero_tol o) (o_inf_tol o) in
  let all_params := d_params ds in
  params <- validate requested all_params ;;
  let n_params := length params in
  if n_params =? 0 then Err ValueError
  else
    let n_cols := match o_n_cols o with None | Some 0 => Nat.min 4 n_params | Some c => c end in
    g <- prepare_gridspec_figure n_cols n_params ;;
    let '(xlim, ylim, _) := axis_limits re im in
    let own := filter (fun kv => mem (fst kv) (map fst (s_defaults m))) updates in
    values <- parameters m own ;;
    panels <- map_ok (fun x => let '((param, place), idx) := x in
        i <- position param all_params ;;
        let value := match lookup param values with Ok v => v | Err _ => 1%R end in
        Ok (draw_panel re im md (map (fun r => gradient r i) filtered) param place value (o_perturbation o) xlim ylim (idx =? 0) (o_min_arrow o)))
      (combine (combine params (snd g)) (seq 0 n_params)) ;;
    Ok (panels, n_filtered).

(* ---- plot_acf ---- *)
Section Acf.
Variable V : Type.                                    (* what is known of a variable at a lag: a number, or a sample of numbers *)
(* an autocorrelation tensor: the names of its dimensions, the variables along the first of its two variable dimensions, its lags, and
   on its diagonal the values of each variable, one per lag.  xarray_einstats' diagonal keeps the first of the two dimensions. *)
Record tensor := Tensor { t_dims : list chars; t_variables : list chars; t_lags : list Q; t_own : chars -> list V }.
Record reference := Reference { r_dims : list chars; r_variables : list chars; r_lags : list Q; r_own : chars -> list V }.
(* one series drawn in a panel: which model (its number), with intervals or not, positions and values; or the reference *)
Inductive drawn_series := Forest (model : nat) (at_ : list Q) (values : list V) | Stem (model : nat) (at_ : list Q) (values : list V) | Data (at_ : list Q) (values : list V).
Record acf_panel := AcfPanel { a_variable : chars; a_place : loc; a_series : list drawn_series }.

(* _collect_acf_diagonals: the present sample dimensions of each model, its variable dimension, and the last one's *)
Definition collect (sample_dims : list chars) (models : list (chars * tensor)) : result (list (chars * tensor * list chars * chars) * option chars) :=
  l <- map_ok (fun lt => let t := snd lt in
        let present := filter (fun d => mem d (t_dims t)) sample_dims in
        let var_dims := filter (fun d => negb (chars_eqb d (str "lag")) && negb (mem d present)) (t_dims t) in
        match var_dims with
        | [v; _] => Ok (fst lt, t, present, v)
        | _ => Err ValueError
        end) models ;;
  Ok (l, match rev l with [] => None | (_, _, _, v) :: _ => Some v end).
(* diagonal.coords[var_dim].values *)
Definition coords_of (d : chars * tensor * list chars * chars) (var_dim : chars) : result (list chars) :=
  let '(_, t, _, own) := d in if chars_eqb var_dim own then Ok (t_variables t) else Err KeyError.
(* scatter and vlines refuse positions and values of different lengths *)
Definition plotted (at_ : list Q) (values : list V) (s : drawn_series) : result (list drawn_series) :=
  if length at_ =? length values then Ok [s] else Err ValueError.
Definition shift (lags : list Q) (offset : Q) : list Q := map (fun x => (x + offset)%Q) lags.
Definition draw_model (var_dim variable : chars) (lags : list Q) (x : (chars * tensor * list chars * chars) * (Q * nat)) : result (list drawn_series) :=
  let '(d, (offset, i)) := x in
  names <- coords_of d var_dim ;;
  if negb (mem variable names) then Ok []
  else
    let '(_, t, present, _) := d in
    let series := t_own t variable in
    match present with
    | _ :: _ => plotted (shift lags offset) series (Forest i (shift lags offset) series)
    | [] => plotted (shift lags offset) series (Stem i (shift lags offset) series)
    end.
(* np.arange(n) - (n - 1) / 2, times dodge *)
Definition offset_of (n : nat) (dodge : Q) (i : nat) : Q :=
  ((inject_Z (Z.of_nat i) - (inject_Z (Z.of_nat n) - 1) / 2) * (if (1 <? n)%nat then dodge else 0))%Q.
Definition reference_series (r : option reference) (variable : chars) : result (list drawn_series) :=
  match r with
  | None => Ok []
  | Some r =>
      match filter (fun d => negb (chars_eqb d (str "lag"))) (r_dims r) with
      | [] => Ok []
      | _ :: _ => if mem variable (r_variables r) then plotted (r_lags r) (r_own r variable) (Data (r_lags r) (r_own r variable)) else Ok []
      end
  end.
Definition acf_legend (models : list (chars * tensor)) (r : option reference) : list chars :=
  (if (1 <? length models)%nat then map fst models else []) ++ match r with None => [] | Some _ => [str "data"] end.
Definition plot_acf (models : list (chars * tensor)) (vars_to_plot : option (list chars)) (sample_dims : list chars) (r : option reference) (dodge : Q) (n_cols : nat)
  : result (list acf_panel * list chars) :=
  c <- collect sample_dims models ;;
  match fst c, snd c with
  | first :: _, Some var_dim =>
      all_variables <- coords_of first var_dim ;;
      vars <- match vars_to_plot with None => Ok all_variables | Some l => if forallb (fun v => mem v all_variables) l then Ok l else Err ValueError end ;;
      let n_plots := length vars in
      let n_cols := Nat.min n_cols n_plots in
      g <- prepare_gridspec_figure n_cols n_plots ;;
      let lags := let '(_, t, _, _) := first in t_lags t in
      let n := length models in
      panels <- map_ok (fun vp =>
          s <- map_ok (draw_model var_dim (fst vp) lags) (combine (fst c) (map (fun i => (offset_of n dodge i, i)) (seq 0 n))) ;;
          d <- reference_series r (fst vp) ;;
          Ok (AcfPanel (fst vp) (snd vp) (concat s ++ d))) (combine vars (snd g)) ;;
      Ok (panels, acf_legend models r)
  | _, _ => Err StopIteration
  end.
End Acf.

(* ---- plot_kalman_filter ---- *)
Section Kalman.
Variables S N : Type.                                 (* the draws of a state; a number of the data *)
Record kalman_tree := Tree {
  k_states : list chars; k_observed : list chars;     (* the coordinates state and observed_state *)
  k_time : nat;                                       (* the number of periods *)
  k_groups : list (chars * list (chars * S)) }.       (* each output: the draws of each state *)
Record kalman_panel := KalmanPanel { k_variable : chars; k_place : loc; k_draws : S (* its mean and its 95% band are drawn *); k_data : option (list N) }.
Definition output_name (kalman_output group : chars) (observed : bool) : chars :=
  if observed then kalman_output ++ str "_" ++ group ++ str "_observed" else kalman_output ++ str "_" ++ group.
(* the names in vars_to_plot differ *)
Definition plot_kalman_filter (t : kalman_tree) (data : list (chars * list N)) (kalman_output group : chars) (n_cols : option nat) (vars_to_plot : option (list chars)) (observed : bool)
  : result (list kalman_panel) :=
  if negb (mem (lower kalman_output) [str "filtered"; str "predicted"; str "smoothed"]) then Err ValueError
  else
    let vars := match vars_to_plot with Some l => l | None => if observed then k_observed t else k_states t end in
    let n_plots := length vars in
    let n_cols := match n_cols with None => Nat.min 4 n_plots | Some c => c end in
    g <- prepare_gridspec_figure n_cols n_plots ;;
    out <- lookup (output_name kalman_output group observed) (k_groups t) ;;
    draws <- map_ok (fun v => lookup v out) vars ;;
    map_ok (fun x => let '((v, place), s) := x in
        match lookup v data with
        | Err _ => Ok (KalmanPanel v place s None)
        | Ok d => if length d =? k_time t then Ok (KalmanPanel v place s (Some d)) else Err ValueError
        end) (combine (combine vars (snd g)) draws).
End Kalman.

(* ---- plot_priors ---- *)
Section Priors.
Variables P N : Type.                                 (* a prior; a number *)
Variable is_zero : N -> bool.
Record prior_panel := PriorPanel { p_name : chars; p_prior : P; p_place : loc; p_mark : option N }.
(* [hyper]: the priors of the shocks' parameters under their hyper names, in order; [values]: the parameters' values.
   The result is the panels and, when no size is given, the height of the figure. *)
Definition plot_priors (priors hyper : list (chars * P)) (values : list (chars * N)) (var_names : option (list chars)) (n_cols : nat) (mark : bool)
  : result (list prior_panel * nat) :=
  let pz_priors := union priors (union [] hyper) in
  let names := match var_names with None => map fst pz_priors | Some l => l end in
  chosen <- map_ok (fun k => v <- lookup k pz_priors ;; Ok (k, v)) names ;;
  let n_params := length (union [] chosen) in
  if n_cols =? 0 then Err ZeroDivisionError
  else
    let n_rows := n_params / n_cols in
    g <- prepare_gridspec_figure n_cols n_params ;;
    Ok (map (fun x => let '((name, prior), place) := x in
               PriorPanel name prior place (match lookup name values with Ok v => if mark && negb (is_zero v) then Some v else None | Err _ => None end))
            (combine pz_priors (snd g)), 2 * n_rows).
End Priors.

(* ---- plot_estimated_matrix ---- *)
Section Matrix.
Variable N : Type.                                    (* an entry: the mean and the interval of its draws *)
Variable short : chars -> chars.                      (* .replace("epsilon_", "") *)
Inductive matrix_panel := MHidden | MShown (entry : N) (ylab xlab : chars).
Definition at_index {A} (l : list A) (i : nat) : result A := match nth_error l i with Some x => Ok x | None => Err IndexError end.
Definition plot_estimated_matrix (n_shocks : nat) (shocks : list chars) (entries : list (list N)) (symmetrical : bool) : result (list (list matrix_panel)) :=
  if n_shocks =? 0 then Err ValueError
  else map_ok (fun i => map_ok (fun j =>
         if (i <=? j) && symmetrical then Ok MHidden
         else
           y <- at_index shocks i ;; x <- at_index shocks j ;;
           row <- at_index entries i ;; e <- at_index row j ;;
           Ok (MShown e (if j =? 0 then short y else []) (if i =? n_shocks - 1 then short x else []))) (seq 0 n_shocks)) (seq 0 n_shocks).
End Matrix.
