(* What the pair plots and matrix plots show.
     gEconpy/plotting.py: _prior_validate_params_to_plot l.467-472, _SOLVABILITY_COLORS l.475-481, _SOLVABILITY_META_COLS l.484,
       _solv_prepare_data l.487-508, _solv_plot_diagonal l.511-523, _solv_plot_offdiag l.526-553, _solv_format_axes l.556-570,
       plot_solvability l.573-646, plot_solvability_summary l.649-686, plot_covariance_matrix l.1138-1201, plot_heatmap l.1204-1262,
       annotate_heatmap l.1265-1321, _validate_and_prepare_corner_inputs l.1578-1609, plot_corner l.1680-1785.
   A figure is the table of its panels; a panel is the data drawn in it and its axis labels.
   Simplifications: a value is of an abstract type; the columns other than failure_step are numeric and their names differ;
   [constant] is the answer of var() < 1e-18 on a column; sizes, densities, histograms, legends, titles and styles are omitted;
   the shares of the summary are rational numbers. plt.subplots(0, 0) raises ValueError, plt.subplots(1, 1) gives one Axes and not an
   array; setting labels on a different number of ticks raises ValueError (matplotlib). *)
From Verif Require Import Common.
From Coq Require Import QArith.
Local Open Scope list_scope.
Local Open Scope nat_scope.

Section P.
Variable V : Type.
Variable constant : list V -> bool.
Definition column := (chars * list V)%type.
Record draws := Draws { columns : list column; failure_step : option (list (option chars)) }.
Definition mem (x : chars) (l : list chars) : bool := existsb (chars_eqb x) l.
(* frame[name] *)
Fixpoint col (name : chars) (f : list column) : result (list V) :=
  match f with [] => Err KeyError | (n, v) :: r => if chars_eqb name n then Ok v else col name r end.

(* _SOLVABILITY_COLORS.get(reason, "tab:gray") *)
Definition colour_of (reason : chars) : chars :=
  if chars_eqb reason (str "steady_state") then str "tab:red"
  else if chars_eqb reason (str "perturbation") then str "tab:orange"
  else if chars_eqb reason (str "blanchard-kahn") then str "tab:green"
  else if chars_eqb reason (str "deterministic_norm") then str "tab:purple"
  else if chars_eqb reason (str "stochastic_norm") then str "tab:pink"
  else str "tab:gray".
Definition meta_columns : list chars := [str "failure_step"; str "norm_deterministic"; str "norm_stochastic"].

(* _solv_prepare_data: the columns (without the column "success", which is kept apart), failure_step, success, the parameters *)
Definition prepare (d : draws) : result (list column * list (option chars) * list bool * list chars) :=
  match failure_step d with
  | None => Err KeyError
  | Some failure =>
      let plot_data := filter (fun c => negb (mem (fst c) meta_columns)) (columns d) in
      let plot_data := filter (fun c => negb (constant (snd c))) plot_data in
      let plot_data := filter (fun c => negb (chars_eqb (fst c) (str "success"))) plot_data in
      Ok (plot_data, failure, map (fun r => match r with None => true | Some _ => false end) failure, map fst plot_data)
  end.
(* values[mask] *)
Fixpoint masked {A} (l : list A) (mask : list bool) : list A :=
  match l, mask with x :: l', b :: m' => if b then x :: masked l' m' else masked l' m' | _, _ => [] end.
(* unique(), in the order of appearance *)
Fixpoint unique (l : list chars) (before : list chars) : list chars :=
  match l with [] => [] | x :: r => if mem x before then unique r before else x :: unique r (x :: before) end.

Record layer := Layer { layer_colour : chars; points : list (V * V) }.
Inductive drawing := Hidden | Density (layers : list (chars * list V)) | Scatter (layers : list layer).
Record panel := Panel { drawn : drawing; xlabel : option chars; ylabel : option chars }.

(* _solv_plot_diagonal *)
Definition diagonal (values : list V) (success : list bool) : drawing :=
  Density (concat (map (fun mc => let subset := masked values (fst mc) in if length subset <? 2 then [] else [(snd mc, subset)])
    [(success, str "tab:blue"); (map negb success, str "tab:red")])).
(* _solv_plot_offdiag *)
Definition offdiag (xs ys : list V) (success : list bool) (failure : list (option chars)) : drawing :=
  let bad := map negb success in
  let reasons := concat (map (fun r => match r with Some s => [s] | None => [] end) (masked failure bad)) in
  Scatter (Layer (str "tab:blue") (combine (masked xs success) (masked ys success)) ::
           map (fun reason => let mask := map (chars_eqb reason) reasons in
                              Layer (colour_of reason) (combine (masked (masked xs bad) mask) (masked (masked ys bad) mask)))
               (unique reasons [])).
Fixpoint map_ok {A B} (f : A -> result B) (l : list A) : result (list B) :=
  match l with [] => Ok [] | x :: r => y <- f x ;; t <- map_ok f r ;; Ok (y :: t) end.
(* plot_solvability: the panels row by row *)
Definition solvability_panel (plot_data : list column) (failure : list (option chars)) (success : list bool) (params : list chars) (row c : nat) : result panel :=
  let n := length params in
  if row <? c then Ok (Panel Hidden None None)
  else
    let y_name := nth row params [] in
    let x_name := nth c params [] in
    d <- (if row =? c then v <- col x_name plot_data ;; Ok (diagonal v success)
          else x <- col x_name plot_data ;; y <- col y_name plot_data ;; Ok (offdiag x y success failure)) ;;
    Ok (Panel d (if row =? n - 1 then Some (nth c params []) else None) (if c =? 0 then Some (nth row params []) else None)).
Definition plot_solvability (d : draws) (params_to_plot : option (list chars)) : result (list (list panel)) :=
  p <- prepare d ;;
  let '(plot_data, failure, success, params) := p in
  if negb (forallb (fun x => mem x params) (match params_to_plot with Some l => l | None => [] end)) then Err ValueError
  else
    let params_use := match params_to_plot with Some l => l | None => params end in
    if length params_use =? 0 then Err ValueError
    else map_ok (fun row => map_ok (solvability_panel plot_data failure success params_use row) (seq 0 (length params_use))) (seq 0 (length params_use)).

(* plot_solvability_summary: the bars, each with its label, its left end and its width *)
Definition label_of (r : option chars) : chars := match r with Some s => s | None => str "success" end.
Definition share (labels : list chars) (x : chars) : Q := inject_Z (Z.of_nat (length (filter (chars_eqb x) labels))) / inject_Z (Z.of_nat (length labels)).
Definition summary_labels : list chars :=
  [str "success"; str "steady_state"; str "perturbation"; str "blanchard-kahn"; str "deterministic_norm"; str "stochastic_norm"].
Fixpoint bars (labels : list chars) (left : Q) (todo : list chars) : list (chars * Q * Q) :=
  match todo with
  | [] => []
  | x :: r => let frac := share labels x in if Qeq_bool frac 0 then bars labels left r else (x, left, frac) :: bars labels (left + frac) r
  end.
Definition plot_solvability_summary (d : draws) : result (list (chars * Q * Q)) :=
  match failure_step d with None => Err KeyError | Some failure => Ok (bars (map label_of failure) 0 summary_labels) end.

(* ---- plot_corner ---- *)
(* a panel off the diagonal shows the joint histogram of the two samples and, with colorby, the coloured points *)
Inductive corner_drawing := CHidden | CHist (data : list V) | CJoint (xs ys : list V) (coloured : option (list V)).
Record corner_panel := CPanel { cdrawn : corner_drawing; cxlabel : option chars; cylabel : option chars }.
Definition corner_inputs (data : option (list column)) (var_names : option (list chars)) (colorby : option chars) : result (list chars * option (list V)) :=
  match data with
  | None => Err ValueError
  | Some f =>
      let available := map fst f in
      let names := match var_names with None | Some [] => available | Some l => l end in
      if negb (forallb (fun v => mem v available) names) then Err ValueError
      else match colorby with
           | None => Ok (names, None)
           | Some c => if negb (mem c available) then Err ValueError else v <- col c f ;; Ok (names, Some v)
           end
  end.
Definition corner_panel_of (f : list column) (names : list chars) (colours : option (list V)) (row c : nat) : result corner_panel :=
  if row <? c then Ok (CPanel CHidden None None)
  else if c =? row then v <- col (nth c names []) f ;; Ok (CPanel (CHist v) None None)
  else x <- col (nth c names []) f ;; y <- col (nth row names []) f ;;
       Ok (CPanel (CJoint x y colours) (if row =? length names - 1 then Some (nth c names []) else None) (if c =? 0 then Some (nth row names []) else None)).
Definition plot_corner (data : option (list column)) (var_names : option (list chars)) (colorby : option chars) : result (list (list corner_panel)) :=
  i <- corner_inputs data var_names colorby ;;
  let '(names, colours) := i in
  let k := length names in
  let f := match data with Some f => f | None => [] end in
  match k with
  | 0 => Err ValueError
  | 1 => Err TypeError
  | _ => map_ok (fun row => map_ok (corner_panel_of f names colours row) (seq 0 k)) (seq 0 k)
  end.

(* ---- plot_covariance_matrix ---- *)
Record table := Table { index : list chars; header : list chars; cells : list (list V) }.
Fixpoint position (x : chars) (l : list chars) : result nat :=
  match l with [] => Err KeyError | y :: r => if chars_eqb x y then Ok 0 else i <- position x r ;; Ok (S i) end.
Definition cell (t : table) (i j : nat) : result V :=
  match nth_error (cells t) i with Some r => match nth_error r j with Some v => Ok v | None => Err IndexError end | None => Err IndexError end.
(* data.loc[vars, vars] *)
Definition loc (t : table) (names : list chars) : result table :=
  rows <- map_ok (fun x => position x (index t)) names ;;
  cols <- map_ok (fun x => position x (header t)) names ;;
  c <- map_ok (fun i => map_ok (fun j => cell t i j) cols) rows ;;
  Ok (Table names names c).
(* what is seen: the labels at the positions of the horizontal and the vertical axis, the texts (x, y, value) *)
Record heatmap := Heatmap { xticks : list (nat * chars); yticks : list (nat * chars); texts : list (nat * nat * V) }.
Definition ticks (n : nat) (labels : list chars) : result (list (nat * chars)) :=
  if n =? length labels then Ok (combine (seq 0 n) labels) else Err ValueError.
Definition plot_heatmap (t : table) : result heatmap :=
  let n_rows := length (cells t) in
  let n_columns := length (header t) in
  xs <- ticks n_rows (header t) ;;
  ys <- ticks n_columns (index t) ;;
  tx <- map_ok (fun i => map_ok (fun j => v <- cell t i j ;; Ok (j, i, v)) (seq 0 n_columns)) (seq 0 n_rows) ;;
  Ok (Heatmap xs ys (concat tx)).
Definition plot_covariance_matrix (t : table) (vars_to_plot : option (list chars)) : result heatmap :=
  t' <- loc t (match vars_to_plot with None => header t | Some l => l end) ;; plot_heatmap t'.
End P.
