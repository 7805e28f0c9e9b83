(* What impulse responses, simulations and time series look like when they are drawn.
     gEconpy/plotting.py: _plot_single_variable l.94-146, plot_timeseries l.149-199, plot_simulation l.202-267, _irf_to_mapping l.270-280,
       _resolve_vars_and_shocks l.301-317, _plot_irf_panel l.335-370, _add_shocks_legend l.372-391, plot_irf l.436-463.
   Places and requests are those of Fig_Model.v.
   Simplifications: the series of a variable is abstract; colours are positions in the cycle, which set_axis_cmap starts anew for each
   scenario; line styles are their position in the list of markers; sizes, grids and date formats are left out; an array's shocks, if it
   has any, are a dimension. *)
From Verif Require Import Common Panel_Model Fig_Model Plots_Model.
From Coq Require Import QArith.
Local Open Scope list_scope.
Local Open Scope nat_scope.

(* an array of responses: its variables, its shocks if it has that dimension, the series of a variable (to a shock) *)
Record array V := Arr { a_variables : list chars; a_shocks : option (list chars); series : chars -> option chars -> V }.
Arguments Arr {V}. Arguments a_variables {V}. Arguments a_shocks {V}. Arguments series {V}.
Inductive irf V := Single (a : array V) | Listed (l : list (array V)) | Named (d : list (chars * array V)) | OtherType.
Arguments Single {V}. Arguments Listed {V}. Arguments Named {V}. Arguments OtherType {V}.
(* _irf_to_mapping *)
Definition irf_to_mapping {V} (x : irf V) : result (list (chars * array V)) :=
  match x with
  | Single a => Ok [([], a)]
  | Listed l => Ok (combine (map (fun i => str "Scenario " ++ dec (N.of_nat i)) (seq 0 (length l))) l)
  | Named d => Ok d
  | OtherType => Err ValueError
  end.
(* _resolve_vars_and_shocks: by the first scenario *)
Definition resolve_vars_and_shocks {V} (m : list (chars * array V)) (vars shocks : request) : result (list chars * option (list chars)) :=
  match m with
  | [] => Err StopIteration
  | (_, a) :: _ =>
      vs <- resolve vars (a_variables a) ;;
      match a_shocks a with None => Ok (vs, None) | Some available => ss <- resolve shocks available ;; Ok (vs, Some ss) end
  end.

Record line V := Line { colour : nat; style : nat; drawn : V; label : option chars }.
Arguments Line {V}. Arguments colour {V}. Arguments style {V}. Arguments drawn {V}. Arguments label {V}.
Definition n_markers := 4.
(* irf_data.sel(variable=..., shock=[...]) and the lines drawn of it: one for each shock that is left, or a single one *)
Definition selected {V} (a : array V) (variable : chars) (shocks : option (list chars)) : result (option (list chars)) :=
  if negb (mem variable (a_variables a)) then Err KeyError
  else match shocks, a_shocks a with
       | None, own => Ok own
       | Some _, None => Err KeyError
       | Some ss, Some own => if forallb (fun s => mem s own) ss then Ok (Some ss) else Err KeyError
       end.
(* line.set_label(shock) for the lines of the axis and the shocks, in parallel *)
Fixpoint relabel {V} (ls : list (line V)) (shocks : list chars) : list (line V) :=
  match ls, shocks with
  | l :: r, s :: t => Line (colour l) (style l) (drawn l) (Some s) :: relabel r t
  | _, _ => ls
  end.
(* _plot_single_variable without an interval, on an axis that has lines already *)
Definition plot_single {V} (a : array V) (variable : chars) (shocks : option (list chars)) (sty : nat) (before_it : list (line V)) : result (list (line V)) :=
  own <- selected a variable shocks ;;
  Ok (match own with
      | None => before_it ++ [Line 0 sty (series a variable None) None]
      | Some ss => relabel (before_it ++ map (fun js => Line (fst js) sty (series a variable (Some (snd js))) None) (combine (seq 0 (length ss)) ss)) ss
      end).
(* _plot_irf_panel: the loop over the scenarios, numbered from [i] *)
Fixpoint panel_lines {V} (m : list (chars * array V)) (i : nat) (variable : chars) (shocks : option (list chars)) (ls : list (line V)) : result (list (line V)) :=
  match m with
  | [] => Ok ls
  | (_, a) :: r => ls' <- plot_single a variable shocks (i mod n_markers) ls ;; panel_lines r (S i) variable shocks ls'
  end.
Record irf_panel V := IrfPanel { p_title : chars; p_place : loc; p_ticks : bool; p_lines : list (line V); p_scenarios : list (chars * nat) }.
Arguments IrfPanel {V}. Arguments p_title {V}. Arguments p_place {V}. Arguments p_ticks {V}. Arguments p_lines {V}. Arguments p_scenarios {V}.
(* the legend of the scenarios: name and line style *)
Definition scenario_legend {V} (m : list (chars * array V)) (first_panel : bool) : list (chars * nat) :=
  match m with
  | (n, _) :: _ :: _ => if first_panel && negb (chars_eqb n []) then combine (map fst m) (map (fun i => i mod n_markers) (seq 0 (length m))) else []
  | _ => []
  end.
(* the figure's panels and the legend of the shocks: text and line *)
Definition draw_irf {V} (x : irf V) (vars shocks : request) (n_cols : option nat) (legend : bool) : result (list (irf_panel V) * list (chars * line V)) :=
  m <- irf_to_mapping x ;;
  vs <- resolve_vars_and_shocks m vars shocks ;;
  r <- irf_grid (length (fst vs)) n_cols ;;
  let '(locs, rows, last_rows) := r in
  panels <- map_ok (fun iv : nat * (chars * (loc * nat)) =>
      let '(i, (v, (place, row))) := iv in
      ls <- panel_lines m 0 v (snd vs) [] ;;
      Ok (IrfPanel v place (existsb (Nat.eqb row) last_rows) ls (scenario_legend m (i =? 0))))
    (combine (seq 0 (length (fst vs))) (combine (fst vs) (combine locs rows))) ;;
  let handles := match panels with p :: _ => p_lines p | [] => [] end in
  Ok (panels, match snd vs with Some ss => if legend then combine ss (firstn (length ss) handles) else [] | None => [] end).

(* ---- plot_timeseries ---- *)
(* what is given for vars_to_plot: nothing, a list, or a text, which Python walks through by characters *)
Inductive names := Default | These (l : list chars) | Text (s : chars).
Definition listed (n : names) (all : list chars) : list chars := match n with Default => all | These l => l | Text s => map (fun c => [c]) s end.
Definition plot_timeseries {V} (df : list (chars * V)) (vars : names) (n_cols : option nat) : result (list (chars * loc * V)) :=
  let n_cols := match n_cols with Some c => c | None => Nat.min 4 (length df) end in
  let vs := listed vars (map fst df) in
  g <- prepare_gridspec_figure n_cols (length vs) ;;
  map_ok (fun vl => d <- lookup (fst vl) df ;; Ok (vl, d)) (combine vs (snd g)).

(* ---- plot_simulation ---- *)
(* a panel: the mean and the ends of the interval, or the lines as they are *)
Inductive drawing V := Lines (v : V) | Band (v : V) (q_low q_high : Q).
Arguments Lines {V}. Arguments Band {V}.
Definition plot_simulation {V} (simulation : list (chars * V)) (vars : names) (ci : option Q) (n_cols : option nat) : result (list (chars * loc * drawing V)) :=
  let vs := listed vars (map fst simulation) in
  let n_cols := match n_cols with Some c => c | None => Nat.min 4 (length vs) end in
  g <- prepare_gridspec_figure n_cols (length vs) ;;
  map_ok (fun vl =>
      match lookup (fst vl) simulation with
      | Err _ => Err ValueError
      | Ok d => Ok (vl, match ci with None => Lines d | Some c => Band d ((1 - c) / 2) (1 - (1 - c) / 2) end)
      end) (combine vs (snd g)).
