(* Layout of figures with one panel per variable.
     gEconpy/plotting.py: prepare_gridspec_figure l.46-83, _resolve_list_to_plot l.283-298, _prepare_irf_grid l.320-331,
       plot_irf l.436-463 (which panel each variable gets, which panels show tick labels).
   Simplifications: n_cols and n_plots are natural numbers (a negative n_cols is out of scope); a GridSpec is its number of
   rows and columns (matplotlib refuses a grid without rows or columns: ValueError); a slice is its two ends; everything
   drawn inside a panel is omitted. *)
From Verif Require Import Common.
Local Open Scope list_scope.
Local Open Scope nat_scope.
Definition ZeroDivisionError : exn := GEconError 40.        (* Python's ZeroDivisionError *)

Definition slice := (nat * nat)%type.                        (* start, stop *)
Definition loc := (slice * slice)%type.                      (* rows, columns *)
Record gridspec := GS { g_rows : nat; g_cols : nat }.

Definition product (a b : nat) : list (nat * nat) := flat_map (fun i => map (fun j => (i, j)) (seq 0 b)) (seq 0 a).

Definition prepare_gridspec_figure (n_cols n_plots : nat) : result (gridspec * list loc) :=
  if n_cols =? 0 then Err ZeroDivisionError
  else
    let remainder := n_plots mod n_cols in
    let has_remainder := if 0 <? remainder then 1 else 0 in
    let n_rows := n_plots / n_cols + has_remainder in
    if n_rows =? 0 then Err ValueError
    else
      let plot_locs := map (fun ij => ((fst ij * 2, (fst ij + 1) * 2), (snd ij * 2, (snd ij + 1) * 2))) (product (n_rows - has_remainder) n_cols) in
      let last :=
        if 0 <? remainder then
          let last_row := ((n_rows - 1) * 2, n_rows * 2) in
          let left_pad := n_cols - remainder in
          map (fun j => (last_row, (left_pad + j * 2, left_pad + (j + 1) * 2))) (seq 0 remainder)
        else [] in
      Ok (GS (2 * n_rows) (2 * n_cols), plot_locs ++ last).

(* _prepare_irf_grid: the rows whose panels show tick labels *)
Definition irf_grid (n_plots : nat) (n_cols : option nat) : result (list loc * list nat * list nat) :=
  let n_cols := match n_cols with None => Nat.min 4 n_plots | Some c => c end in
  r <- prepare_gridspec_figure n_cols n_plots ;;
  let plot_locs := snd r in
  let row_idxs := map (fun l : loc => snd (fst l) / 2 - 1) plot_locs in
  (* sorted(set(...)): the row numbers that occur, ascending *)
  let rows := filter (fun i => existsb (Nat.eqb i) row_idxs) (seq 0 (g_rows (fst r))) in
  let is_square := forallb (fun i => count_occ Nat.eq_dec row_idxs i =? n_cols) rows in
  match rev rows with
  | [] => Err IndexError
  | last :: before => Ok (plot_locs, row_idxs, if is_square then [last] else match before with [] => [last] | b :: _ => [b; last] end)
  end.

(* _resolve_list_to_plot: None, a single name, or a list of names *)
Inductive request := Everything | One (v : chars) | Several (l : list chars) | Other (* neither str nor list *).
Definition resolve (value : request) (available : list chars) : result (list chars) :=
  match value with
  | Everything => Ok available
  | Other => Err TypeError
  | One v => if existsb (chars_eqb v) available then Ok [v] else Err ValueError
  | Several l => if forallb (fun v => existsb (chars_eqb v) available) l then Ok l else Err ValueError
  end.

(* plot_irf: the panels, as (variable, place, show tick labels) *)
Definition plot_irf (value : request) (variables : list chars) (n_cols : option nat) : result (list (chars * loc * bool)) :=
  vs <- resolve value variables ;;
  r <- irf_grid (length vs) n_cols ;;
  let '(locs, rows, last_rows) := r in
  Ok (map (fun x => (fst x, fst (snd x), existsb (Nat.eqb (snd (snd x))) last_rows)) (combine vs (combine locs rows))).
