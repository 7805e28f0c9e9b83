(* Low-frequency data on a high-frequency index.
   gEconpy/model/statespace.py l.1432-1505 (prepare_mixed_frequency_data) *)
From Coq Require Import ZArith List Bool Lia.
From Verif Require Import Common.
Import ListNotations.
Local Open Scope Z_scope.

Section Mix.
Variable V : Type.
(* the calendar of a pandas frequency: its dates in order, and the number of the first of them that is not before a date *)
Variables (tick : Z -> Z) (roll : Z -> Z).
(* a cell is a value or NaN; a date is a day or NaT *)
Definition cell := option V.
Definition row := (option Z * list cell)%type.
Record frame := Frame { columns : list chars; rows : list row }.

(* low_freq_data.index.min(), l.1480: NaT is skipped, and is the answer when there is nothing else *)
Definition index_min (rs : list row) : option Z :=
  fold_left (fun acc r => match acc, fst r with
                          | None, d => d
                          | Some a, None => Some a
                          | Some a, Some d => Some (Z.min a d)
                          end) rs None.
(* pd.date_range(start, periods, freq), l.1481 *)
Definition date_range (start : option Z) (periods : nat) : result (list Z) :=
  match start with
  | None => Err ValueError
  | Some s => Ok (map (fun i => tick (roll s + Z.of_nat i)) (seq 0 periods))
  end.
(* hf_index >= lf_date, l.1487: nothing is after NaT *)
Definition not_before (lf_date : option Z) (d : Z) : bool := match lf_date with None => false | Some x => x <=? d end.
(* x[i] of a sequence, with Python's negative indices *)
Definition py_index {A} (l : list A) (i : Z) : result A :=
  let j := if i <? 0 then i + Z.of_nat (length l) else i in
  if j <? 0 then Err IndexError
  else match nth_error l (Z.to_nat j) with Some x => Ok x | None => Err IndexError end.
(* result.loc[label] = row, l.1492: every row of that label *)
Definition set_row (table : list (Z * list cell)) (label : Z) (values : list cell) : list (Z * list cell) :=
  map (fun r => if fst r =? label then (fst r, values) else r) table.
(* the loop, l.1485-1492 *)
Definition place_row (hf : list Z) (period : nat) (pos : Z) (table : list (Z * list cell)) (r : row) : result (list (Z * list cell)) :=
  let window := firstn period (filter (not_before (fst r)) hf) in
  if Z.of_nat (length window) <=? pos then Ok table
  else label <- py_index window pos ;; Ok (set_row table label (snd r)).
Fixpoint place_rows (hf : list Z) (period : nat) (pos : Z) (rs : list row) (table : list (Z * list cell)) : result (list (Z * list cell)) :=
  match rs with
  | [] => Ok table
  | r :: rest => t <- place_row hf period pos table r ;; place_rows hf period pos rest t
  end.
(* result.last_valid_index(), l.1495: the label of the last row with a value in some column *)
Definition has_value (r : Z * list cell) : bool := existsb (fun c => match c with Some _ => true | None => false end) (snd r).
Definition last_valid_index (table : list (Z * list cell)) : option Z :=
  match rev (filter has_value table) with [] => None | r :: _ => Some (fst r) end.
(* result.loc[:label], l.1497: the index is increasing *)
Definition loc_upto (table : list (Z * list cell)) (label : Z) : list (Z * list cell) := filter (fun r => fst r <=? label) table.
(* the whole function; the aggregation period is a number that is not negative; the freq attribute of the index is not modelled *)
Definition prepare_mixed_frequency_data (data : frame) (period : nat) (observation_position : chars) : result (list (Z * list cell)) :=
  let pos := if chars_eqb observation_position (str "first") then 0 else Z.of_nat period - 1 in
  hf <- date_range (index_min (rows data)) (length (rows data) * period) ;;
  let blank := map (fun d => (d, repeat None (length (columns data)))) hf in
  t <- place_rows hf period pos (rows data) blank ;;
  match last_valid_index t with Some l => Ok (loc_upto t l) | None => Ok t end.
End Mix.
