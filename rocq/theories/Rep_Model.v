(* The report logged after a model file has been read, and its warning.
     gEconpy/model/build.py: _format_ss_var_list l.716-739, _pluralize l.742-747, build_report l.750-853.
   Symbols are represented by the names the report prints.  A list argument that is None is the empty list (the code treats the
   two alike: every test is a truth test or a length). *)
From Verif Require Import Common Err_Model.
Local Open Scope list_scope.

Definition ht : ascii := Ascii.ascii_of_nat 9.
Definition lf : ascii := Ascii.ascii_of_nat 10.
Definition cr : ascii := Ascii.ascii_of_nat 13.
Definition tabs (n : nat) : chars := repeat ht n.
Definition eol : chars := [lf].
Definition num (n : nat) : chars := dec (N.of_nat n).
(* len(s.expandtabs()), from a given column *)
Fixpoint xlen (col : nat) (s : chars) : nat :=
  match s with
  | [] => 0
  | c :: r => if Ascii.eqb c ht then let w := 8 - Nat.modulo col 8 in w + xlen (col + w) r
              else if (Ascii.eqb c lf || Ascii.eqb c cr)%bool then S (xlen 0 r)
              else S (xlen (S col) r)
  end.
(* the loop of _format_ss_var_list, l.724-738 *)
Fixpoint wrap (width : nat) (indent : chars) (first : bool) (names : list chars) (cur : chars) (lines : list chars) : list chars :=
  match names with
  | [] => lines ++ [cur ++ eol]
  | n :: t =>
      let cand := n ++ (match t with [] => [] | _ => str ", " end) in
      if first then wrap width indent false t (cur ++ cand) lines
      else if Nat.ltb width (xlen 0 cur + length cand) then wrap width indent false t (indent ++ cand) (lines ++ [cur ++ eol])
      else wrap width indent false t (cur ++ cand) lines
  end.
Definition format_list (label : chars) (names : list chars) (width : nat) : chars :=
  let prefix := tabs 2 ++ label ++ str ": " in
  concat (wrap width (repeat " "%char (xlen 0 prefix)) true names prefix []).
(* _pluralize: has / have, otherwise a final s *)
Definition plural (word : chars) (n : nat) : chars := if Nat.eqb n 1 then word else word ++ str "s".
Definition has_have (n : nat) : chars := if Nat.eqb n 1 then str "has" else str "have".

Record facts := Facts { n_eq : nat; n_var : nat; n_shock : nat; n_free : nat; n_calib : nat; n_param_priors : nat; n_shock_priors : nat;
                        reduced_vars : list chars; singletons : list chars; reduced_params : list chars;
                        user_ss : list chars; inferred_ss : list chars }.
Definition q : chars := [Ascii.ascii_of_nat 34].
Definition eliminated_header : chars := tabs 2 ++ str "The following variables were eliminated at user request:".
Definition constants_header : chars :=
  tabs 2 ++ str "The following " ++ q ++ str "variables" ++ q ++ str " were defined as constants and have been substituted away:".
Definition params_header : chars := tabs 2 ++ str "The following parameters were eliminated via substitution into other parameters:".
Definition ready : chars := str "Model appears well defined and ready to proceed to solving.".
(* one f-string that ends in a line feed *)
Definition ln (s : chars) : chars := s ++ eol.
Definition listed (header : chars) (l : list chars) : chars :=
  match l with [] => [] | _ => ln header ++ ln (tabs 3 ++ join (str ", ") l) end.
(* l.832-841 *)
Definition ss_part (n_var : nat) (user inferred : list chars) : chars :=
  let total := length user + length inferred in
  if Nat.ltb 0 total then
    ln (tabs 1 ++ num total ++ str " / " ++ num n_var ++ str " variables have analytical steady-state values.")
    ++ (if Nat.ltb 0 (length user) then format_list (num (length user) ++ str " user-provided") user 80 else [])
    ++ (if Nat.ltb 0 (length inferred) then format_list (num (length inferred) ++ str " inferred") inferred 80 else [])
  else [].
(* build_report, l.793-853: the warning and the text logged *)
Definition build_report (f : facts) : option chars * chars :=
  let n_params := n_free f + n_calib f in
  let body :=
    ln (str "Model Building Complete.") ++ ln (str "Found:")
    ++ ln (tabs 1 ++ num (n_eq f) ++ str " " ++ plural (str "equation") (n_eq f))
    ++ ln (tabs 1 ++ num (n_var f) ++ str " " ++ plural (str "variable") (n_var f))
    ++ listed eliminated_header (reduced_vars f)
    ++ listed constants_header (singletons f)
    ++ ln (tabs 1 ++ num (n_shock f) ++ str " stochastic " ++ plural (str "shock") (n_shock f))
    ++ ln (tabs 2 ++ str " " ++ num (n_shock_priors f) ++ str " / " ++ num (n_shock f) ++ str " " ++ has_have (n_shock_priors f)
           ++ str " a defined prior.")
    ++ ln (tabs 1 ++ num n_params ++ str " " ++ plural (str "parameter") n_params)
    ++ listed params_header (reduced_params f)
    ++ ln (tabs 2 ++ str " " ++ num (n_param_priors f) ++ str " / " ++ num n_params ++ str " " ++ has_have (n_param_priors f)
           ++ str " a defined prior.")
    ++ ln (tabs 1 ++ num (n_calib f) ++ str " " ++ plural (str "parameter") (n_calib f) ++ str " to calibrate.")
    ++ ss_part (n_var f) (user_ss f) (inferred_ss f) in
  if Nat.eqb (n_eq f) (n_var f) then (None, body ++ ln ready)
  else (Some (str "The model does not appear correctly specified, there are " ++ num (n_eq f) ++ str " " ++ plural (str "equation") (n_eq f)
              ++ str " but " ++ num (n_var f) ++ str " " ++ plural (str "variable") (n_var f)
              ++ str ". It will not be possible to solve this model. Please check the specification using available diagnostic tools, and check the GCN file for typos."),
        body).

(* the lists handed to it by _compile_gcn, l.428-436: keys of the steady-state dictionary before and after the propagation *)
Definition reported_ss (provided final : list chars) : list chars * list chars :=
  (provided, filter (fun v => negb (existsb (chars_eqb v) provided)) final).
