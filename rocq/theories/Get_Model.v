(* Looking up a model object by name.
     gEconpy/model/model.py: Model.__init__ l.325-328 (_all_names_to_symbols), Model.get l.771-797;
     gEconpy/utilities.py: get_name l.238-262.
   Simplifications: variables and shocks are dated symbols at date 0, the three kinds of parameters plain symbols, all
   given by their names; difflib.get_close_matches is a function [close] from the name and the candidates to a list
   (with n=1: at most one), about which nothing is assumed. *)
From Verif Require Import Common SymDict_Model Sym_Model Lin_Model.
Local Open Scope list_scope.

Record named := Named { n_vars : list chars; n_params : list chars; n_calibrated : list chars; n_deterministic : list chars; n_shocks : list chars }.
Definition dated (b : chars) : sym := SDate b 0.
(* a dict comprehension: a repeated key keeps its first position and its last value *)
Definition all_names (m : named) : list (chars * sym) :=
  dupd chars_eqb [] (map (fun b => (b, dated b)) (n_vars m) ++
                     map (fun n => (n, SPar n)) (n_params m ++ n_calibrated m ++ n_deterministic m) ++
                     map (fun b => (b, dated b)) (n_shocks m)).
Definition ends_with_ss (n : chars) : bool :=
  (Nat.leb 3 (length n) && chars_eqb (skipn (length n - 3) n) suffix_ss)%bool.
(* TimeAwareSymbol.to_ss; a plain sympy Symbol has no such method *)
Definition to_ss (s : sym) : result sym := match s with SDate b _ => Ok (SSs b) | SSs b => Ok (SSs b) | SPar _ => Err AttributeError end.

Definition get (close : chars -> list chars -> list chars) (m : named) (name : chars) : result sym :=
  let ss_requested := ends_with_ss name in
  let name := removesuffix name in
  match dget chars_eqb name (all_names m) with
  | None =>
      match close name (map fst (all_names m)) with
      | [] => Err IndexError                    (* [0] of an empty list *)
      | _ :: _ => Err IndexError                (* the exception with a suggestion *)
      end
  | Some r => if ss_requested then to_ss r else Ok r
  end.
