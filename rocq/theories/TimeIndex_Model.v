(* Model of gEconpy/classes/time_aware_symbol.py *)
From Verif Require Import Common.
Local Open Scope list_scope.
Local Open Scope string_scope.

(* time_index : int | "ss"  (time_aware_symbol.py l.42; set_t l.127-137 rejects any other string).
   Simplification: a TimeAwareSymbol constructed directly with some other string is not modelled. *)
Inductive tidx := TInt (t : Z) | TSs.

(* A TimeAwareSymbol (l.18-70). [asm] is what sympy calls assumptions0.
   Simplification: sympy's deductive closure of assumptions is taken to be idempotent, so that
   rebuilding a symbol with **self.assumptions0 gives the same assumptions. *)
Record tsym (A : Type) := TSym { base : chars; tix : tidx; asm : A }.
Arguments TSym {A} _ _ _.
Arguments base {A} _. Arguments tix {A} _. Arguments asm {A} _.

(* _determine_operator, l.71-81 *)
Definition determine_operator (t : tidx) : chars :=
  match t with
  | TSs => []
  | TInt t => if Z.ltb 0 t then str "+" else if Z.ltb t 0 then str "-" else []
  end.

(* _create_name_from_time_index, l.83-96: idx = str(abs(idx)) unless it is the string "ss" *)
Definition name_of (b : chars) (t : tidx) : chars :=
  let op := determine_operator t in
  match t with
  | TSs => (b ++ str "_" ++ str "ss")%list
  | TInt z =>
      let idx := dec (Z.abs_N z) in
      if chars_eqb idx (str "0") then (b ++ str "_t")%list
      else (b ++ str "_t" ++ op ++ idx)%list
  end.

Definition name {A} (s : tsym A) : chars := name_of (base s) (tix s).

(* l.68: obj.safe_name = obj.name.replace("+", "p").replace("-", "m") *)
Definition safe_char (c : ascii) : ascii :=
  if Ascii.eqb c "+" then "p"%char else if Ascii.eqb c "-" then "m"%char else c.
Definition safe_name {A} (s : tsym A) : chars := map safe_char (name s).

(* step_forward, l.108-110: self.time_index + 1; "ss" + 1 raises TypeError in Python *)
Definition step_forward {A} (s : tsym A) : result (tsym A) :=
  match tix s with
  | TInt t => Ok (TSym (base s) (TInt (t + 1)%Z) (asm s))
  | TSs => Err TypeError
  end.

(* step_backward, l.112-114: "ss" - 1 raises TypeError *)
Definition step_backward {A} (s : tsym A) : result (tsym A) :=
  match tix s with
  | TInt t => Ok (TSym (base s) (TInt (t - 1)%Z) (asm s))
  | TSs => Err TypeError
  end.

(* to_ss, l.116-122 *)
Definition to_ss {A} (s : tsym A) : tsym A := TSym (base s) TSs (asm s).

(* exit_ss, l.124-126 *)
Definition exit_ss {A} (s : tsym A) : tsym A :=
  match tix s with
  | TSs => TSym (base s) (TInt 0) (asm s)
  | TInt _ => s
  end.

(* set_t, l.127-137.  [raw] is the Python argument: an int or a string. *)
Inductive raw_t := RInt (z : Z) | RStr (s : chars).
Definition set_t {A} (s : tsym A) (t : raw_t) : result (tsym A) :=
  match t with
  | RStr x => if negb (chars_eqb x (str "ss")) then Err ValueError
              else Ok (TSym (base s) TSs (asm s))
  | RInt z => Ok (TSym (base s) (TInt z) (asm s))
  end.

(* A user's sequence of calls on a symbol. *)
Inductive call := CFwd | CBwd | CSetT (t : raw_t) | CToSs | CExitSs.
Definition do_call {A} (c : call) (s : tsym A) : result (tsym A) :=
  match c with
  | CFwd => step_forward s
  | CBwd => step_backward s
  | CSetT t => set_t s t
  | CToSs => Ok (to_ss s)
  | CExitSs => Ok (exit_ss s)
  end.
Fixpoint run {A} (cs : list call) (s : tsym A) : result (tsym A) :=
  match cs with
  | [] => Ok s
  | c :: cs' => s' <- do_call c s ;; run cs' s'
  end.
