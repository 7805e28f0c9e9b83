(* What a block means, stated on the parsed block. *)
From Verif Require Import Common Sym_Model Sym_Spec Block_Model.
From Coq Require Import Reals.
Local Open Scope list_scope.

(* All numbered equations of a block, in the order of the file's component order, each with its flags and multiplier. *)
Definition entries (a : ablock) : list (eqn * flags * option sym) :=
  map (fun e => (equation_to_sympy e, extract_flags e, extract_multiplier e)) (ab_defs a ++ ab_obj a ++ ab_cons a ++ ab_ids a)
  ++ flat_map calib_entry (ab_calib a).
Definition numbered {A} (from : nat) (l : list A) : list (nat * A) := combine (seq from (length l)) l.

(* The multiplier of each constraint: the user's name, or the next automatic one. *)
Fixpoint assigned (short : chars) (i : nat) (cs : list geq) : list sym :=
  match cs with
  | [] => []
  | e :: cs' =>
      match g_lm e with
      | Some n => SDate n 0 :: assigned short i cs'
      | None => SDate (lambda_name short i) 0 :: assigned short (S i) cs'
      end
  end.
Definition user_names (cs : list geq) : list chars := flat_map (fun e => match g_lm e with Some n => [n] | None => [] end) cs.

(* Definitions as (name, date, right-hand side). *)
Definition is_def (e : geq) (b : chars) (t : Z) (r : sx) : Prop := g_lhs e = Sy (SDate b t) /\ g_rhs e = r /\ g_cal e = None.
Definition defined_name (a : ablock) (b : chars) : Prop := exists e t r, In e (ab_defs a) /\ is_def e b t r.
Definition base_of (s : sym) : option chars := match s with SDate b _ | SSs b => Some b | SPar _ => None end.

(* A path [full] in which every variable with a definition follows it at every date, and which otherwise is [env]. *)
Definition follows_definitions (a : ablock) (env full : sym -> R) (alg : alg R) : Prop :=
  (forall s, (forall b, base_of s = Some b -> ~ defined_name a b) -> full s = env s) /\
  (forall e b t r, In e (ab_defs a) -> is_def e b t r ->
     forall k, full (SDate b (t + k)) = ev alg (later k full) r).

(* Well-formed definitions: dated left-hand sides with different names; a defined name is used by a definition only at
   the date at which it is defined, and not by its own definition; no steady-state values. *)
Definition definitions_ok (a : ablock) : Prop :=
  (forall e, In e (ab_defs a) -> exists b t, is_def e b t (g_rhs e)) /\
  (forall i j e e' b t b' t' , nth_error (ab_defs a) i = Some e -> nth_error (ab_defs a) j = Some e' -> i <> j ->
     g_lhs e = Sy (SDate b t) -> g_lhs e' = Sy (SDate b' t') -> b <> b') /\
  (forall e b t, In e (ab_defs a) -> In (SDate b t) (atoms (g_rhs e)) -> defined_name a b ->
     (exists e', In e' (ab_defs a) /\ g_lhs e' = Sy (SDate b t)) /\ g_lhs e <> Sy (SDate b t)) /\
  (forall e, In e (ab_defs a) -> no_ss (g_rhs e)).

(* The period Lagrangian of the block on a path. *)
Local Open Scope R_scope.
Fixpoint penalty (alg : alg R) (env : sym -> R) (cs : list geq) (ms : list sym) : R :=
  match cs, ms with
  | e :: cs', m :: ms' => env m * (ev alg env (g_lhs e) - ev alg env (g_rhs e)) + penalty alg env cs' ms'
  | _, _ => 0
  end.
Definition lagrangian (alg : alg R) (a : ablock) (obj : geq) (ms : list sym) (env : sym -> R) : R :=
  (if g_min obj then - ev alg env (g_rhs obj) else ev alg env (g_rhs obj)) - penalty alg env (ab_cons a) ms.

(* Objectives: static, or V = u + c V[1] with a constant c. *)
Inductive discounted_by (obj : geq) : sx -> Prop :=
| static_objective : (forall s, In s (atoms (g_lhs obj) ++ atoms (g_rhs obj)) ->
                       (forall b, s <> SSs b) /\ forall b t, s = SDate b t -> t = 0%Z \/ t = (-1)%Z) -> discounted_by obj (Cst 1)
| bellman_objective V t u c : g_lhs obj = Sy (SDate V t) -> g_rhs obj = Ad u (Mu c (Sy (SDate V 1))) ->
    ~ In (SDate V 1) (atoms u) -> param_only c -> discounted_by obj c.
Local Close Scope R_scope.

(* A defined variable is used only at dates -1, 0, 1: the dates at which the code expands definitions. *)
Definition near_dates (a : ablock) (e : sx) : Prop := forall b t, In (SDate b t) (atoms e) -> defined_name a b -> In t [-1; 0; 1]%Z.
(* The blocks for which the first-order conditions are stated. *)
Record optimisation_block (a : ablock) (obj : geq) (c : sx) (short : chars) : Prop := {
  ob_short : short_name (ab_name a) = Ok short;
  ob_defs : definitions_ok a;
  ob_obj : ab_obj a = [obj];
  ob_lm : g_lm obj = None;
  ob_disc : discounted_by obj c;
  ob_cons : ab_cons a <> [];
  ob_controls : forall x, In x (ab_controls a) -> exists n t, x = SDate n t;
  ob_near : near_dates a (g_rhs obj) /\ (forall e, In e (ab_cons a) -> near_dates a (g_lhs e) /\ near_dates a (g_rhs e));
  ob_no_ss : no_ss (g_rhs obj) /\ (forall e, In e (ab_cons a) -> no_ss (g_lhs e) /\ no_ss (g_rhs e));
  ob_mult : forall n, In (SDate n 0) (assigned short 1 (ab_cons a)) -> ~ defined_name a n }.

(* What a block must look like to be accepted. *)
Definition flags_in_place (a : ablock) : Prop :=
  (forall e, In e (ab_defs a ++ ab_obj a ++ ab_cons a ++ ab_ids a) -> g_cal e = None) /\
  (forall e, In e (ab_defs a ++ ab_obj a ++ ab_ids a) -> g_exclude e = false) /\
  (forall e, In e (ab_defs a ++ ab_cons a ++ ab_ids a) -> g_min e = false /\ g_max e = false) /\
  (forall e, In e (ab_obj a) -> ~ (g_min e = true /\ g_max e = true)).
Definition control_used (a : ablock) (x : sym) : Prop :=
  exists e, In e (ab_defs a ++ ab_obj a ++ ab_cons a) /\ In x (atoms (lhs (equation_to_sympy e)) ++ atoms (rhs (equation_to_sympy e))).
Definition acceptable (a : ablock) : Prop :=
  (ab_obj a = [] <-> ab_controls a = []) /\ (length (ab_obj a) <= 1)%nat /\
  (forall x, In x (ab_controls a) -> control_used a x) /\ flags_in_place a.

(* Calibration entries: the parameter, the expression, and whether it is a calibrating equation ("... -> parameter"). *)
Definition calibrations (a : ablock) : list (eqn * bool) := map (fun efm => (fst (fst efm), fl_cal (snd (fst efm)))) (flat_map calib_entry (ab_calib a)).
Definition is_number (x : sx) : bool := match atoms x with [] => true | _ => false end.
Definition pick (f : eqn * bool -> bool) (a : ablock) : sdict :=
  flat_map (fun eb => match lhs (fst eb) with Sy s => if f eb then [(s, rhs (fst eb))] else [] | _ => [] end) (calibrations a).
Definition numeric_of : ablock -> sdict := pick (fun eb => is_number (rhs (fst eb))).
Definition calibrated_of : ablock -> sdict := pick (fun eb => negb (is_number (rhs (fst eb))) && snd eb)%bool.
Definition deterministic_of : ablock -> sdict := pick (fun eb => negb (is_number (rhs (fst eb))) && negb (snd eb))%bool.
(* Well-formed entries: a calibrating equation mentions variables only at the steady state, a parameter definition none. *)
Definition calibration_ok (eb : eqn * bool) : Prop :=
  (exists s, lhs (fst eb) = Sy s) /\
  (atoms (rhs (fst eb)) = [] \/
   if snd eb then forall s, In s (eqn_atoms (fst eb)) -> time_aware s = true -> exists b, s = SSs b
   else forall s, In s (eqn_atoms (fst eb)) -> time_aware s = false).
