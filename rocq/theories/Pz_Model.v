(* From the priors written in a model file to PreliZ distributions.
     gEconpy/parser/transform/to_distribution.py: ast_to_distribution l.12-50, ast_to_distribution_with_metadata l.53-81,
       distributions_from_calibration l.84-108, distributions_from_model l.111-131;
     gEconpy/parser/preprocessor.py: ParseResult.distributions l.51-56;
     gEconpy/parser/loader.py: ast_model_to_primitives l.424-436 (priors of parameters).
   Simplifications: numbers are values of a type V; a PreliZ object is a value of a type D; the PreliZ constructors and
   the wrappers maxent/Truncated/... are functions [make] and [wrap] that may raise; the lists of known names are
   parameters; source locations are omitted. *)
From Verif Require Import Common SymDict_Model.
Local Open Scope list_scope.

Definition InvalidDistribution : exn := GEconError 61.   (* exceptions.py l.287: a subclass of ValueError *)

Section P.
Variables V D : Type.
Inductive arg := ANum (x : V) | ARef (n : chars) | ABool (b : bool).
Definition kwargs := list (chars * arg).
Record dnode := DN { d_param : chars; d_dist : chars; d_kwargs : kwargs; d_wrapper : option chars; d_wkwargs : kwargs; d_init : option V }.
Inductive item := Prior (n : dnode) | Equation.        (* an entry of a calibration list; equations are skipped here *)
Definition block := list item.                          (* block.calibration *)
Record meta := Meta { m_param : chars; m_init : option V; m_wrapped : bool; m_wrapper : option chars }.

Variable dists wrappers : list chars.                    (* PRELIZ_DISTS, PRELIZ_DIST_WRAPPERS *)
Variable make : chars -> kwargs -> result D.             (* getattr(pz, name) called with the keywords *)
Variable wrap : chars -> D -> kwargs -> result D.

Definition mem (n : chars) (l : list chars) : bool := existsb (chars_eqb n) l.
Definition maxent : chars := str "maxent".
Definition plot : chars := str "plot".

Definition ast_to_distribution (n : dnode) : result D :=
  if negb (mem (d_dist n) dists) then Err InvalidDistribution
  else
    dist <- make (d_dist n) (d_kwargs n) ;;
    match d_wrapper n with
    | None => Ok dist
    | Some w =>
        if negb (mem w wrappers) then Err ValueError
        else wrap w dist (if chars_eqb w maxent then dset chars_eqb plot (ABool false) (d_wkwargs n) else d_wkwargs n)
    end.
Definition with_metadata (n : dnode) : result (D * meta) :=
  d <- ast_to_distribution n ;;
  Ok (d, Meta (d_param n) (d_init n) (match d_wrapper n with Some _ => true | None => false end) (d_wrapper n)).

Fixpoint from_calibration (items : list item) (res : list (chars * (D * meta))) : result (list (chars * (D * meta))) :=
  match items with
  | [] => Ok res
  | Equation :: t => from_calibration t res
  | Prior n :: t => dm <- with_metadata n ;; from_calibration t (dset chars_eqb (d_param n) dm res)
  end.
Fixpoint from_model (blocks : list block) (res : list (chars * (D * meta))) : result (list (chars * (D * meta))) :=
  match blocks with
  | [] => Ok res
  | b :: t => bd <- from_calibration b [] ;; from_model t (dupd chars_eqb res bd)
  end.
Definition distributions_from_model (blocks : list block) := from_model blocks [].

(* loader.py: try: ... except (ValueError, TypeError): pass *)
Definition caught (e : exn) : bool := match e with ValueError | TypeError => true | GEconError k => Nat.eqb k 61 | _ => false end.
Fixpoint load_items (items : list item) (res : list (chars * D)) : result (list (chars * D)) :=
  match items with
  | [] => Ok res
  | Equation :: t => load_items t res
  | Prior n :: t =>
      match with_metadata n with
      | Ok (d, _) => load_items t (dset chars_eqb (d_param n) d res)
      | Err e => if caught e then load_items t res else Err e
      end
  end.
Fixpoint load_blocks (blocks : list block) (res : list (chars * D)) : result (list (chars * D)) :=
  match blocks with [] => Ok res | b :: t => r <- load_items b res ;; load_blocks t r end.
Definition load_priors (blocks : list block) := load_blocks blocks [].
End P.
Arguments ANum {V}. Arguments ARef {V}. Arguments ABool {V}. Arguments DN {V}. Arguments Prior {V}. Arguments Equation {V}. Arguments Meta {V}.
Arguments d_param {V}. Arguments d_dist {V}. Arguments d_kwargs {V}. Arguments d_wrapper {V}. Arguments d_wkwargs {V}. Arguments d_init {V}.
Arguments m_param {V}. Arguments m_init {V}. Arguments m_wrapped {V}. Arguments m_wrapper {V}.
