(* Sampling parameters: seeds, generators and the bounds taken from priors.
     gEconpy/model/sampling.py: bounds_from_priors l.8-46, sample_from_priors l.49-71, sample_uniform l.74-147,
       sample_uniform_from_priors l.150-187, sample_from_priors_qmc l.190-253.
   numpy and scipy are parameters: [from_seed z] is the state of default_rng(z) (and of a QMC engine seeded with z),
   [entropy k] the k-th state seeded by the operating system, [uniform] and [rvs] the draws of a generator with its next
   state, [engine] the points of a QMC engine in that state.  A numpy integer is not an instance of int.  A table is a list
   of rows in the order of the names; the within-bounds side is C75. *)
From Verif Require Import Common.
From Coq Require Import Reals.
Local Open Scope R_scope.
Local Open Scope list_scope.

Section S.
Variable St : Type.
Variable from_seed : Z -> St.
Variable entropy : nat -> St.
Variable uniform : nat -> nat -> St -> list (list R) * St.               (* size (n, d) *)
Inductive method := Random | Lhs | Sobol | Halton | PoissonDisk | OtherMethod.
Variable engine : method -> nat -> nat -> St -> list (list R).
Record prior := Prior { rvs : nat -> St -> list R * St; ppf : R -> R; hdi : R -> result (R * R) }.
Inductive seed := NoSeed | Int (z : Z) | NumpyInt (z : Z) | Generator (g : nat).
(* generators by identity, and the number of states drawn from the operating system *)
Record world := World { generators : nat -> St; drawn : nat }.

Definition fresh (w : world) : St * world := (entropy (drawn w), World (generators w) (S (drawn w))).
(* np.random.default_rng(seed): a new generator, or the one given *)
Definition default_rng (s : seed) (w : world) : St * world :=
  match s with NoSeed => fresh w | Int z | NumpyInt z => (from_seed z, w) | Generator g => (generators w g, w) end.
(* after drawing, the generator given has the new state *)
Definition advanced (s : seed) (st : St) (w : world) : world :=
  match s with Generator g => World (fun i => if Nat.eqb i g then st else generators w i) (drawn w) | _ => w end.
(* rng_seed = seed if isinstance(seed, (int, type(None))) else None *)
Definition rng_seed (s : seed) : seed := match s with NoSeed | Int _ => s | _ => NoSeed end.
Definition qmc_state (s : seed) (w : world) : St * world := default_rng (rng_seed s) w.
Definition power_of_two_or_zero (n : nat) : bool := Z.eqb (Z.land (Z.of_nat n) (Z.of_nat n - 1)) 0.
Definition is_sobol (m : method) : bool := match m with Sobol => true | _ => false end.
Definition Rltb (a b : R) : bool := if Rlt_dec a b then true else false.
(* qmc.scale refuses bounds that are not increasing *)
Definition scale (units : list (list R)) (bounds : list (R * R)) : result (list (list R)) :=
  if forallb (fun b => Rltb (fst b) (snd b)) bounds
  then Ok (map (fun row => map (fun p => fst p * (snd (snd p) - fst (snd p)) + fst (snd p)) (combine row bounds)) units)
  else Err ValueError.
Definition sample_uniform (bounds : list (chars * (R * R))) (n : nat) (s : seed) (m : method) (w : world) : result (list (list R)) * world :=
  let d := length bounds in
  if (is_sobol m && negb (power_of_two_or_zero n))%bool then (Err ValueError, w)
  else match m with
       | Random => let '(st, w) := default_rng s w in let '(u, st') := uniform n d st in (scale u (map snd bounds), advanced s st' w)
       | OtherMethod => (Err ValueError, w)
       | _ => let '(st, w) := qmc_state s w in (scale (engine m d n st) (map snd bounds), w)
       end.
Fixpoint bounds_from_priors (priors : list (chars * prior)) (hdi_prob : R) : result (list (chars * (R * R))) :=
  match priors with
  | [] => Ok []
  | (name, p) :: t =>
      b <- match hdi p hdi_prob with Err ValueError => Ok (ppf p (1 - hdi_prob), ppf p hdi_prob) | r => r end ;;
      r <- bounds_from_priors t hdi_prob ;; Ok ((name, b) :: r)
  end.
Definition sample_uniform_from_priors (priors : list (chars * prior)) (n : nat) (s : seed) (m : method) (hdi_prob : R) (w : world) : result (list (list R)) * world :=
  match bounds_from_priors priors hdi_prob with Err e => (Err e, w) | Ok b => sample_uniform b n s m w end.
(* one column per prior, drawn in order from one generator *)
Fixpoint columns (priors : list (chars * prior)) (n : nat) (st : St) : list (list R) * St :=
  match priors with
  | [] => ([], st)
  | (_, p) :: t => let '(c, st) := rvs p n st in let '(r, st) := columns t n st in (c :: r, st)
  end.
Definition sample_from_priors (priors : list (chars * prior)) (n : nat) (s : seed) (w : world) : result (list (list R)) * world :=
  let '(st, w) := default_rng s w in let '(c, st') := columns priors n st in (Ok c, advanced s st' w).
Variable clip : R -> R.
Definition sample_from_priors_qmc (priors : list (chars * prior)) (n : nat) (s : seed) (m : method) (w : world) : result (list (list R)) * world :=
  if (is_sobol m && negb (power_of_two_or_zero n))%bool then (Err ValueError, w)
  else match m with
       | Sobol | Halton | Lhs =>
           let '(st, w) := qmc_state s w in
           (Ok (map (fun row => map (fun p => ppf (snd (fst p)) (clip (snd p))) (combine priors row)) (engine m (length priors) n st)), w)
       | _ => (Err ValueError, w)
       end.

(* any history of calls; each with its seed *)
Inductive request := RUniform (b : list (chars * (R * R))) (n : nat) (m : method) | RPriorUniform (p : list (chars * prior)) (n : nat) (m : method) (h : R)
                   | RPriors (p : list (chars * prior)) (n : nat) | RQmc (p : list (chars * prior)) (n : nat) (m : method).
Definition call (r : request) (s : seed) (w : world) : result (list (list R)) * world :=
  match r with
  | RUniform b n m => sample_uniform b n s m w
  | RPriorUniform p n m h => sample_uniform_from_priors p n s m h w
  | RPriors p n => sample_from_priors p n s w
  | RQmc p n m => sample_from_priors_qmc p n s m w
  end.
Fixpoint run (h : list (request * seed)) (w : world) : list (result (list (list R))) * world :=
  match h with [] => ([], w) | (r, s) :: t => let '(x, w) := call r s w in let '(o, w) := run t w in (x :: o, w) end.
End S.
Arguments Prior {St}. Arguments rvs {St}. Arguments ppf {St}. Arguments hdi {St}. Arguments World {St}. Arguments generators {St}. Arguments drawn {St}.
Arguments RUniform {St}. Arguments RPriorUniform {St}. Arguments RPriors {St}. Arguments RQmc {St}. Arguments bounds_from_priors {St}.
