(* Vocabulary of the statements about the state-space form. *)
From Verif Require Import Common Sym_Model Sym_Spec SR_Model Kal_Model.
From Coq Require Import Reals.
Local Open Scope R_scope.
Local Open Scope list_scope.

(* Arguments as Python can pass them: dictionaries have distinct keys; the model's variables have distinct names. *)
Definition proper (m : kmodel) (a : cargs) : Prop :=
  NoDup (k_vars m) /\ NoDup (map fst (or_nil (a_agg a))) /\ NoDup (map fst (or_nil (a_obs a))).
(* What every hidden state stands for: a variable, so many periods ago.  The model's variables come first, then the summed or
   averaged series, then the variables which observation equations need at a lag. *)
Definition lags_of (vd : chars * nat) : list (chars * nat) := map (pair (fst vd)) (seq 1 (snd vd)).
Definition summed_series (c : config) : list chars :=
  map fst (filter (fun vm => (chars_eqb (snd vm) (str "sum") || chars_eqb (snd vm) (str "mean")) && negb (mem (fst vm) (map fst (c_obs c))))%bool (c_agg c)).
Definition meaning (m : kmodel) (c : config) : list (chars * nat) :=
  map (fun v => (v, 0%nat)) (k_vars m) ++ flat_map (fun v => lags_of (v, Z.to_nat (c_period c - 1))) (summed_series c) ++ flat_map lags_of (c_depths c).
(* A path of the state-space form: state t+1 = T state t + R shock t+1. *)
Definition follows (N q : nat) (T S0 : mat) (s e : nat -> vec) : Prop :=
  forall t i, (i < N)%nat -> s (S t) i = rsum N (fun j => T i j * s t j) + rsum q (fun j => S0 i j * e (S t) j).
(* deviation of a variable from its steady state at date t along a path *)
Definition deviation (m : kmodel) (s : nat -> vec) (v : chars) (t : nat) : R :=
  match index v (k_vars m) with Ok i => s t i | Err _ => 0 end.
Fixpoint lsum {A} (f : A -> R) (l : list A) : R := match l with [] => 0 | a :: l' => f a + lsum f l' end.
(* one period's value of an observed series: the linearised observation equation if there is one, else the deviation of the variable,
   plus its steady-state value if that was asked for *)
Definition one_period (m : kmodel) (W : world) (c : config) (draw : chars -> R) (s : nat -> vec) (name : chars) (t : nat) : R :=
  match get name (c_obs c) with
  | Some (constant_term, coefficients) =>
      value m W c draw constant_term +
      lsum (fun kc => value m W c draw (snd kc) * deviation m s (fst (fst kc)) (Z.to_nat (Z.of_nat t + snd (fst kc)))) coefficients
  | None =>
      (if mem name (c_ssint c)
       then (if mem name (k_logged m) then s_fn (w_fun W) (str "log") 0 (w_ss W (inputs_at m c draw) name) else w_ss W (inputs_at m c draw) name)
       else 0) + deviation m s name t
  end.
(* how many periods a series covers, and whether it is their sum or their mean *)
Definition covers (c : config) (name : chars) : nat :=
  match get name (c_agg c) with
  | Some a => if (chars_eqb a (str "sum") || chars_eqb a (str "mean"))%bool then Z.to_nat (c_period c) else 1%nat
  | None => 1%nat
  end.
Definition averaged (c : config) (name : chars) : bool := match get name (c_agg c) with Some a => chars_eqb a (str "mean") | None => false end.
Definition observation (m : kmodel) (W : world) (c : config) (draw : chars -> R) (s : nat -> vec) (name : chars) (t : nat) : R :=
  (if averaged c name then / INR (covers c name) else 1) * rsum (covers c name) (fun d => one_period m W c draw s name (t - d)%nat).
(* the deepest lag a series reaches back to *)
Definition reaches (c : config) (name : chars) (t : nat) : Prop :=
  (covers c name <= S t)%nat /\
  forall i coeffs, get name (c_obs c) = Some (i, coeffs) -> forall v lag k, In ((v, lag), k) coeffs -> (Z.of_nat (covers c name) - lag <= Z.of_nat t + 1)%Z.
(* A successful call of configure with proper arguments. *)
Definition configured (m : kmodel) (W : world) (ord : set_order) (c0 : config) (a : cargs) (c : config) : Prop :=
  set_order_ok ord /\ proper m a /\ configure m W ord c0 a = (c, Ok tt).
(* The measurement-error covariance one expects: the variance of a series' error in the position of that series, for the series
   listed as measured with error; zero elsewhere. *)
Definition error_covariance (observed with_error : list chars) (variance : chars -> R) (H : mat) : Prop :=
  forall i j, (i < length observed)%nat -> (j < length observed)%nat ->
    H i j = if Nat.eqb i j then (if mem (nth i observed []) with_error then variance (nth i observed []) else 0) else 0.
Definition prefix (l big : list chars) : Prop := exists rest, big = l ++ rest.
(* The linearised meaning of an observation equation: all variables at their steady state, one of them moved by x (in logs if it is
   log-linearised) *)
Definition steady (m : kmodel) (W : world) (c : config) (draw : chars -> R) (s : sym) : R :=
  match s with SPar n => inputs_at m c draw n | SSs v | SDate v _ => w_ss W (inputs_at m c draw) v end.
Definition moved (m : kmodel) (W : world) (c : config) (draw : chars -> R) (v : chars) (lag : Z) (x : R) : sym -> R :=
  with_value (steady m W c draw) (SDate v lag)
    (let ss := w_ss W (inputs_at m c draw) v in if mem v (k_logged m) then ss * exp x else ss + x).
Definition true_exp (G : smooth) : Prop := forall x, s_dom G (str "exp") x /\ forall k, s_fn G (str "exp") k x = exp x.
Definition placeholder_free (m : kmodel) : Prop := forall n x, In n (map fst (k_defaults m) ++ k_hyper m) -> n <> str "_tilde_" ++ x.
(* stationary covariance *)
Definition mmul (n : nat) (A B : mat) : mat := fun i j => rsum n (fun l => A i l * B l j).
Definition transp (A : mat) : mat := fun i j => A j i.
Definition stationary (N q : nat) (T S0 Q P : mat) : Prop :=
  forall i j, (i < N)%nat -> (j < N)%nat -> P i j = mmul N (mmul N T P) (transp T) i j + mmul q (mmul q S0 Q) (transp S0) i j.
(* When configure accepts its arguments (before looking at the observation equations themselves) *)
Definition acceptable (m : kmodel) (c : config) (a : cargs) : Prop :=
  let observed := a_observed a in let errors := or_nil (a_error a) in let agg := or_nil (a_agg a) in let ss := or_nil (a_ssint a) in let eqs := map fst (or_nil (a_obs a)) in
  (forall x, In x observed -> In x (c_states c) \/ In x eqs) /\
  incl errors observed /\ incl (map fst agg) observed /\ incl ss observed /\ incl ss (k_vars m) /\ incl eqs observed /\
  (forall v how, In (v, how) agg -> In how [str "sum"; str "mean"; str "first"; str "last"]) /\
  ((exists v how, In (v, how) agg /\ In how [str "sum"; str "mean"]) -> (2 <= a_period a)%Z) /\
  (forall x, In x eqs -> ~ In x ss) /\
  (forall l, a_const a = Fixed l -> incl l (k_inputs m)) /\
  In (a_solver a) [str "gensys"; str "cycle_reduction"; str "scan_cycle_reduction"; str "backward_direct"] /\
  (length observed <= length errors + length (k_shocks m))%nat.
(* an observation equation that parses, looks at no lead, and mentions only the model's variables and parameters *)
Definition good_equation (m : kmodel) (parsed : result sx) : Prop := exists e, parsed = Ok e /\
  (forall v t, In (SDate v t) (atoms e) -> (t <= 0)%Z /\ In v (k_vars m)) /\
  (forall n, In (SPar n) (atoms e) -> In n (map fst (k_defaults m)) \/ In n (k_hyper m)).
(* the names of the parameters that the state-space form exposes *)
Definition exposed (m : kmodel) (a : cargs) : list chars :=
  filter (fun n => negb (mem n (constants m a))) (k_inputs m) ++
  (if a_full a then [str "state_cov"] else map (fun s => str "sigma_" ++ s) (k_shocks m)) ++ map (fun s => str "error_sigma_" ++ s) (or_nil (a_error a)).
(* the solver and the steady state look only at the input parameters *)
Definition uses_inputs (m : kmodel) (W : world) : Prop := forall p p', (forall n, In n (k_inputs m) -> p n = p' n) ->
  w_policy W p = w_policy W p' /\ forall v, w_ss W p v = w_ss W p' v.
