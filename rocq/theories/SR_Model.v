(* Sparse root finding.
     gEconpy/solvers/sparse_root/base.py l.30-91; sparse_root.py l.24-99; direction.py l.10-201; globalization.py l.20-178;
     line_search.py l.32-76; dogleg.py l.12-164; gauss_newton.py l.9-168; levenberg_marquardt.py l.11-147.
   Simplifications:
   - floating-point numbers are real numbers, and residuals, Jacobians and trial points are finite;
   - a vector of length n is a function from positions, of which the positions below n are ever looked at; likewise matrices;
   - linear solvers (spsolve, gmres, bicgstab) are parameters that return a vector, or None when they raise, report failure or
     return a non-finite vector;
   - better_optimize's ObjectiveWrapper and early stopping are external: the wrapped function returns what fun returns; the number
     of times it is called is counted (field i_calls and the last component of the result);
   - the strings kind and message and the counters njev, nsolve, nreject, which the result does not show, are left out;
   - numbers of iterations are natural numbers. *)
From Verif Require Import Common.
From Coq Require Import Reals.
Local Open Scope R_scope.

Definition ZeroDivisionError : exn := GEconError 40.        (* Python's ZeroDivisionError *)
Definition vec := nat -> R.
Definition mat := nat -> nat -> R.
Definition vadd (u v : vec) : vec := fun i => u i + v i.
Definition vsub (u v : vec) : vec := fun i => u i - v i.
Definition vneg (u : vec) : vec := fun i => - u i.
Definition vscale (a : R) (u : vec) : vec := fun i => a * u i.
Definition vzero : vec := fun _ => 0.
Fixpoint rsum (n : nat) (f : nat -> R) : R := match n with O => 0 | S m => rsum m f + f m end.

Section Root.
Variable n : nat.                                          (* number of unknowns *)
Definition dot (u v : vec) : R := rsum n (fun i => u i * v i).
Definition mv (J : mat) (v : vec) : vec := fun i => rsum n (fun j => J i j * v j).           (* J @ v *)
Definition tmv (J : mat) (v : vec) : vec := fun j => rsum n (fun i => J i j * v i).          (* J.T @ v *)
Definition norm (v : vec) : R := sqrt (dot v v).
Fixpoint max_upto (k : nat) (v : vec) : R := match k with O => 0 | S m => Rmax (max_upto m v) (Rabs (v m)) end.
Definition maxabs (v : vec) : R := max_upto n v.           (* np.max(np.abs(v)), n >= 1 *)

(* base.py *)
Definition merit (res : vec) : R := / 2 * dot res res.
Record state := ST { s_x : vec; s_res : vec; s_jac : mat; s_phi : R; s_nit : nat; s_nfev : nat }.
Record info := Info { i_accepted : bool; i_step : vec; i_calls : nat }.
Definition rltb (a b : R) : bool := if Rlt_dec a b then true else false.
Definition rleb (a b : R) : bool := if Rle_dec a b then true else false.
Definition small_step (dx x_new : vec) (tol : R) : bool := rltb (maxabs dx) (tol * (1 + maxabs x_new)).
Definition converged (s : state) (f_tol x_tol : R) (last_step : vec) : bool :=
  (rltb (maxabs (s_res s)) f_tol || small_step last_step (s_x s) x_tol)%bool.

Variable f : vec -> vec * mat.                             (* fun *)

(* ---------- direction.py ---------- *)
Record proposal := Prop_ { d_dir : vec; d_slope : R }.
Definition orient (dx : vec) (slope : R) : proposal := if rleb 0 slope then Prop_ (vneg dx) (- slope) else Prop_ dx slope.
Inductive direction :=
| Newton (lin : mat -> vec -> option vec)
| Chord (lin : mat -> vec -> option vec) (recompute_every : nat)
| Krylov (solve : option (mat -> vec -> R -> option vec)) (* None: unknown method name *) (eta_max eta_min : R) (eisenstat_walker : bool).
(* the mutable fields of the strategy objects *)
Record dstate := DS { cached_jac : option mat; call_count : nat; eta : R; prev_res_norm : R; prev_pred_norm : R }.
Definition fresh_dstate : dstate := DS None 0 (9 / 10) 0 0.
(* reset, called by init *)
Definition reset (d : direction) (s : dstate) : dstate :=
  match d with
  | Newton _ => s
  | Chord _ _ => DS None 0 (eta s) (prev_res_norm s) (prev_pred_norm s)
  | Krylov _ eta_max _ _ => DS (cached_jac s) (call_count s) eta_max 0 0
  end.
Definition clip (x lo hi : R) : R := Rmin (Rmax x lo) hi.
Definition or_gradient (dx : option vec) (J : mat) (res : vec) : vec := match dx with Some v => v | None => vneg (tmv J res) end.
Definition compute (d : direction) (s : dstate) (res : vec) (jac : mat) : result (dstate * proposal) :=
  match d with
  | Newton lin =>
      let dx := or_gradient (lin jac (vneg res)) jac res in
      Ok (s, orient dx (dot res (mv jac dx)))
  | Chord lin every =>
      refresh <- match cached_jac s with
                 | None => Ok true
                 | Some _ => if Nat.eqb every 0 then Err ZeroDivisionError else Ok (Nat.eqb (Nat.modulo (call_count s) every) 0)
                 end ;;
      let J := match cached_jac s with Some J' => if (refresh : bool) then jac else J' | None => jac end in
      let dx := or_gradient (lin J (vneg res)) J res in
      Ok (DS (Some J) (S (call_count s)) (eta s) (prev_res_norm s) (prev_pred_norm s), orient dx (dot res (mv jac dx)))
  | Krylov solve eta_max eta_min ew =>
      let res_norm := norm res in
      let eta' := if (ew && rltb 0 (prev_res_norm s))%bool
                  then clip (Rmax (Rabs (res_norm - prev_pred_norm s) / prev_res_norm s) (eta s * eta s)) eta_min eta_max
                  else eta s in
      match solve with
      | None => Err ValueError
      | Some fn =>
          let dx := or_gradient (fn jac (vneg res) (eta' * res_norm)) jac res in
          Ok (DS (cached_jac s) (call_count s) eta' res_norm (norm (vadd res (mv jac dx))), orient dx (dot res (mv jac dx)))
      end
  end.

(* ---------- globalization.py ---------- *)
Record searched := Found { f_x : vec; f_res : vec; f_jac : mat; f_phi : R; f_alpha : R; f_evals : nat; f_calls : nat }.
Section Search.
Variables (c1 beta : R) (max_iter : nat) (merit_fun : option (vec -> vec)).
(* the loop; k trials are left, the next one is number n_evals; None is RuntimeError *)
Fixpoint backtrack (x dx : vec) (slope phi_ref : R) (k : nat) (alpha : R) (n_evals : nat) : option searched :=
  match k with
  | O => None
  | S k' =>
      let x_trial := vadd x (vscale alpha dx) in
      match merit_fun with
      | None =>
          let '(res_trial, jac_trial) := f x_trial in
          let phi_trial := merit res_trial in
          if rleb phi_trial (phi_ref + c1 * alpha * slope)
          then Some (Found x_trial res_trial jac_trial phi_trial alpha n_evals n_evals)
          else backtrack x dx slope phi_ref k' (alpha * beta) (S n_evals)
      | Some g =>
          let phi_trial := merit (g x_trial) in
          if rleb phi_trial (phi_ref + c1 * alpha * slope)
          then let '(res_trial, jac_trial) := f x_trial in
               Some (Found x_trial res_trial jac_trial phi_trial alpha (n_evals + 1) 1)
          else backtrack x dx slope phi_ref k' (alpha * beta) (S n_evals)
      end
  end.
Definition failed_calls : nat := match merit_fun with None => max_iter | Some _ => 0 end.
Definition armijo (x : vec) (phi_current : R) (p : proposal) : option searched :=
  backtrack x (d_dir p) (d_slope p) phi_current max_iter 1 1.
End Search.
Inductive globalization :=
| Armijo (c1 beta : R) (max_iter : nat) (merit_fun : option (vec -> vec))
| Nonmonotone (c1 beta : R) (max_iter memory : nat) (merit_fun : option (vec -> vec)).
(* deque(maxlen=memory).append *)
Definition push (memory : nat) (h : list R) (x : R) : list R := let h' := (h ++ [x])%list in skipn (length h' - memory)%nat h'.
Fixpoint list_max (x : R) (l : list R) : R := match l with nil => x | y :: l' => Rmax x (list_max y l') end.
(* search: the new history, and what was found *)
Definition search (g : globalization) (h : list R) (x : vec) (phi : R) (p : proposal) : result (list R * option searched) :=
  match g with
  | Armijo c1 beta max_iter mf => Ok (h, backtrack c1 beta mf x (d_dir p) (d_slope p) phi max_iter 1 1)
  | Nonmonotone c1 beta max_iter memory mf =>
      let h' := push memory h phi in
      match h' with
      | nil => Err ValueError                              (* max of an empty deque *)
      | y :: l => Ok (h', backtrack c1 beta mf x (d_dir p) (d_slope p) (list_max y l) max_iter 1 1)
      end
  end.
Definition search_iterations (g : globalization) : nat := match g with Armijo _ _ k _ => k | Nonmonotone _ _ k _ _ => k end.
Definition search_merit (g : globalization) : option (vec -> vec) := match g with Armijo _ _ _ m => m | Nonmonotone _ _ _ _ m => m end.

(* ---------- the solvers ---------- *)
Definition start (x0 : vec) : state := let '(r, J) := f x0 in ST x0 r J (merit r) 0 1.
Definition advance (s : state) (x : vec) (r : vec) (J : mat) (phi : R) (evals : nat) : state :=
  ST x r J phi (S (s_nit s)) (s_nfev s + evals).
(* line_search.py *)
Definition line_step (d : direction) (g : globalization) (m : dstate * list R) (s : state)
  : result ((dstate * list R) * state * info) :=
  dp <- compute d (fst m) (s_res s) (s_jac s) ;;
  hf <- search g (snd m) (s_x s) (s_phi s) (snd dp) ;;
  match snd hf with
  | None => Ok ((fst dp, fst hf), s, Info false vzero (failed_calls (search_iterations g) (search_merit g)))
  | Some ls => Ok ((fst dp, fst hf), advance s (f_x ls) (f_res ls) (f_jac ls) (f_phi ls) (f_evals ls),
                   Info true (vscale (f_alpha ls) (d_dir (snd dp))) (f_calls ls))
  end.

(* dogleg.py: _compute_dogleg_step l.59-110 *)
Definition tiny : R := / 10 ^ 30.
Definition dogleg_step (lin : mat -> vec -> option vec) (J : mat) (r g : vec) (delta : R) : vec :=
  let Jg := mv J g in
  let gTg := dot g g in
  let JgTJg := dot Jg Jg in
  if rltb JgTJg tiny then
    if rltb (norm g) tiny then vzero else vscale (- (delta / norm g)) g
  else
    let p_c := vscale (- (gTg / JgTJg)) g in
    match lin J (vneg r) with
    | None => if rleb (norm p_c) delta then p_c else vscale (delta / norm p_c) p_c
    | Some p_n =>
        if rleb (norm p_n) delta then p_n
        else if rleb delta (norm p_c) then vscale (delta / norm p_c) p_c
        else
          let diff := vsub p_n p_c in
          let dd := dot diff diff in
          let cd := dot p_c diff in
          let cc := dot p_c p_c in
          let discriminant := cd * cd - dd * (cc - delta * delta) in
          let tau := (- cd + sqrt (Rmax discriminant 0)) / dd in
          vadd p_c (vscale tau diff)
    end.
(* gauss_newton.py: _boundary_step l.60-70, _steihaug_cg l.9-57 *)
Definition boundary_step (p d : vec) (delta : R) : vec :=
  let pp := dot p p in
  let pd := dot p d in
  let dd := dot d d in
  let discriminant := pd * pd - dd * (pp - delta * delta) in
  vadd p (vscale ((- pd + sqrt (Rmax discriminant 0)) / dd) d).
Fixpoint cg_loop (J : mat) (g : vec) (delta : R) (k : nat) (p r d : vec) (r_dot_r : R) : vec :=
  match k with
  | O => p
  | S k' =>
      let Hd := tmv J (mv J d) in                          (* JtJ @ d *)
      let dHd := dot d Hd in
      if rleb dHd 0 then boundary_step p d delta
      else
        let alpha := r_dot_r / dHd in
        let p_next := vadd p (vscale alpha d) in
        if rleb delta (norm p_next) then boundary_step p d delta
        else
          let r' := vadd r (vscale alpha Hd) in
          let r_dot_r_new := dot r' r' in
          if rltb (sqrt r_dot_r_new) (/ 10 ^ 10 * norm g) then p_next
          else cg_loop J g delta k' p_next r' (vsub (vscale (r_dot_r_new / r_dot_r) d) r') r_dot_r_new
  end.
Definition steihaug (J : mat) (g : vec) (delta : R) : vec :=
  let rr := dot g g in
  if rltb (sqrt rr) (/ 10 ^ 15) then vzero
  else cg_loop J g delta (2 * n)%nat vzero g (vneg g) rr.

(* the common loop of SparseDogleg.step l.112-164 and GaussNewtonTrustRegion.step l.113-168; fuel counts the passes still allowed,
   None: out of fuel. State: the radius. *)
Record tr_options := TR { delta0 : R; delta_max : R; tr_eta : R; shrink : R; grow : R; max_reject : nat }.
Definition predicted (J : mat) (g p : vec) : R := - (dot g p + / 2 * dot (mv J p) (mv J p)).
Fixpoint tr_loop (o : tr_options) (sub : mat -> vec -> vec -> R -> vec) (s : state) (fuel : nat) (delta : R) (rejects nfev : nat)
  : option (R * state * info) :=
  match fuel with
  | O => None
  | S fuel' =>
      let J := s_jac s in
      let r := s_res s in
      let g := tmv J r in
      let p := sub J r g delta in
      let x_trial := vadd (s_x s) p in
      let '(res_trial, jac_trial) := f x_trial in
      let phi_trial := merit res_trial in
      let nfev := S nfev in
      let pred := predicted J g p in
      let reject :=
        if Nat.leb (max_reject o) (S rejects) then Some (delta * shrink o, s, Info false vzero nfev)
        else tr_loop o sub s fuel' (delta * shrink o) (S rejects) nfev in
      if rleb pred 0 then reject
      else
        let rho := (s_phi s - phi_trial) / pred in
        if rltb (tr_eta o) rho then
          let delta' := if (rltb (3 / 4) rho && rltb (9 / 10 * delta) (norm p))%bool then Rmin (grow o * delta) (delta_max o) else delta in
          Some (delta', advance s x_trial res_trial jac_trial phi_trial nfev, Info true p nfev)
        else reject
  end.
Definition tr_step (o : tr_options) (sub : mat -> vec -> vec -> R -> vec) (delta : R) (s : state) : option (R * state * info) :=
  tr_loop o sub s (S (max_reject o)) delta 0 0.
Definition dogleg_sub (lin : mat -> vec -> option vec) (J : mat) (r g : vec) (delta : R) : vec := dogleg_step lin J r g delta.
Definition gauss_newton_sub (J : mat) (r g : vec) (delta : R) : vec := steihaug J g delta.

(* levenberg_marquardt.py: step l.64-147. State: lambda. *)
Record lm_options := LM { lam0 : R; lam_up : R; lam_down : R; lm_eta : R; min_lam : R; max_lam : R; lm_max_reject : nat }.
Definition scaling (J : mat) : vec := fun i => Rmax 1 (rsum n (fun k => J k i * J k i)).
Definition damped (J : mat) (lam : R) : mat :=
  fun i j => rsum n (fun k => J k i * J k j) + (if Nat.eqb i j then lam * scaling J i else 0).
Fixpoint lm_loop (o : lm_options) (lin : mat -> vec -> option vec) (s : state) (fuel : nat) (lam : R) (rejects nfev : nat)
  : option (R * state * info) :=
  match fuel with
  | O => None
  | S fuel' =>
      let J := s_jac s in
      let r := s_res s in
      let g := tmv J r in
      let reject nfev :=
        let lam' := Rmin (lam * lam_up o) (max_lam o) in
        if (Nat.leb (lm_max_reject o) (S rejects) || rleb (max_lam o) lam')%bool
        then Some (lam', s, Info false vzero nfev)
        else lm_loop o lin s fuel' lam' (S rejects) nfev in
      match lin (damped J lam) (vneg g) with
      | None => reject nfev
      | Some p =>
          let x_trial := vadd (s_x s) p in
          let '(res_trial, jac_trial) := f x_trial in
          let phi_trial := merit res_trial in
          let nfev := S nfev in
          let pred := - (dot g p + / 2 * (dot (mv J p) (mv J p) + lam * dot (scaling J) (fun i => p i * p i))) in
          if rleb pred 0 then reject nfev
          else
            let rho := (s_phi s - phi_trial) / pred in
            if rltb (lm_eta o) rho then
              Some (Rmax (lam * lam_down o) (min_lam o), advance s x_trial res_trial jac_trial phi_trial nfev, Info true p nfev)
            else reject nfev
      end
  end.
Definition lm_step (o : lm_options) (lin : mat -> vec -> option vec) (lam : R) (s : state) : option (R * state * info) :=
  lm_loop o lin s (S (lm_max_reject o)) lam 0 0.

(* a solver object: its configuration, and its mutable fields *)
Inductive solver :=
| Line_search (d : direction) (g : globalization)
| Dogleg (o : tr_options) (lin : mat -> vec -> option vec)
| Gauss_newton (o : tr_options)
| Levenberg_marquardt (o : lm_options) (lin : mat -> vec -> option vec).
Record memory := Mem { m_dir : dstate; m_history : list R; m_scalar : R }.     (* m_scalar: _delta or _lam *)
Definition fresh : memory := Mem fresh_dstate nil 0.
Definition init (v : solver) (m : memory) : memory :=
  match v with
  | Line_search d _ => Mem (reset d (m_dir m)) (m_history m) (m_scalar m)
  | Dogleg o _ | Gauss_newton o => Mem (m_dir m) (m_history m) (delta0 o)
  | Levenberg_marquardt o _ => Mem (m_dir m) (m_history m) (lam0 o)
  end.
Inductive stepped := Stepped (m : memory) (s : state) (i : info) | Hangs.
Definition of_loop (m : memory) (r : option (R * state * info)) : stepped :=
  match r with Some (x, s, i) => Stepped (Mem (m_dir m) (m_history m) x) s i | None => Hangs end.
Definition step (v : solver) (m : memory) (s : state) : result stepped :=
  match v with
  | Line_search d g =>
      r <- line_step d g (m_dir m, m_history m) s ;;
      let '((ds, h), s', i) := r in Ok (Stepped (Mem ds h (m_scalar m)) s' i)
  | Dogleg o lin => Ok (of_loop m (tr_step o (dogleg_sub lin) (m_scalar m) s))
  | Gauss_newton o => Ok (of_loop m (tr_step o gauss_newton_sub (m_scalar m) s))
  | Levenberg_marquardt o lin => Ok (of_loop m (lm_step o lin (m_scalar m) s))
  end.

(* ---------- sparse_root.py ---------- *)
Record outcome := Outcome { o_x : vec; o_success : bool; o_fun : vec; o_jac : mat; o_nit : nat; o_nfev : nat }.
Definition make_result (s : state) (success : bool) : outcome := Outcome (s_x s) success (s_res s) (s_jac s) (s_nit s) (s_nfev s).
Inductive finished := Finished (o : outcome) (m : memory) (calls : nat) | Never.
(* the loop of _root_find_core, k passes left *)
Fixpoint iterate (v : solver) (f_tol x_tol : R) (k : nat) (m : memory) (s : state) (calls : nat) : result finished :=
  match k with
  | O => Ok (Finished (make_result s false) m calls)
  | S k' =>
      r <- step v m s ;;
      match r with
      | Hangs => Ok Never
      | Stepped m' s' i =>
          let calls := (calls + i_calls i)%nat in
          if negb (i_accepted i) then Ok (Finished (make_result s' false) m' calls)
          else if converged s' f_tol x_tol (i_step i) then Ok (Finished (make_result s' true) m' calls)
          else iterate v f_tol x_tol k' m' s' calls
      end
  end.
(* sparse_root with explicit tolerances: the result, the solver object afterwards and the number of calls of the wrapped function *)
Definition sparse_root (v : solver) (m : memory) (x0 : vec) (f_tol x_tol : R) (maxiter : nat) : result finished :=
  let m := init v m in
  let s := start x0 in
  if Nat.eqb n 0 then Err ValueError                       (* np.max of an empty array *)
  else if rltb (maxabs (s_res s)) f_tol then Ok (Finished (make_result s true) m 1)
  else iterate v f_tol x_tol maxiter m s 1.
(* the limit handed to the wrapper, l.77-80 *)
Definition max_evaluations (v : solver) (maxiter : nat) : nat :=
  (maxiter * (match v with Line_search _ g => search_iterations g | _ => 50 end + 1))%nat.
End Root.
