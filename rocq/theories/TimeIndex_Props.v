(* Properties C01-C03: symbols and their time index. *)
From Verif Require Import Common TimeIndex_Model TimeIndex_Proofs.
Local Open Scope list_scope.

Theorem C01_name_identifies_symbol :
  forall (A : Type) (s1 s2 : tsym A),
    name s1 = name s2 -> base s1 = base s2 /\ tix s1 = tix s2.
Proof. exact @name_inj. Qed.
Print Assumptions C01_name_identifies_symbol.

Theorem C01_safe_name_identifies_symbol :
  forall (A : Type) (s1 s2 : tsym A),
    ~ In "+"%char (base s1) -> ~ In "-"%char (base s1) ->
    ~ In "+"%char (base s2) -> ~ In "-"%char (base s2) ->
    safe_name s1 = safe_name s2 -> base s1 = base s2 /\ tix s1 = tix s2.
Proof. exact @safe_name_inj. Qed.
Print Assumptions C01_safe_name_identifies_symbol.

(* The concrete strings users see. *)
Example C01_names_look_right :
  name (TSym (str "K") (TInt (-12)) tt) = str "K_t-12" /\
  name (TSym (str "K") (TInt 0) tt) = str "K_t" /\
  name (TSym (str "K") (TInt 3) tt) = str "K_t+3" /\
  name (TSym (str "K") TSs tt) = str "K_ss" /\
  safe_name (TSym (str "K") (TInt (-12)) tt) = str "K_tm12".
Proof. repeat split. Qed.
(* A base name that looks like a dated name does not collide with the dated symbol. *)
Example C01_adversarial :
  name (TSym (str "x_t-1") (TInt 0) tt) <> name (TSym (str "x") (TInt (-1)) tt).
Proof. discriminate. Qed.

Theorem C02_forward_backward_inverse :
  forall (A : Type) (s : tsym A) (t : Z), tix s = TInt t ->
    bind (step_forward s) step_backward = Ok s /\ bind (step_backward s) step_forward = Ok s.
Proof. exact (fun A s t H => conj (back_fwd s t H) (fwd_back s t H)). Qed.
Print Assumptions C02_forward_backward_inverse.

(* Any mixture of forward and backward steps amounts to setting the net date. *)
Theorem C02_steps_add_up :
  forall (A : Type) (cs : list call) (s : tsym A) (t : Z),
    tix s = TInt t -> forallb (fun c => match c with CFwd | CBwd => true | _ => false end) cs = true ->
    run cs s = set_t s (RInt (fold_left (fun z c => z + match c with CFwd => 1 | CBwd => -1 | _ => 0 end) cs t))%Z.
Proof. exact @run_steps. Qed.
Print Assumptions C02_steps_add_up.

Theorem C02_identity_preserved :
  forall (A : Type) (cs : list call) (s s' : tsym A),
    run cs s = Ok s' -> base s' = base s /\ asm s' = asm s.
Proof. exact @run_keeps. Qed.
Print Assumptions C02_identity_preserved.

Theorem C02_set_t_and_to_ss_forget_history :
  forall (A : Type) (cs : list call) (s s1 : tsym A) (r : raw_t),
    run cs s = Ok s1 -> set_t s1 r = set_t s r /\ to_ss s1 = to_ss s.
Proof. exact (fun A cs s s1 r H => conj (set_t_forgets cs s s1 r H) (to_ss_forgets cs s s1 H)). Qed.
Print Assumptions C02_set_t_and_to_ss_forget_history.

Theorem C02_exit_ss :
  forall (A : Type) (s : tsym A),
    exit_ss (to_ss s) = TSym (base s) (TInt 0) (asm s) /\
    (forall t, tix s = TInt t -> exit_ss s = s).
Proof. exact @exit_ss_spec. Qed.
Print Assumptions C02_exit_ss.

(* The only way a call sequence with valid set_t arguments can fail is stepping from "ss". *)
Theorem C02_only_failure_is_stepping_ss :
  forall (A : Type) (cs : list call) (s : tsym A),
    (forall c, In c cs -> forall x, c = CSetT (RStr x) -> x = str "ss") ->
    (exists s', run cs s = Ok s') \/
    (run cs s = Err TypeError /\
     exists pre c post s1, cs = pre ++ c :: post /\
       match c with CFwd | CBwd => true | _ => false end = true /\
       run pre s = Ok s1 /\ tix s1 = TSs).
Proof. exact @run_ok_iff. Qed.
Print Assumptions C02_only_failure_is_stepping_ss.

Example C02_nontrivial :
  run [CFwd; CFwd; CBwd; CToSs; CExitSs; CBwd] (TSym (str "K") (TInt 5) tt)
  = Ok (TSym (str "K") (TInt (-1)) tt).
Proof. reflexivity. Qed.

(* C03: the to_ss docstring (l.117-121) says stepping leaves a steady-state symbol unchanged. *)
Theorem C03_step_in_ss_unchanged_refuted :
  exists s : tsym unit, step_forward (to_ss s) <> Ok (to_ss s) /\ step_backward (to_ss s) <> Ok (to_ss s).
Proof. exact ss_step_changes. Qed.
Print Assumptions C03_step_in_ss_unchanged_refuted.

(* What happens instead, for every symbol. *)
Theorem C03_step_in_ss_always_raises :
  forall (A : Type) (s : tsym A),
    step_forward (to_ss s) = Err TypeError /\ step_backward (to_ss s) = Err TypeError.
Proof. exact (fun A s => conj eq_refl eq_refl). Qed.
Print Assumptions C03_step_in_ss_always_raises.
