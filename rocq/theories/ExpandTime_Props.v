(* Properties C07-C09 and C41: rewriting of dates outside [-1, 1]. *)
From Verif Require Import Common Expr_Model ExpandTime_Model ExpandTime_Spec ExpandTime_Proofs ExpandTime_More.
Local Open Scope list_scope.

Theorem C07_all_dates_near :
  forall (F X : Type) (b : gblock F X) (x : chars) (t : tix),
    In (x, t) (occs_block (expand_block b)) -> near t.
Proof. exact @expand_near. Qed.
Print Assumptions C07_all_dates_near.

Theorem C07_near_blocks_untouched :
  forall (F X : Type) (b : gblock F X),
    (forall x t, In (x, t) (occs_block b) -> near t) -> expand_block b = b.
Proof. exact @near_unchanged. Qed.
Print Assumptions C07_near_blocks_untouched.

Theorem C07_expansion_idempotent :
  forall (F X : Type) (b : gblock F X), expand_block (expand_block b) = expand_block b.
Proof. exact @expand_idem. Qed.
Print Assumptions C07_expansion_idempotent.

(* Names, multipliers, tags, calibrating markers, and the other components survive, in order. *)
Theorem C07_annotations_kept :
  forall (F X : Type) (b : gblock F X),
  let annot q := (lagrange q, calibrating q, tags (F:=F) q) in
  bname (expand_block b) = bname b /\ other (expand_block b) = other b /\
  map annot (definitions (expand_block b)) = map annot (definitions b) /\
  map annot (objective (expand_block b)) = map annot (objective b) /\
  map annot (constraints (expand_block b)) = map annot (constraints b) /\
  (exists new, map annot (identities (expand_block b)) = map annot (identities b) ++ map annot new) /\
  length (controls (expand_block b)) = length (controls b).
Proof. exact @expand_keeps. Qed.
Print Assumptions C07_annotations_kept.

Example C07_C08_concrete : expand_block ex_ar3 =
  blk [eqn (v "x" 0) (Bin ADD (v "x__lag2" (-1)) (v "z__lead1" 1));
       eqn (v "x__lag1" 0) (v "x" (-1)); eqn (v "x__lag2" 0) (v "x__lag1" (-1));
       eqn (v "z__lead1" 0) (Expec (v "z" 1))].
Proof. vm_compute. reflexivity. Qed.

(* Perfect-foresight meaning: solutions of the rewritten block are exactly the solutions of the original block in
   which the auxiliary variables carry the lag / lead their name promises. *)
Theorem C08_same_solutions :
  forall (F X V : Type) (I : interp F V) (b : gblock F X) (p : path V), foresight I ->
    (solves I p (expand_block b) <-> solves I p b /\ lags_right b p /\ leads_right b p).
Proof. exact (fun F X V I b p => @expand_foresight F X V I b p). Qed.
Print Assumptions C08_same_solutions.

(* Every solution of the original extends to the rewritten block, in one way only. *)
Theorem C08_every_solution_extends_uniquely :
  forall (F X V : Type) (I : interp F V) (b : gblock F X) (p : path V),
    foresight I -> fresh b -> solves I p b ->
    exists p', agree_off_aux b p p' /\ solves I p' (expand_block b) /\
      (forall p'', agree_off_aux b p p'' -> solves I p'' (expand_block b) -> forall n t, p'' n t = p' n t).
Proof. exact @expand_extends. Qed.
Print Assumptions C08_every_solution_extends_uniquely.

(* For lags alone no assumption on expectations is needed. *)
Theorem C08_lags_exact_under_uncertainty :
  forall (F X V : Type) (I : interp F V) (b : gblock F X) (p : path V),
    (forall x k, ~ uses_lead b x k) ->
    (solves I p (expand_block b) <-> solves I p b /\ lags_right b p).
Proof. exact @lag_chain_any_E. Qed.
Print Assumptions C08_lags_exact_under_uncertainty.

Example C08_hypotheses_met : fresh ex_ar3 /\ foresight Zdet /\
  (exists p, solves Zdet p ex_ar3 /\ p (str "x") 0%Z <> p (str "x") 1%Z).
Proof.
  split; [|split].
  - intros n t Hin. cbn in Hin. intros [(x & k & _ & E)|(x & k & _ & E)];
    apply (f_equal (@length ascii)) in E; unfold lag_name, lead_name in E; rewrite !app_length in E;
    destruct Hin as [H|[H|[H|[]]]]; injection H as <- <-; cbn in E; lia.
  - intros t w. reflexivity.
  - exists (fun n t => if chars_eqb n (str "x") then t else 3)%Z. split; [|cbn; lia].
    intros q [<-|[]] t. cbn. lia.
Qed.

(* Without freshness the property fails: a user variable named x__lag1 is silently tied to x. *)
Theorem C08_name_clash_refuted :
  ~ (forall (b : gblock Z unit) (p : path Z), solves Zdet p b ->
       exists p', (forall t, p' (str "x") t = p (str "x") t) /\ solves Zdet p' (expand_block b)).
Proof. exact clash_refutes. Qed.
Print Assumptions C08_name_clash_refuted.

(* One block: the added equations are one per auxiliary variable, no more, no fewer. *)
Theorem C09_one_equation_per_auxiliary :
  forall (F X : Type) (b : gblock F X), exists s new,
    identities (expand_block b) = map (replace_eq s) (identities b) ++ new /\
    NoDup (map (fun q => match lhs q with Var n _ => n | _ => [] end) new) /\
    (forall n, In n (map (fun q => match lhs q with Var n _ => n | _ => [] end) new) <-> is_aux b n).
Proof. exact (fun F X b => ex_intro _ (deep_dicts b) (added_identities b)). Qed.
Print Assumptions C09_one_equation_per_auxiliary.

(* Whole model: false.  Two blocks that both use K[-2] each add the equation K__lag1[] = K[-1]. *)
Theorem C09_once_per_model_refuted :
  ~ (forall m : list (gblock Z unit),
       NoDup (flat_map (@identities Z unit) m) -> NoDup (flat_map (@identities Z unit) (expand_model m))).
Proof. exact two_blocks_refute. Qed.
Print Assumptions C09_once_per_model_refuted.

(* With uncertainty, a lead of two or more periods is given the meaning "next period's forecast". *)
Theorem C41_deep_leads_become_forecasts :
  forall (F X V : Type) (I : interp F V) (b : gblock F X) (p : path V), tower I ->
    (solves I p (expand_block b) <-> solves_fc I p b /\ lags_right b p /\ leads_forecast I b p).
Proof. exact (fun F X V I b p => @expand_exact F X V I b p). Qed.
Print Assumptions C41_deep_leads_become_forecasts.

Theorem C41_exact_when_leads_linear :
  forall (F X V : Type) (I : interp F V) (b : gblock F X) (p : path V),
    tower I -> linear_E I -> block_leads_linear b ->
    (solves I p (expand_block b) <-> solves I p b /\ lags_right b p /\ leads_forecast I b p).
Proof. exact @expand_linear. Qed.
Print Assumptions C41_exact_when_leads_linear.

(* In general the rewriting changes the model: y[] = E[][x[2]^2] with x[2] = +-1 by a coin toss. *)
Theorem C41_same_model_under_uncertainty_refuted :
  ~ (forall (I : interp Z coin) (b : gblock Z unit) (p : path coin), tower I ->
       solves I p b -> leads_forecast I b p -> lags_right b p -> solves I p (expand_block b)).
Proof. exact jensen_refutes. Qed.
Print Assumptions C41_same_model_under_uncertainty_refuted.

Example C41_linear_hypotheses_met : tower Heads /\ linear_E Heads /\ block_leads_linear lin_block /\ ~ foresight Heads.
Proof. destruct heads_ok as (A & B & C). repeat split; try apply B; try assumption. all: try (apply C; assumption).
  intro H. specialize (H 0%Z (1, 2)%Z). discriminate. Qed.
