(* Statements' vocabulary for the parameter, distribution and variable bookkeeping. *)
From Verif Require Import Common Sym_Model Sym_Spec Build_Model.
From Coq Require Import Permutation.
Local Open Scope list_scope.

(* every name is declared once over all blocks *)
Definition once (ds : list sdict) : Prop := NoDup (map fst (concat ds)).
(* a symbol written in a model equation or in a steady-state relation *)
Definition mentioned (eqs : list sx) (rels : list (sx * sx)) (s : sym) : Prop :=
  (exists e, In e eqs /\ In s (atoms e)) \/ (exists r, In r rels /\ (In s (atoms (fst r)) \/ In s (atoms (snd r)))).

(* The groups of parameters of a model whose blocks declare [frees], [calibs], [dets] and whose shock distributions
   refer to [hyper]. *)
Record grouped (frees calibs dets : list sdict) (hyper : list sym) (eqs : list sx) (rels : list (sx * sx)) (p : params) : Prop := Grouped {
  g_free : forall k v, In (k, v) (pr_free p) <-> In (k, v) (concat frees) /\ ~ In k hyper;
  g_hyper : forall k v, In (k, v) (pr_hyper p) <-> In (k, v) (concat frees) /\ In k hyper;
  g_calib : forall k v, In (k, v) (pr_calib p) <-> In (k, v) (concat calibs);
  (* deterministic parameters are kept iff an equation mentions them *)
  g_det : forall k, In k (map fst (pr_det p)) <-> In k (map fst (concat dets)) /\ mentioned eqs rels k;
  (* and their expressions are expanded, without change of value, down to non-deterministic symbols *)
  g_flat : forall k w s, In (k, w) (pr_det p) -> In s (atoms w) -> ~ In s (map fst (concat dets));
  g_value : forall V (A : alg V) env, model_of A env (concat dets) -> model_of A env (pr_det p);
  (* each group lists each name once *)
  g_once : NoDup (map fst (pr_free p)) /\ NoDup (map fst (pr_hyper p)) /\ NoDup (map fst (pr_calib p)) /\ NoDup (map fst (pr_det p)) }.

Definition declared (p : params) (s : sym) : Prop :=
  In s (map fst (pr_free p)) \/ In s (map fst (pr_calib p)) \/ In s (map fst (pr_det p)).
(* the expression that counts for a name: deterministic over calibrated over free *)
Definition expression_of (p : params) (k : sym) (e : sx) : Prop :=
  In (k, e) (pr_det p) \/
  (~ In k (map fst (pr_det p)) /\ In (k, e) (pr_calib p)) \/
  (~ In k (map fst (pr_det p)) /\ ~ In k (map fst (pr_calib p)) /\ In (k, e) (pr_free p)).
Definition in_expression (p : params) (s : sym) : Prop := exists k e, expression_of p k e /\ In s (atoms e).
Definition orphan eqs rels (p : params) (s : sym) : Prop :=
  (exists n, s = SPar n) /\ mentioned eqs rels s /\ ~ declared p s /\ ~ in_expression p s.
Definition unused eqs rels (dist_atoms : list sym) (p : params) (s : sym) : Prop :=
  declared p s /\ ~ mentioned eqs rels s /\ ~ in_expression p s /\ ~ In s dist_atoms.

(* ---- names with numbers ---- *)
Definition ends_with_digit (s : chars) : Prop := exists p c, s = p ++ [c] /\ is_digit c = true.
Definition starts_with_digit (s : chars) : Prop := exists c r, s = c :: r /\ is_digit c = true.
