(* Concrete instances: counterexamples and satisfiability witnesses for the expression properties. *)
From Coq Require Import QArith Qcanon.
From Verif Require Import Common Expr_Model Expr_Spec Expr_Lex Expr_Proofs Expr_RoundTrip.
Local Open Scope list_scope.

Lemma nread_nprint n : nread (nprint n) = n.
Proof. unfold nread, nprint. rewrite undec_dec. reflexivity. Qed.
Lemma nprint_lit n : numlit (nprint n).
Proof.
  exists (dec n), []. split; [rewrite app_nil_r; reflexivity|]. split; [|constructor].
  apply mant_int. split; [apply dec_nonempty|apply dec_digits].
Qed.

Definition pa : expr N := Par (str "a"). Definition pb : expr N := Par (str "b"). Definition pc : expr N := Par (str "c").
Definition w_sub : expr N := Bin SUB pa (Bin SUB pb pc).     (* a - (b - c) *)
Definition w_div : expr N := Bin DIV pa (Bin MUL pb pc).     (* a / (b * c) *)
Definition w_pow : expr N := Bin POW (Bin POW pa pb) pc.     (* (a ^ b) ^ c *)
Definition w_powmul : expr N := Bin POW pa (Bin MUL pb pc).  (* a ^ (b * c) *)

Lemma wit_wf : wf nprint nread w_sub /\ wf nprint nread w_div /\ wf nprint nread w_pow /\ wf nprint nread w_powmul.
Proof. cbn. repeat split. Qed.

Lemma roundtrip_fails : exists e : expr N, wf nprint nread e /\
  (exists src, parse_expression nread src = Ok e) /\
  parse_expression nread (print_expression nprint e 0) <> Ok e.
Proof.
  exists w_sub. split; [apply wit_wf|]. split; [exists (str "a - (b - c)"); reflexivity|]. vm_compute. discriminate.
Qed.

(* integer arithmetic *)
Definition Zalg : algebra Z := Alg Z Z.add Z.sub Z.mul Z.div Z.pow Z.opp (fun _ _ => 0%Z) (fun z => z).
Definition rho (n : chars) : Z := if chars_eqb n (str "a") then 2 else if chars_eqb n (str "b") then 3 else 5.
Definition zev (e : expr N) : Z := eval Zalg Z.of_N rho (fun _ _ => 0%Z) e.
Definition reread (e : expr N) : result (expr N) := parse_expression nread (print_expression nprint e 0).
Definition value_lost (e : expr N) : Prop :=
  wf nprint nread e /\ (exists src, parse_expression nread src = Ok e) /\
  exists e', reread e = Ok e' /\ zev e' <> zev e.
Lemma value_changes : value_lost w_sub /\ value_lost w_pow /\ value_lost w_powmul /\
  value_lost (Bin DIV (Num 100%N) (Bin MUL pa pa)).
Proof.
  assert (G : forall e src e', wf nprint nread e -> parse_expression nread src = Ok e -> reread e = Ok e' ->
     zev e' <> zev e -> value_lost e).
  { intros e src e' H1 H2 H3 H4. split; [exact H1|]. split; [exists src; exact H2|]. exists e'. split; assumption. }
  split; [|split; [|split]].
  - apply (G _ (str "a - (b - c)") (Bin SUB (Bin SUB pa pb) pc)); try (vm_compute; reflexivity); [apply wit_wf|vm_compute; discriminate].
  - apply (G _ (str "(a ^ b) ^ c") (Bin POW pa (Bin POW pb pc))); try (vm_compute; reflexivity); [apply wit_wf|vm_compute; discriminate].
  - apply (G _ (str "a ^ (b * c)") (Bin MUL (Bin POW pa pb) pc)); try (vm_compute; reflexivity); [apply wit_wf|vm_compute; discriminate].
  - apply (G _ (str "100 / (a * a)") (Bin MUL (Bin DIV (Num 100%N) pa) pa)); try (vm_compute; reflexivity); [|vm_compute; discriminate].
    split; [split; [apply nprint_lit|apply nread_nprint]|]. split; (split; reflexivity).
Qed.

(* rationals satisfy the associativity laws *)
Definition Qcalg : algebra Qc :=
  Alg Qc Qcplus Qcminus Qcmult Qcdiv (fun x _ => x) Qcopp (fun _ _ => Q2Qc 0) (fun z => z).
Lemma Qcalg_laws : assoc_laws Qcalg.
Proof.
  split; intros a b c; cbn.
  - apply Qcplus_assoc.
  - unfold Qcminus. apply Qcplus_assoc.
  - apply Qcmult_assoc.
  - unfold Qcdiv. apply Qcmult_assoc.
Qed.

Lemma neg_pow {F} (fread : chars -> F) a b s1 s2 : Text fread LUn a s1 -> Text fread LPow b s2 ->
  parse_expression fread (str "-" ++ s1 ++ str "^" ++ s2) = Ok (Bin POW (Neg a) b).
Proof.
  intros Ha Hb. rewrite <- (app_nil_r (str "-" ++ s1 ++ str "^" ++ s2)). apply parse_complete; [|reflexivity].
  eapply text_weaken with (l := LPow); [cbn; lia|].
  replace (str "-" ++ s1 ++ str "^" ++ s2) with (([] ++ str "-" ++ s1) ++ [] ++ str "^" ++ s2) by (rewrite <- !app_assoc; reflexivity).
  apply (T_bin fread POW); [apply T_neg; [reflexivity|exact Ha]|reflexivity|constructor|exact Hb].
Qed.
Lemma neg_pow_not_usual : parse_expression nread (str "-a^2") <> Ok (Neg (Bin POW pa (Num 2%N))) /\
  exists e, parse_expression nread (str "-a^2") = Ok e /\ zev e = 4%Z /\ zev (Neg (Bin POW pa (Num 2%N))) = (-4)%Z.
Proof.
  split; [vm_compute; discriminate|]. exists (Bin POW (Neg pa) (Num 2%N)). repeat split; vm_compute; reflexivity.
Qed.
