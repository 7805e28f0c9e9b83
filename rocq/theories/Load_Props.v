(* C133-C136: from the text of a model file to its equations *)
From Verif Require Import Common Expr_Model Expr_RoundTrip Sym_Model Sym_Spec Sym_Proofs SymDict_Model ExpandTime_Spec ExpandTime_Proofs
  Load_Model Load_Spec Load_Proofs Load_Proofs2 Load_Proofs3.
From Verif Require Gcn_Spec Gcn_Model Gcn_Grammar Gcn_Meaning Gcn_Props2 Expr_Lex Block_Model.
From Coq Require Import Reals Lra R_Ifp Permutation.
Local Open Scope list_scope.

(* ---- a concrete setting: numbers are their texts, functions are the usual ones ---- *)
Definition demo_whole (v : chars) : result (option Z) :=
  if chars_eqb v (str "1e999") then Err ovf else Ok (option_map Z.of_N (undec v)).
Definition demo_lit (v : chars) : chars := str "num" ++ v.
Definition demo_arith (o : Gcn_Model.dop) (a b : chars) : result chars := Ok (a ++ b).
Definition ido : set_order := nodup sym_eq_dec.
Definition ida : list sx -> list sx := fun l => l.
Definition demo_load (t : string) := load_gcn_string demo_whole demo_lit ido ido ida (fun x => x) demo_arith (str t).

Definition after (p f : chars) : option chars := if chars_eqb (firstn (length p) f) p then Some (skipn (length p) f) else None.
Definition exponent (r : chars) : Z :=
  match r with
  | c :: r' => if Ascii.eqb c "-" then match undec r' with Some n => (- Z.of_N n)%Z | None => 0%Z end
               else match undec r with Some n => Z.of_N n | None => 0%Z end
  | [] => 0%Z
  end.
Local Open Scope R_scope.
Definition demo_fn (f : chars) (k : nat) (x : R) : R :=
  match k with
  | O => if chars_eqb f (str "inv") then / x
         else match after (str "pow") f with
              | Some r => powerRZ x (exponent r)
              | None => match after (str "num") f with
                        | Some _ => / 2
                        | None => if chars_eqb f (str "exp") then exp x else if chars_eqb f (str "log") then ln x
                                  else if chars_eqb f (str "sqrt") then sqrt x else x
                        end
              end
  | S _ => 0
  end.
Definition demo_smooth : smooth := Smooth demo_fn (fun _ _ => False) (fun f k x H => False_ind _ H).
Definition demo_pow (x y : R) : R := if Rlt_dec 0 x then exp (y * ln x) else powerRZ x (Int_part y).
Definition demo_interp (par ss : chars -> R) : interp chars R :=
  Interp R (fun v => match undec v with Some n => IZR (Z.of_N n) | None => / 2 end) par Ropp
    (fun o => match o with ADD => Rplus | SUB => Rminus | MUL => Rmult | DIV => Rdiv | POW => demo_pow end)
    (fun f l => match l with [x] => demo_fn f 0 x | [x; b] => ln x / ln b | _ => 0 end) ss (fun _ v => v).
Lemma Int_part_IZR z : Int_part (IZR z) = z.
Proof. unfold Int_part. rewrite <- (up_tech (IZR z) z); [lia|lra|]. rewrite plus_IZR. lra. Qed.
Lemma undec_nonempty n : exists c r, dec n = c :: r /\ Ascii.eqb c "-" = false.
Proof.
  pose proof (dec_digits n) as Hd. destruct (dec n) as [|c r] eqn:E.
  - pose proof (undec_dec n) as H. rewrite E in H. discriminate.
  - exists c, r. split; [reflexivity|]. cbn in Hd. apply andb_true_iff in Hd as [Hd _]. destruct (Ascii.eqb c "-") eqn:Ec; [|reflexivity].
    apply Ascii.eqb_eq in Ec. subst. discriminate.
Qed.
Lemma exponent_pow z : after (str "pow") (pow_name z) = Some ((if Z.ltb z 0 then str "-" else []) ++ dec (Z.abs_N z)) /\
  exponent ((if Z.ltb z 0 then str "-" else []) ++ dec (Z.abs_N z)) = z.
Proof.
  split; [reflexivity|]. destruct (Z.ltb_spec z 0).
  - cbn. rewrite undec_dec. lia.
  - cbn [app]. destruct (undec_nonempty (Z.abs_N z)) as (c & r & E & Ec). unfold exponent. rewrite E, Ec, <- E, undec_dec. lia.
Qed.
Theorem C133_usual_case par ss : usual demo_whole demo_lit demo_smooth (demo_interp par ss).
Proof.
  constructor; try reflexivity.
  - intros v z. unfold demo_whole. destruct (chars_eqb v _); [discriminate|]. cbn. destruct (undec v); cbn; intro H; [|discriminate]. now injection H as <-.
  - intros v x. unfold demo_whole. destruct (chars_eqb v _); [discriminate|]. cbn [demo_interp i_num]. destruct (undec v); cbn; intro H; [discriminate|]. reflexivity.
  - intros x z. cbn [demo_interp i_op demo_smooth s_fn demo_fn]. destruct (exponent_pow z) as [E1 E2]. rewrite E1, E2.
    replace (chars_eqb (pow_name z) (str "inv")) with false by reflexivity. unfold demo_pow. destruct (Rlt_dec 0 x) as [Hx|Hx].
    + rewrite powerRZ_Rpower by exact Hx. reflexivity.
    + now rewrite Int_part_IZR.
  - intros x y Hx. cbn [demo_interp i_op]. unfold demo_pow. destruct (Rlt_dec 0 x); [reflexivity|contradiction].
  - intros t v; reflexivity.
Qed.
Local Close Scope R_scope.

Section T.
Context {F : Type} (whole : F -> result (option Z)) (lit : F -> chars).
(* ---- C133: one expression ---- *)
Theorem C133_value (G : smooth) (I : interp F R) p t e x : usual whole lit G I -> convert whole lit e = Ok x -> bases_ok whole I p t e ->
  ev (Ralg G) (at_date I p t) x = den I p t e.
Proof. exact (convert_value whole lit G I p t e x). Qed.
Theorem C133_accepted e : (exists x, convert whole lit e = Ok x) <-> usable whole lax_arity e.
Proof. exact (convert_accepts whole lit e). Qed.
Theorem C133_errors e x : convert whole lit e = Err x -> x = ValueError \/ x = TypeError \/ exists v, whole v = Err x.
Proof. exact (convert_errors whole lit e x). Qed.
Theorem C133_same_symbols e x : convert whole lit e = Ok x -> usable whole arity e -> forall s, In s (atoms x) <-> In s (written_symbols e).
Proof. exact (convert_atoms whole lit e x). Qed.
(* a call of an unknown function is an error whatever its arguments *)
Theorem C133_unknown_function f args : ~ In f sympy_functions -> convert whole lit (Fun f args) = Err ValueError.
Proof.
  intro H. rewrite convert_fun. destruct (existsb (chars_eqb f) sympy_functions) eqn:E; [|reflexivity]. destruct H. now apply known_iff.
Qed.
(* the second argument of sqrt is dropped *)
Theorem C133_sqrt_ignores_second a b x y : convert whole lit a = Ok x -> convert whole lit b = Ok y ->
  convert whole lit (Fun (str "sqrt") [a; b]) = convert whole lit (Fun (str "sqrt") [a]).
Proof. intros Ha Hb. rewrite !convert_fun. cbn [map_ok]. rewrite Ha, Hb. reflexivity. Qed.
End T.
Print Assumptions C133_value.
Print Assumptions C133_accepted.
Print Assumptions C133_errors.
Print Assumptions C133_same_symbols.
Print Assumptions C133_unknown_function.
Print Assumptions C133_sqrt_ignores_second.
Print Assumptions C133_usual_case.
(* "an accepted call uses all its arguments" *)
Theorem C133_all_arguments_used_refuted :
  ~ (forall (e : expr chars) x, convert demo_whole demo_lit e = Ok x -> forall s, In s (written_symbols e) -> In s (atoms x)).
Proof.
  intro H. specialize (H (Fun (str "sqrt") [Par (str "a"); Par (str "b")]) _ eq_refl (SPar (str "b"))). cbn in H.
  destruct H as [H|[]]; [auto|discriminate].
Qed.
Print Assumptions C133_all_arguments_used_refuted.
Theorem C133_case : forall par ss p t,
  let e := Bin ADD (Bin POW (Var (str "K") (TI (-1))) (Num (str "2"))) (Expec (Fun (str "log") [Par (str "a"); Num (str "3")])) : expr chars in
  (exists x, convert demo_whole demo_lit e = Ok x /\ ev (Ralg demo_smooth) (at_date (demo_interp par ss) p t) x = den (demo_interp par ss) p t e) /\
  convert demo_whole demo_lit (Fun (str "gamma") [Num (str "1e999")]) = Err ValueError /\
  convert demo_whole demo_lit (Fun (str "exp") [Num (str "1e999")]) = Err ovf /\
  convert demo_whole demo_lit (Fun (str "exp") [Par (str "a"); Par (str "b")]) = Err TypeError.
Proof.
  intros par ss p t e. split; [|vm_compute; repeat split].
  destruct (convert demo_whole demo_lit e) as [x|] eqn:E; [|vm_compute in E; discriminate]. exists x. split; [reflexivity|].
  apply (C133_value demo_whole demo_lit); [apply C133_usual_case|exact E|]. cbn [bases_ok]. unfold e. cbn [bases_ok].
  repeat split; try discriminate. left. exists 2%Z. reflexivity.
Qed.
Print Assumptions C133_case.

(* ---- C134, C135: the model ---- *)
Section M.
Context {F : Type} (whole : F -> result (option Z)) (lit : F -> chars).
Variables (ord sord : set_order) (aord : list sx -> list sx).
Hypothesis Ho : set_order_ok ord.
Hypothesis Hs : set_order_ok sord.
Theorem C134_equations m sss eqs : load whole lit ord sord aord m = Ok (sss, eqs) -> NoDup (map Gcn_Model.b_name (Gcn_Model.blocks m)) ->
  (forall b, In b (Gcn_Model.blocks m) -> skipped (Gcn_Model.b_name b) = false -> definitions_regular b) ->
  exists groups, eqs = concat groups /\ Forall2 (equations_of whole lit) (filter (fun b => negb (skipped (Gcn_Model.b_name b))) (Gcn_Model.blocks m)) groups.
Proof. exact (load_equations whole lit ord sord aord Ho Hs m sss eqs). Qed.
(* the equations of a block, without the first-order conditions, hold on a path exactly when the written ones do *)
Theorem C134_same_solutions b g : equations_of whole lit b g -> exists static focs, g = static ++ focs /\ length focs = length (Gcn_Model.controls b) /\
  forall G I p, good_path whole lit G I p b ->
    ((forall x t, In x static -> ev (Ralg G) (at_date I p t) x = 0%R) <->
     (forall q, In q (Gcn_Model.identities b ++ filter kept (Gcn_Model.constraints b) ++ Gcn_Model.objective b) ->
        forall t, den I p t (Gcn_Model.lhs q) = den I p t (Gcn_Model.rhs q)) /\
     lags_right (gblock_of b) p /\ leads_right (gblock_of b) p).
Proof. exact (solutions whole lit b g). Qed.
(* loading a text: the equations are those of the one model the grammar reads in it *)
Theorem C135_text fread farith text sss eqs : load_gcn_string whole lit ord sord aord fread farith text = Ok (sss, eqs) ->
  exists raw m, Gcn_Grammar.file_text fread raw (Gcn_Spec.strip_comments text) /\ Gcn_Meaning.model_of fread farith raw m /\ load whole lit ord sord aord m = Ok (sss, eqs).
Proof.
  unfold load_gcn_string. destruct (Gcn_Model.parse_gcn fread farith text) as [m|] eqn:E; [|discriminate]. cbn [bind]. intro H.
  apply Gcn_Props2.C107_file in E as (raw & H1 & H2). eauto.
Qed.
Theorem C135_text_equations fread farith text sss eqs m : load_gcn_string whole lit ord sord aord fread farith text = Ok (sss, eqs) ->
  Gcn_Model.parse_gcn fread farith text = Ok m -> NoDup (map Gcn_Model.b_name (Gcn_Model.blocks m)) ->
  (forall b, In b (Gcn_Model.blocks m) -> skipped (Gcn_Model.b_name b) = false -> definitions_regular b) ->
  exists groups, eqs = concat groups /\ Forall2 (equations_of whole lit) (filter (fun b => negb (skipped (Gcn_Model.b_name b))) (Gcn_Model.blocks m)) groups.
Proof. unfold load_gcn_string. intros H E. rewrite E in H. cbn [bind] in H. now apply C134_equations with (sss := sss). Qed.
(* of two blocks with one name only the second one's equations are in the model *)
Theorem C134_same_name b1 b2 m sss eqs : Gcn_Model.blocks m = [b1; b2] -> Gcn_Model.b_name b1 = Gcn_Model.b_name b2 -> skipped (Gcn_Model.b_name b1) = false ->
  definitions_regular b2 -> load whole lit ord sord aord m = Ok (sss, eqs) -> equations_of whole lit b2 eqs.
Proof.
  intros Hb Hn Hk Hd. unfold load. destruct (extract_ss whole lit ord sord m) as [ss|]; [|discriminate]. cbn [bind]. rewrite Hb. cbn [block_dict].
  rewrite <- Hn, Hk. destruct (load_block whole lit ord sord aord ss b1) as [k1|]; [|discriminate]. cbn [bind].
  destruct (load_block whole lit ord sord aord ss b2) as [k2|] eqn:E2; [|discriminate]. cbn [bind]. cbn [dset]. rewrite chars_eqb_refl. cbn [bind flat_map snd app].
  rewrite app_nil_r. intro H. injection H as <- <-. exact (one_block whole lit ord sord aord Ho Hs ss b2 k2 E2 Hd).
Qed.
(* ---- C136: the steady-state block ---- *)
Theorem C136_none m : (forall b, In b (Gcn_Model.blocks m) -> ss_named (Gcn_Model.b_name b) = false) -> extract_ss whole lit ord sord m = Ok [].
Proof.
  intro H. apply extract_empty. induction (Gcn_Model.blocks m) as [|b l IH]; [reflexivity|]. cbn [filter]. rewrite (H b (or_introl eq_refl)). apply IH. intros; apply H; now right.
Qed.
Theorem C136_values m b r d : filter (fun b => ss_named (Gcn_Model.b_name b)) (Gcn_Model.blocks m) = b :: r -> rules_regular b ->
  extract_ss whole lit ord sord m = Ok d ->
  map (fun kv => Some (fst kv)) d = map (fun q => symbol_of (Gcn_Model.lhs q)) (Gcn_Model.identities b) /\
  (forall s v q, In (s, v) d -> In q (rules b) -> forall s', symbol_of (Gcn_Model.lhs q) = Some s' -> ~ In s' (atoms v)) /\
  (forall G I p t, usual whole lit G I -> (forall q, In q (rules b) -> bases_ok whole I p t (Gcn_Model.rhs q)) ->
     (forall q, In q (rules b) -> den I p t (Gcn_Model.lhs q) = den I p t (Gcn_Model.rhs q)) ->
     forall s v, In (s, v) d -> ev (Ralg G) (at_date I p t) v = at_date I p t s).
Proof. intros Hb Hr. exact (extract_values whole lit ord sord Ho Hs m b r Hb Hr d). Qed.
Theorem C136_accepted m b r : filter (fun b => ss_named (Gcn_Model.b_name b)) (Gcn_Model.blocks m) = b :: r -> rules_regular b ->
  (forall q, In q (rules b) -> usable whole arity (Gcn_Model.rhs q)) ->
  ((exists d, extract_ss whole lit ord sord m = Ok d) <-> rules_ordered b) /\ (forall e, extract_ss whole lit ord sord m = Err e -> e = ValueError).
Proof. intros Hb Hr. exact (extract_succeeds whole lit ord sord Ho Hs m b r Hb Hr). Qed.
Theorem C136_compound_refused m b r q d : filter (fun b => ss_named (Gcn_Model.b_name b)) (Gcn_Model.blocks m) = b :: r ->
  In q (Gcn_Model.identities b) -> symbol_of (Gcn_Model.lhs q) = None -> extract_ss whole lit ord sord m <> Ok d.
Proof. intro Hb. exact (extract_bad_lhs whole lit ord sord m b r Hb d q). Qed.
End M.
Print Assumptions C134_equations.
Print Assumptions C134_same_solutions.
Print Assumptions C134_same_name.
Print Assumptions C135_text.
Print Assumptions C135_text_equations.
Print Assumptions C136_none.
Print Assumptions C136_values.
Print Assumptions C136_accepted.
Print Assumptions C136_compound_refused.

(* ---- cases ---- *)
Definition demo_text : string := "
block HOUSEHOLD {
  definitions { u[] = log(C[]); };
  controls { C[], K[]; };
  objective { U[] = u[] + beta * E[][U[1]]; };
  constraints { C[] + K[] = Z[] * K[-1] ^ alpha : lambda[]; };
  identities { X[] = A[-3] + 2; };
  calibration { beta = 0.99; alpha = 0.3; };
};
block STEADY_STATE { definitions { r = 1 / beta; }; identities { K[ss] = Z[ss] * r; Z[ss] = 1; }; };"%string.
Theorem C135_case : exists sss eqs m, demo_load demo_text = Ok (sss, eqs) /\ Gcn_Model.parse_gcn (fun x => x) demo_arith (str demo_text) = Ok m /\
  NoDup (map Gcn_Model.b_name (Gcn_Model.blocks m)) /\
  (forall b, In b (Gcn_Model.blocks m) -> skipped (Gcn_Model.b_name b) = false -> definitions_regular b) /\
  (forall b, In b (Gcn_Model.blocks m) -> ss_named (Gcn_Model.b_name b) = true -> rules_regular b /\ rules_ordered b) /\
  length eqs = 7%nat /\ map fst sss = [SSs (str "K"); SSs (str "Z")].
Proof.
  destruct (Gcn_Model.parse_gcn (fun x => x) demo_arith (str demo_text)) as [m|] eqn:Em; [|vm_compute in Em; discriminate].
  destruct (demo_load demo_text) as [[sss eqs]|] eqn:El; [|vm_compute in El; discriminate].
  assert (Em' := Em). vm_compute in Em'. injection Em' as <-.
  assert (H : match demo_load demo_text with Ok (sss, eqs) => length eqs = 7%nat /\ map fst sss = [SSs (str "K"); SSs (str "Z")] | Err _ => False end) by (vm_compute; auto).
  rewrite El in H. exists sss, eqs. eexists. split; [reflexivity|]. split; [reflexivity|]. clear Em El.
  split; [cbn; constructor; [intros [H'|[]]; discriminate H'|constructor; [intros []|constructor]]|].
  split.
  - intros b [<-|[<-|[]]] Hk; [|vm_compute in Hk; discriminate]. unfold definitions_regular. cbn [Gcn_Model.definitions]. split; [|split].
    + intros q [<-|[]]. do 2 eexists. split; [reflexivity|]. cbn. lia.
    + intros [|[|i]] [|[|j]] q q' n t n' t' H1 H2 Hne; try discriminate. now destruct Hne.
    + intros q n t [<-|[]] [H'|[]]. injection H' as <- <-. split; [discriminate|]. split; [cbn; lia|].
      intros q' t' [<-|[]] H'. discriminate H'.
  - split; [|exact H]. intros b [<-|[<-|[]]] Hk; [vm_compute in Hk; discriminate|]. split.
    + split.
      * intros q Hq. cbn in Hq. destruct Hq as [<-|[<-|[<-|[]]]]; (eexists; split; [reflexivity|]); cbn; intuition discriminate.
      * cbn. repeat constructor; cbn; intuition discriminate.
    + exists (fun s => match s with SSs n => if chars_eqb n (str "K") then 2%nat else 0%nat | _ => 1%nat end).
      intros q q' s s' Hq Hq' E E' Hin. cbn in Hq, Hq'.
      destruct Hq as [<-|[<-|[<-|[]]]]; destruct Hq' as [<-|[<-|[<-|[]]]]; cbn in E, E', Hin; injection E as <-; injection E' as <-;
        try (exfalso; intuition discriminate); vm_compute; lia.
Qed.
Print Assumptions C135_case.
(* "a block is either part of the model or its steady state": a block called Steady is both *)
Theorem C136_one_role_refuted :
  (forall n, skipped n = true -> ss_named n = true) /\
  ss_named (str "Steady") = true /\ skipped (str "Steady") = false /\
  exists sss eqs, demo_load "block Steady { identities { Y[ss] = 2; }; };" = Ok (sss, eqs) /\
    map fst sss = [SSs (str "Y")] /\ eqs = [Ad (Cst 2) (Ng (Sy (SSs (str "Y"))))].
Proof.
  split; [|split; [reflexivity|split; [reflexivity|]]].
  - intros n H. unfold skipped, ss_named, one_of in *. cbn [existsb] in *. destruct (chars_eqb (str "STEADYSTATE") (plain_name n)); [reflexivity|].
    destruct (chars_eqb (str "SS") (plain_name n)); [reflexivity|discriminate].
  - vm_compute. do 2 eexists. repeat split.
Qed.
Print Assumptions C136_one_role_refuted.
(* only the first steady-state block counts *)
Theorem C136_all_blocks_count_refuted : exists sss eqs,
  demo_load "block SS { identities { Y[ss] = 2; }; }; block STEADY_STATE { identities { X[ss] = 1; }; };" = Ok (sss, eqs) /\ map fst sss = [SSs (str "Y")].
Proof. vm_compute. do 2 eexists. repeat split. Qed.
Print Assumptions C136_all_blocks_count_refuted.
Theorem C134_every_block_counts_refuted : exists sss eqs,
  demo_load "block B { identities { Y[] = 2; }; }; block B { identities { X[] = 1; }; };" = Ok (sss, eqs) /\ eqs = [Ad (Cst 1) (Ng (Sy (SDate (str "X") 0)))].
Proof. vm_compute. do 2 eexists. repeat split. Qed.
Print Assumptions C134_every_block_counts_refuted.
Theorem C136_case :
  demo_load "block SS { identities { Y[ss] = X[ss]; X[ss] = Y[ss]; }; };" = Err ValueError /\
  demo_load "block SS { identities { 2 * Y[ss] = 1; }; };" = Err KeyError.
Proof. vm_compute. split; reflexivity. Qed.
Print Assumptions C136_case.
