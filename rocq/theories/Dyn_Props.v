(* Theorems about the Dynare writer; vocabulary in Dyn_Spec. *)
From Coq Require Import QArith Qround Qabs Qreals Reals Lqa Lra.
From Coq Require DecimalString.
From Verif Require Import Common Expr_Model Sort_Lib SymDict_Model Dyn_Model Dyn_Spec Dyn_Proofs Dyn_Print Dyn_Main Dyn_Names.
Local Open Scope nat_scope.
Local Open Scope list_scope.

(* ---------- C38: declarations ---------- *)
Definition cur (start : chars) (g : list chars) : chars := match g with [] => start | _ => start ++ str " " ++ commas g end.
Lemma cur_decl start g : cur start g ++ str ";" = declaration start g.
Proof. destruct g; [reflexivity|]. cbn [cur declaration]. now rewrite <- !app_assoc. Qed.
Lemma commas_snoc g x : g <> [] -> commas (g ++ [x]) = commas g ++ str ", " ++ x.
Proof. induction g as [|y [|z g] IH]; intro H; [congruence|reflexivity|]. change (y ++ str ", " ++ commas ((z :: g) ++ [x]) = (y ++ str ", " ++ commas (z :: g)) ++ str ", " ++ x). rewrite IH by discriminate. now rewrite <- !app_assoc. Qed.
Lemma cur_snoc start g x : cur start (g ++ [x]) = cur start g ++ (if chars_eqb (cur start g) start then str " " else str ", ") ++ x.
Proof.
  destruct g as [|y g].
  - cbn [app cur commas]. rewrite chars_eqb_refl. reflexivity.
  - assert (E : chars_eqb (cur start (y :: g)) start = false).
    { apply chars_eqb_neq. intro C. apply (f_equal (@length _)) in C. cbn [cur] in C. rewrite !app_length in C. cbn in C. lia. }
    rewrite E. change (cur start ((y :: g) ++ [x])) with (start ++ str " " ++ commas ((y :: g) ++ [x])). rewrite commas_snoc by discriminate. cbn [cur]. now rewrite <- !app_assoc.
Qed.
Lemma decl_length start g : length (declaration start g) = length (cur start g) + 1.
Proof. rewrite <- cur_decl, app_length. reflexivity. Qed.
Lemma write_loop_spec width start items : forall g,
  (length (declaration start g) <= width \/ length g <= 1) ->
  exists g' groups, write_loop width start items (cur start g) = map (declaration start) (g' :: groups) /\ concat (g' :: groups) = g ++ items /\
    (exists ext, g' = g ++ ext) /\ (forall h, In h groups -> h <> []) /\
    (forall h, In h (g' :: groups) -> length (declaration start h) <= width \/ length h <= 1) /\
    (forall i h x h', nth_error (g' :: groups) i = Some h -> nth_error (g' :: groups) (S i) = Some (x :: h') -> width < length (declaration start (h ++ [x]))) /\
    (forall x rest, items = x :: rest -> (g' = g <-> width < length (declaration start (g ++ [x])))).
Proof.
  induction items as [|x items IH]; intros g Hg.
  - exists g, []. cbn [write_loop map concat]. rewrite cur_decl. split; [reflexivity|]. split; [now rewrite !app_nil_r|]. split; [exists []; now rewrite app_nil_r|]. split; [intros ? []|]. split; [intros h [<-|[]]; exact Hg|]. split; [intros i h y h' _ C; destruct i; discriminate|]. intros ? ? C; discriminate.
  - cbn [write_loop]. set (add := (if chars_eqb (cur start g) start then str " " else str ", ") ++ x).
    assert (El : length (declaration start (g ++ [x])) = length (cur start g) + length add + 1) by (rewrite decl_length, cur_snoc; unfold add; rewrite !app_length; lia).
    destruct (Nat.ltb_spec width (length (cur start g) + length add + 1)) as [H|H].
    + destruct (IH [x]) as (g' & groups & E1 & E2 & [ext E3] & E4 & E5 & E6 & E7); [right; cbn; lia|]. exists g, (g' :: groups). rewrite cur_decl. change (start ++ str " " ++ x) with (cur start [x]). rewrite E1.
      split; [reflexivity|]. split; [change (g ++ concat (g' :: groups) = g ++ x :: items); rewrite E2; reflexivity|]. split; [exists []; now rewrite app_nil_r|].
      split; [intros h [<-|Hin]; [rewrite E3; destruct ext; discriminate|now apply E4]|]. split; [intros h [<-|Hin]; [exact Hg|now apply E5]|]. split.
      * intros i h y h' Hi Hs. destruct i as [|i]; [|now apply (E6 i h y h')]. cbn in Hi, Hs. injection Hi as <-. injection Hs as Hs. rewrite E3 in Hs. cbn in Hs. injection Hs as <- _. lia.
      * intros y rest E. injection E as <- <-. split; intro; [lia|reflexivity].
    + assert (Ec : cur start g ++ add = cur start (g ++ [x])) by (unfold add; now rewrite cur_snoc). rewrite Ec.
      destruct (IH (g ++ [x])) as (g' & groups & E1 & E2 & [ext E3] & E4 & E5 & E6 & E7); [left; lia|]. exists g', groups. split; [exact E1|]. split; [rewrite E2, <- app_assoc; reflexivity|].
      split; [exists (x :: ext); rewrite E3, <- app_assoc; reflexivity|]. split; [exact E4|]. split; [exact E5|]. split; [exact E6|].
      intros y rest E. injection E as <- <-. split; intro C; [|lia]. exfalso. rewrite E3 in C. apply (f_equal (@length _)) in C. rewrite !app_length in C. cbn in C. lia.
Qed.
(* The lines declare all names, in order, each once.  Lines are not longer than asked for unless they declare a single name, and a line
   is broken only where the next name does not fit.  A line without names ("var;") is written exactly when there are no names, or the
   first name does not fit on a line of its own. *)
Theorem C38_declarations : forall width keyword names, exists groups,
  write_lines width keyword names = map (declaration keyword) groups /\ concat groups = names /\
  (forall g, In g groups -> length (declaration keyword g) <= width \/ length g <= 1) /\
  (forall i g x g', nth_error groups i = Some g -> nth_error groups (S i) = Some (x :: g') -> width < length (declaration keyword (g ++ [x]))) /\
  (In [] groups <-> names = [] \/ exists x rest, names = x :: rest /\ width < length (declaration keyword [x])).
Proof.
  intros width keyword names. destruct (write_loop_spec width keyword names []) as (g' & groups & E1 & E2 & _ & E4 & E5 & E6 & E7); [right; cbn; lia|].
  exists (g' :: groups). split; [exact E1|]. split; [exact E2|]. split; [exact E5|]. split; [exact E6|]. split.
  - intros [->|C]; [|exfalso; exact (E4 [] C eq_refl)]. destruct names as [|x rest]; [now left|right]. exists x, rest. split; [reflexivity|]. now apply (E7 x rest eq_refl).
  - intros [->|(x & rest & -> & H)].
    + left. apply app_eq_nil in E2. apply E2.
    + left. symmetry. symmetry. now apply (E7 x rest eq_refl).
Qed.
Theorem C38_case : write_lines 12 (str "var") [str "A"; str "Bee"; str "C"; str "D"] = [str "var A, Bee;"; str "var C, D;"].
Proof. vm_compute. reflexivity. Qed.
(* the stated width is exceeded, and an empty declaration (a Dynare syntax error) is written *)
Theorem C38_empty_declaration_refuted :
  write_lines 100 (str "varexo") [] = [str "varexo;"] /\ write_lines 10 (str "var") [str "consumption"] = [str "var;"; str "var consumption;"].
Proof. split; vm_compute; reflexivity. Qed.

(* ---------- C95: expressions ---------- *)
(* ordinary real arithmetic *)
Section RealArith.
Local Open Scope R_scope.
Definition real_pow (x y : R) : R :=
  if Req_EM_T y (/ 2) then sqrt x else if Req_EM_T y (- / 2) then / sqrt x
  else if Req_EM_T y (IZR (Int_part y)) then powerRZ x (Int_part y) else exp (y * ln x).
Definition real_arith : arithmetic := Arith real_pow (fun f l => match l with [x] => if chars_eqb f (str "sqrt") then sqrt x else if chars_eqb f (str "exp") then exp x else ln x | _ => 0 end).
Lemma int_part_IZR z : Int_part (IZR z) = z.
Proof.
  pose proof (base_Int_part (IZR z)) as [H1 H2]. apply le_IZR in H1. rewrite <- minus_IZR in H2. apply Rgt_lt in H2.
  change (-1) with (IZR (-1)) in H2. apply lt_IZR in H2. lia.
Qed.
Lemma powerRZ_opp x n : powerRZ x (- n) = / powerRZ x n.
Proof. destruct n as [|p|p]; cbn; [now rewrite Rinv_1|reflexivity|now rewrite Rinv_inv]. Qed.
Lemma real_arith_ok : arithmetic_ok real_arith.
Proof.
  split; [|split].
  - intro x. cbn [a_pow a_fun real_arith]. unfold real_pow. destruct (Req_EM_T 1 (/ 2)); [lra|]. destruct (Req_EM_T 1 (- / 2)); [lra|]. rewrite (int_part_IZR 1). destruct (Req_EM_T 1 1); [apply powerRZ_1|lra].
  - intros x y. cbn [a_pow a_fun real_arith]. unfold real_pow. destruct (Req_EM_T y (/ 2)) as [-> |N1].
    + destruct (Req_EM_T (- / 2) (/ 2)); [lra|]. destruct (Req_EM_T (- / 2) (- / 2)); [reflexivity|lra].
    + destruct (Req_EM_T (- y) (/ 2)) as [E1|E1].
      * destruct (Req_EM_T y (- / 2)); [now rewrite Rinv_inv|lra].
      * destruct (Req_EM_T (- y) (- / 2)); [lra|]. destruct (Req_EM_T y (- / 2)); [lra|]. destruct (Req_EM_T y (IZR (Int_part y))) as [E|E].
        -- rewrite E, <- opp_IZR, !int_part_IZR. destruct (Req_EM_T _ _) as [_|C]; [apply powerRZ_opp|congruence].
        -- destruct (Req_EM_T (- y) (IZR (Int_part (- y)))) as [C|_]; [exfalso; apply E; assert (y = IZR (- Int_part (- y))) as -> by (rewrite opp_IZR; lra); now rewrite int_part_IZR|]. rewrite <- exp_Ropp. f_equal. ring.
  - intro x. cbn [a_pow a_fun real_arith]. unfold real_pow. destruct (Req_EM_T (/ 2) (/ 2)); [reflexivity|lra].
Qed.
End RealArith.
(* Whatever the model's expression, the text is an expression for Dynare, read in one way only, and it has the value of the expression
   whenever the names in the file stand for the model's symbols. *)
Theorem C95_expressions_keep_their_value : forall lit_value is_fun minus e, is_fun (str "sqrt") = true -> canonical is_fun e ->
  exists y, reads lit_value is_fun (print lit_value minus e) y /\ (forall y', reads lit_value is_fun (print lit_value minus e) y' -> y' = y) /\
    forall A env G, arithmetic_ok A -> (forall s, In s (symbols e) -> agrees G env s) -> y_value A env y = x_value A lit_value G e.
Proof.
  intros lv isf minus e Hs Hc.
  destruct (print_reads lv isf real_arith (fun _ _ => 0%R) (Reading (fun _ => 0%R) (fun _ _ => 0%R) (fun _ => 0%R)) minus real_arith_ok Hs e Hc) as (y & Hy & _); [intros [n|b t|b] _; reflexivity|].
  exists y. split; [exact Hy|]. split; [intros y' H'; eapply reads_unique; eassumption|]. intros A env G HA Hag.
  destruct (print_reads lv isf A env G minus HA Hs e Hc Hag) as (y' & Hy' & E). now rewrite (reads_unique _ _ _ _ _ Hy Hy').
Qed.
(* The model block has one equation per model equation, in the same order, with the same value. *)
Theorem C95_model_block : forall lit_value is_fun minus m width F, is_fun (str "sqrt") = true -> make_mod_file lit_value minus m width = Ok F ->
  length (f_equations F) = length (d_eqs m) /\
  forall i e, nth_error (d_eqs m) i = Some e -> canonical is_fun e ->
    exists ts y, nth_error (f_equations F) i = Some ts /\ reads lit_value is_fun ts y /\
      forall A env G, arithmetic_ok A -> (forall s, In s (symbols e) -> agrees G env s) -> y_value A env y = x_value A lit_value G e.
Proof.
  intros lv isf minus m width F Hs H. unfold make_mod_file in H. destruct (locals lv minus m) as [ls|]; [|discriminate]. cbn in H. destruct (steady_block lv minus m) as [st|]; [|discriminate]. cbn in H. injection H as <-. cbn [f_equations].
  split; [now rewrite map_length|]. intros i e Hi Hc. destruct (C95_expressions_keep_their_value lv isf minus e Hs Hc) as (y & Hy & _ & Hv). exists (print lv minus e), y. split; [now rewrite nth_error_map, Hi|]. auto.
Qed.
(* -(1 - alpha) K[-1]^(alpha - 1) / (2 C[1]) + 1 / (P Q) + sqrt(A) *)
Definition dk := DVar (str "K"). Definition alpha := DSym (str "alpha").
Definition case_dx : dx :=
  DAdd [DMul (Some (Rat (-1) 2)) [DAdd [DNum (Rat 1 1); DMul (Some (Rat (-1) 1)) [alpha]]; DPow (dk (TI (-1))) (DAdd [alpha; DNum (Rat (-1) 1)]); DPow (DVar (str "C") (TI 1)) (DNum (Rat (-1) 1))];
        DMul None [DPow (DVar (str "P") (TI 0)) (DNum (Rat (-1) 1)); DPow (DVar (str "Q") TIss) (DNum (Rat (-2) 1))]; DPow (DSym (str "A")) (DNum (Rat 1 2))].
Definition builtin (n : chars) : bool := existsb (chars_eqb n) [str "sqrt"; str "exp"; str "log"].
Definition dyn_minus (e : dx) : bool := match e with DMul (Some c) _ => is_neg c | _ => false end.
Theorem C95_case : canonical builtin case_dx /\
  print (fun _ => 0%Q) dyn_minus case_dx =
    [TkMinus; TkLP; TkInt 1; TkMinus; TkId (str "alpha"); TkRP; TkTimes; TkId (str "K"); TkLP; TkMinus; TkInt 1; TkRP; TkPow; TkLP; TkId (str "alpha"); TkMinus; TkInt 1; TkRP; TkDiv;
     TkLP; TkInt 2; TkTimes; TkId (str "C"); TkLP; TkPlus; TkInt 1; TkRP; TkRP; TkPlus; TkInt 1; TkDiv; TkLP; TkId (str "P"); TkTimes; TkId (str "Q_ss"); TkPow; TkInt 2; TkRP; TkPlus; TkId (str "sqrt"); TkLP; TkId (str "A"); TkRP].
Proof. split; [vm_compute; repeat split; discriminate|vm_compute; reflexivity]. Qed.
(* Names clash: a variable called K_ss and the steady state of K are written alike. *)
Theorem C95_clash_refuted : forall lit_value minus, print lit_value minus (DVar (str "K_ss") (TI 0)) = print lit_value minus (DVar (str "K") TIss) /\
  ~ exists env, forall G, agrees G env (Dated (str "K_ss") 0) /\ agrees G env (AtSteadyState (str "K")).
Proof.
  intros lv minus. split; [reflexivity|]. intros [env H]. destruct (H (Reading (fun _ => 0%R) (fun _ _ => 0%R) (fun _ => 1%R))) as [H1 H2]. cbn in H1, H2. rewrite H1 in H2. lra.
Qed.

(* ---------- C96: names ---------- *)
Lemma has_In x l : has x l = true <-> In x l.
Proof. unfold has. rewrite existsb_exists. split; [intros (y & Hi & E); apply chars_eqb_eq in E; now subst|]. intro H. exists x. split; [exact H|apply chars_eqb_refl]. Qed.
Lemma ss_names_symbols b e : In b (ss_names e) <-> In (AtSteadyState b) (symbols e).
Proof.
  assert (forall l, Forall (fun e => In b (ss_names e) <-> In (AtSteadyState b) (symbols e)) l -> In b (flat_map ss_names l) <-> In (AtSteadyState b) (flat_map symbols l)) as Hl.
  { intros l H. rewrite Forall_forall in H. rewrite !in_flat_map. split; intros (x & Hx & Hi); exists x; (split; [exact Hx|now apply (H x Hx)]). }
  induction e as [x|x|b' t|l IH|c l IH|b' ex IHb IHe|f l IH] using dx_ind2; cbn [ss_names symbols]; auto.
  - cbn. tauto.
  - cbn. split; [tauto|]. now intros [H|[]].
  - destruct t as [t|]; cbn; [split; [tauto|now intros [H|[]]]|]. split; intros [H|[]]; left; congruence.
  - rewrite !in_app_iff. tauto.
Qed.
(* [b] occurs at its steady state in an equation of the model *)
Definition occurs_ss (m : dmodel) (b : chars) : Prop := exists e, In e (d_eqs m) /\ In (AtSteadyState b) (symbols e).
Lemma required_In m b : In b (find_ss_variables m) <-> occurs_ss m b.
Proof.
  unfold find_ss_variables. rewrite isort_in, nodup_In, in_flat_map. unfold occurs_ss. split; intros (e & He & H); exists e; (split; [exact He|now apply ss_names_symbols]).
Qed.
Lemma ss_name_inj a b : ss_name a = ss_name b -> a = b. Proof. unfold ss_name. apply app_inv_tail. Qed.
Lemma nodup_filter_map {V} (p : chars * V -> bool) l : NoDup (map fst l) -> NoDup (map ss_name (map fst (filter p l))).
Proof.
  intro H. apply FinFun.Injective_map_NoDup; [intros a b; apply ss_name_inj|]. induction l as [|kv l IH]; cbn; [constructor|]. inversion H as [|k l' Hk Hd]; subst.
  destruct (p kv); [|now apply IH]. cbn. constructor; [|now apply IH]. intro C. apply Hk. apply in_map_iff in C. destruct C as (x & Ex & Hx). apply filter_In in Hx. apply in_map_iff. exists x. now split.
Qed.
(* Local variables of the model block: exactly one for each steady-state value of the equations, when the formulas and the computed
   values are indexed by distinct names and the computed steady state has all of them. *)
Theorem C96_locals : forall lit_value minus m width F, make_mod_file lit_value minus m width = Ok F ->
  NoDup (map fst (d_ssrel m)) -> (forall ss, d_steady m = Ok ss -> NoDup (map fst ss) /\ forall b, occurs_ss m b -> In b (map fst ss)) ->
  NoDup (map fst (f_locals F)) /\ forall n, In n (map fst (f_locals F)) <-> exists b, n = b ++ str "_ss" /\ occurs_ss m b.
Proof.
  intros lv minus m width F H Hnd Hss. unfold make_mod_file in H. destruct (locals lv minus m) as [ls|] eqn:El; [|discriminate]. cbn in H. destruct (steady_block lv minus m) as [st|]; [|discriminate]. cbn in H. injection H as <-. cbn [f_locals].
  assert (forall V (src : list (chars * V)) (body_of : V -> body), NoDup (map fst src) -> (forall b, occurs_ss m b -> In b (map fst src)) ->
     ls = map (fun kv => (ss_name (fst kv), body_of (snd kv))) (filter (fun kv => has (fst kv) (find_ss_variables m)) src) ->
     NoDup (map fst ls) /\ forall n, In n (map fst ls) <-> exists b, n = b ++ str "_ss" /\ occurs_ss m b) as Hgen.
  { intros V src body_of Hd Hall ->. rewrite map_map. cbn [fst]. rewrite <- (map_map fst ss_name). split; [now apply nodup_filter_map|]. intro n. rewrite in_map_iff. split.
    - intros (b & <- & Hb). apply in_map_iff in Hb. destruct Hb as (kv & <- & Hk). apply filter_In in Hk. exists (fst kv). split; [reflexivity|]. apply required_In, has_In, Hk.
    - intros (b & -> & Hb). exists b. split; [reflexivity|]. pose proof (Hall b Hb) as Hi. apply in_map_iff in Hi. destruct Hi as (kv & <- & Hk). apply in_map_iff. exists kv. split; [reflexivity|]. apply filter_In. split; [exact Hk|]. now apply has_In, required_In. }
  unfold locals in El. destruct (forallb _ _) eqn:Ea.
  - injection El as <-. apply (Hgen _ (d_ssrel m) (fun e => Formula (print lv minus e))); [exact Hnd| |reflexivity].
    intros b Hb. rewrite forallb_forall in Ea. apply has_In, Ea. now apply required_In.
  - destruct (d_steady m) as [ss|]; [|discriminate]. cbn in El. injection El as <-. destruct (Hss ss eq_refl) as [H1 H2]. now apply (Hgen _ ss Value).
Qed.
(* The model block uses no undeclared name exactly when every parameter in an equation is declared in the file. *)
Theorem C96_equations_closed : forall lit_value is_fun minus m width F, is_fun (str "sqrt") = true -> make_mod_file lit_value minus m width = Ok F ->
  (forall e, In e (d_eqs m) -> canonical is_fun e /\ forall b t, In (Dated b t) (symbols e) -> In b (d_vars m) \/ In b (d_shocks m)) ->
  NoDup (map fst (d_ssrel m)) -> (forall ss, d_steady m = Ok ss -> NoDup (map fst ss) /\ forall b, occurs_ss m b -> In b (map fst ss)) ->
  ((forall ts n, In ts (f_equations F) -> In n (names_in ts) -> is_fun n = false -> In n (declared m F)) <->
   (forall e p, In e (d_eqs m) -> In (Free p) (symbols e) -> In p (declared m F))).
Proof.
  intros lv isf minus m width F Hs H Hwf Hnd Hss. destruct (C96_locals _ _ _ _ _ H Hnd Hss) as [_ Hloc].
  assert (f_equations F = map (print lv minus) (d_eqs m)) as Eeq.
  { unfold make_mod_file in H. destruct (locals lv minus m); [|discriminate]. cbn in H. destruct (steady_block lv minus m); [|discriminate]. cbn in H. now injection H as <-. }
  rewrite Eeq. clear Eeq H. split.
  - intros Hall e p He Hp. destruct (Hwf e He) as [Hc _]. assert (isf p = false) as Hf.
    { clear - Hc Hp. induction e as [x|x|b t|l IH|c l IH|b ex IHb IHe|f l IH] using dx_ind2; cbn [symbols] in Hp; cbn [canonical] in Hc.
      - destruct Hp.
      - destruct Hp as [Hp|[]]. injection Hp as ->. exact Hc.
      - destruct t; destruct Hp as [Hp|[]]; discriminate.
      - destruct Hc as [_ Hc]. apply all_forall in Hc. rewrite Forall_forall in *. apply in_flat_map in Hp. destruct Hp as (x & Hx & Hp). eauto.
      - apply all_forall in Hc. rewrite Forall_forall in *. apply in_flat_map in Hp. destruct Hp as (x & Hx & Hp). eauto.
      - destruct Hc as (H1 & H2 & _). apply in_app_iff in Hp. destruct Hp; auto.
      - destruct Hc as (_ & _ & Hc). apply all_forall in Hc. rewrite Forall_forall in *. apply in_flat_map in Hp. destruct Hp as (x & Hx & Hp). eauto. }
    apply (Hall (print lv minus e) p); [now apply in_map| |exact Hf]. apply (names_print lv isf minus Hs p Hf e Hc). apply in_map_iff. now exists (Free p).
  - intros Hall ts n Hts Hn Hf. apply in_map_iff in Hts. destruct Hts as (e & <- & He). destruct (Hwf e He) as [Hc Hd]. apply (names_print lv isf minus Hs n Hf e Hc) in Hn. apply in_map_iff in Hn. destruct Hn as ([p|b t|b] & <- & Hi); cbn [file_name].
    + now apply (Hall e).
    + unfold declared. rewrite !in_app_iff. destruct (Hd b t Hi); auto.
    + unfold declared. rewrite !in_app_iff. right. right. right. apply Hloc. exists b. split; [reflexivity|]. now exists e.
Qed.
(* Formulas in terms of parameters only: every name in a local variable's formula and in the steady_state_model block is declared. *)
Theorem C96_formulas_closed : forall lit_value is_fun minus m width F, is_fun (str "sqrt") = true -> make_mod_file lit_value minus m width = Ok F ->
  (forall k e, In (k, e) (d_ssrel m) -> canonical is_fun e /\ forall s, In s (symbols e) -> exists p, s = Free p /\ In p (d_params m)) ->
  (forall k b n, In (k, b) (f_locals F) -> In n (body_names b) -> is_fun n = false -> In n (d_params m)) /\
  (forall rows k ts n, f_steady F = inl rows -> In (k, ts) rows -> In n (names_in ts) -> is_fun n = false -> In n (d_params m)).
Proof.
  intros lv isf minus m width F Hs H Hrel. unfold make_mod_file in H. destruct (locals lv minus m) as [ls|] eqn:El; [|discriminate]. cbn in H. destruct (steady_block lv minus m) as [st|] eqn:Est; [|discriminate]. cbn in H. injection H as <-. cbn [f_locals f_steady].
  assert (forall k e n, In (k, e) (d_ssrel m) -> In n (names_in (print lv minus e)) -> isf n = false -> In n (d_params m)) as Hk.
  { intros k e n Hi Hn Hf. destruct (Hrel k e Hi) as [Hc Hsym]. apply (names_print lv isf minus Hs n Hf e Hc) in Hn. apply in_map_iff in Hn. destruct Hn as (s & <- & Hi'). destruct (Hsym s Hi') as (p & -> & Hp). exact Hp. }
  split.
  - intros k b n Hi Hn Hf. unfold locals in El. destruct (forallb _ _).
    + injection El as <-. apply in_map_iff in Hi. destruct Hi as ([k0 e] & E & Hx). cbn in E. injection E as <- <-. apply filter_In in Hx. now apply (Hk k0 e).
    + destruct (d_steady m) as [ss|]; [|discriminate]. cbn in El. injection El as <-. apply in_map_iff in Hi. destruct Hi as ([k0 e] & E & Hx). cbn in E. injection E as <- <-. destruct Hn.
  - intros rows k ts n -> Hi Hn Hf. unfold steady_block in Est. destruct (Nat.eqb _ _).
    + injection Est as <-. apply in_map_iff in Hi. destruct Hi as ([k0 e] & E & Hx). cbn in E. injection E as <- <-. now apply (Hk k0 e).
    + destruct (d_steady m) as [ss|]; discriminate.
Qed.
(* The analytical steady state is written exactly when every variable has a formula; otherwise the computed values are. *)
Theorem C96_steady_block : forall lit_value minus m width F, make_mod_file lit_value minus m width = Ok F ->
  NoDup (d_vars m) -> NoDup (map fst (d_ssrel m)) -> incl (map fst (d_ssrel m)) (d_vars m) ->
  ((forall v, In v (d_vars m) -> In v (map fst (d_ssrel m))) /\ f_steady F = inl (map (fun kv => (fst kv, print lit_value minus (snd kv))) (d_ssrel m)) \/
   (exists v, In v (d_vars m) /\ ~ In v (map fst (d_ssrel m))) /\ exists ss, d_steady m = Ok ss /\ f_steady F = inr (map (fun kv => (fst kv, fixed3 (snd kv))) ss)).
Proof.
  intros lv minus m width F H Hv Hk Hincl. unfold make_mod_file in H. destruct (locals lv minus m) as [ls|]; [|discriminate]. cbn in H. destruct (steady_block lv minus m) as [st|] eqn:Est; [|discriminate]. cbn in H. injection H as <-. cbn [f_steady].
  unfold steady_block in Est. destruct (Nat.eqb_spec (length (d_ssrel m)) (length (d_vars m))) as [E|E].
  - left. injection Est as <-. split; [|reflexivity]. apply NoDup_length_incl; [exact Hk|rewrite map_length; lia|exact Hincl].
  - right. split; [|destruct (d_steady m) as [ss|]; [|discriminate]; cbn in Est; injection Est as <-; now exists ss].
    destruct (existsb (fun v => negb (has v (map fst (d_ssrel m)))) (d_vars m)) eqn:Ex.
    + apply existsb_exists in Ex. destruct Ex as (v & Hi & Hn). exists v. split; [exact Hi|]. intro C. apply has_In in C. rewrite C in Hn. discriminate.
    + exfalso. apply E. apply Nat.le_antisymm; [rewrite <- (map_length fst); now apply NoDup_incl_length|]. rewrite <- (map_length fst). apply NoDup_incl_length; [exact Hv|]. intros v Hi.
      apply has_In. destruct (has v (map fst (d_ssrel m))) eqn:Eh; [reflexivity|]. assert (existsb (fun v => negb (has v (map fst (d_ssrel m)))) (d_vars m) = true) as C by (apply existsb_exists; exists v; split; [exact Hi|now rewrite Eh]). congruence.
Qed.
(* var, varexo and parameters declare the model's variables, shocks and parameters, each once and in order; every shock gets a
   standard deviation. *)
Theorem C96_declarations : forall lit_value minus m width F, make_mod_file lit_value minus m width = Ok F ->
  (exists g, f_var F = map (declaration (str "var")) g /\ concat g = d_vars m) /\ (exists g, f_varexo F = map (declaration (str "varexo")) g /\ concat g = d_shocks m) /\
  (exists g, f_parameters F = map (declaration (str "parameters")) g /\ concat g = d_params m) /\ map fst (f_stderr F) = d_shocks m.
Proof.
  intros lv minus m width F H. unfold make_mod_file in H. destruct (locals lv minus m) as [ls|]; [|discriminate]. cbn in H. destruct (steady_block lv minus m) as [st|]; [|discriminate]. cbn in H. injection H as <-. cbn [f_var f_varexo f_parameters f_stderr].
  assert (forall k l, exists g, write_lines width k l = map (declaration k) g /\ concat g = l) as Hd by (intros k l; destruct (C38_declarations width k l) as (g & H1 & H2 & _); now exists g).
  do 3 (split; [apply Hd|]). rewrite map_map. apply map_id.
Qed.
(* K[] - alpha A; K[ss] occurs in the equation *)
Definition case_m (params : list chars) (values : list (chars * Q)) (rel : list (chars * dx)) : dmodel :=
  DM [str "K"; str "Y"] [str "epsilon"] params values
     [DAdd [DVar (str "K") (TI 0); DMul (Some (Rat (-1) 1)) [DSym (str "alpha"); DVar (str "K") TIss]]; DAdd [DVar (str "Y") (TI 0); DMul (Some (Rat (-1) 1)) [DVar (str "K") (TI (-1))]; DVar (str "epsilon") (TI 0)]]
     rel (Ok [(str "K", 2 # 1); (str "Y", 2 # 1)]).
Definition ok_m := case_m [str "alpha"] [(str "alpha", 1 # 3)] [].
Theorem C96_case : exists F, make_mod_file (fun _ => 0%Q) dyn_minus ok_m 100 = Ok F /\
  (forall e, In e (d_eqs ok_m) -> canonical builtin e /\ forall b t, In (Dated b t) (symbols e) -> In b (d_vars ok_m) \/ In b (d_shocks ok_m)) /\
  NoDup (map fst (d_ssrel ok_m)) /\ (forall ss, d_steady ok_m = Ok ss -> NoDup (map fst ss) /\ forall b, occurs_ss ok_m b -> In b (map fst ss)) /\
  (forall e p, In e (d_eqs ok_m) -> In (Free p) (symbols e) -> In p (declared ok_m F)) /\ map fst (f_locals F) = [str "K_ss"] /\
  f_steady F = inr [(str "K", str "2.000"); (str "Y", str "2.000")] /\ f_assigned F = [(str "alpha", str "0.333")].
Proof.
  eexists. split; [vm_compute; reflexivity|]. split.
  { intros e [<-|[<-|[]]]; (split; [vm_compute; repeat split; discriminate|]); intros b t Hi; cbn in Hi; repeat destruct Hi as [Hi|Hi]; try discriminate; try contradiction; injection Hi as <- <-; vm_compute; auto. }
  split; [constructor|]. split.
  { intros ss E. injection E as <-. split; [repeat constructor; cbn; intuition discriminate|]. intros b (e & [<-|[<-|[]]] & Hi); cbn in Hi; repeat destruct Hi as [Hi|Hi]; try discriminate; try contradiction; injection Hi as <-; vm_compute; auto. }
  split; [|vm_compute; auto]. intros e p [<-|[<-|[]]] Hi; cbn in Hi; repeat destruct Hi as [Hi|Hi]; try discriminate; try contradiction; injection Hi as <-; vm_compute; auto.
Qed.
(* A parameter that is not free (deterministic, calibrated) is used, and given a value, without being declared. *)
Theorem C96_undeclared_parameter_refuted : exists F, make_mod_file (fun _ => 0%Q) dyn_minus (case_m [str "beta"] [(str "beta", 1 # 2); (str "alpha", 1 # 3)] []) 100 = Ok F /\
  map fst (f_assigned F) = [str "beta"; str "alpha"] /\ f_parameters F = [str "parameters beta;"] /\
  exists ts, In ts (f_equations F) /\ In (str "alpha") (names_in ts) /\ ~ In (str "alpha") (declared (case_m [str "beta"] [(str "beta", 1 # 2); (str "alpha", 1 # 3)] []) F).
Proof.
  eexists. split; [vm_compute; reflexivity|]. do 2 (split; [vm_compute; reflexivity|]). eexists. split; [left; reflexivity|]. split; [vm_compute; auto|].
  vm_compute. intros C. repeat destruct C as [C|C]; try discriminate. exact C.
Qed.
(* A formula for one steady-state value that mentions another: the name Y_ss is written and defined nowhere. *)
Theorem C96_chained_formula_refuted :
  let m := case_m [str "alpha"] [(str "alpha", 1 # 3)] [(str "Y", DSym (str "alpha")); (str "K", DPow (DVar (str "Y") TIss) (DNum (Rat 2 1)))] in
  exists F rows ts, make_mod_file (fun _ => 0%Q) dyn_minus m 100 = Ok F /\ f_steady F = inl rows /\ In (str "K", ts) rows /\ In (str "Y_ss") (names_in ts) /\
    ~ In (str "Y_ss") (map fst rows ++ declared m F) /\ exists b, In (str "K_ss", b) (f_locals F) /\ In (str "Y_ss") (body_names b).
Proof.
  cbn zeta. do 3 eexists. split; [vm_compute; reflexivity|]. split; [reflexivity|]. split; [right; left; reflexivity|]. split; [vm_compute; auto|].
  split; [vm_compute; intros C; repeat destruct C as [C|C]; try discriminate; exact C|]. eexists. split; [left; reflexivity|vm_compute; auto].
Qed.

(* ---------- C97: numbers ---------- *)
Lemma rhe_spec x : (Qabs (inject_Z (round_half_even x) - x) <= 1 # 2)%Q.
Proof.
  unfold round_half_even. pose proof (Qfloor_le x) as H1. pose proof (Qlt_floor x) as H2. rewrite inject_Z_plus in H2. change (inject_Z 1) with 1%Q in H2.
  set (f := Qfloor x) in *. clearbody f. apply Qabs_Qle_condition.
  assert (inject_Z (f + 1) == inject_Z f + 1)%Q as E1 by (rewrite inject_Z_plus; reflexivity).
  destruct (Qcompare_spec (x - inject_Z f) (1 # 2)) as [E|E|E]; [destruct (Z.even f)| |]; rewrite ?E1; split; Lqa.lra.
Qed.
Lemma rhe_nonneg x : (0 <= x)%Q -> (0 <= round_half_even x)%Z.
Proof.
  intro H. unfold round_half_even. assert (0 <= Qfloor x)%Z by (change 0%Z with (Qfloor 0); now apply Qfloor_resp_le).
  destruct (Qcompare _ _); [destruct (Z.even _)| |]; lia.
Qed.
Lemma rhe_exact x z : (x == inject_Z z)%Q -> (inject_Z (round_half_even x) == x)%Q.
Proof.
  intro H. pose proof (rhe_spec x) as Hr. apply Qabs_Qle_condition in Hr. set (r := round_half_even x) in *. clearbody r. assert (r = z) as ->; [|now rewrite H].
  assert (- 1 < inject_Z (r - z) /\ inject_Z (r - z) < 1)%Q as [A B] by (unfold Zminus; rewrite inject_Z_plus, inject_Z_opp; split; Lqa.lra).
  assert (-1 < r - z)%Z by (rewrite Zlt_Qlt; exact A). assert (r - z < 1)%Z by (rewrite Zlt_Qlt; exact B). lia.
Qed.
Lemma pad3_digits n : (n < 1000)%N -> exists d1 d2 d3, pad3 n = [d1; d2; d3] /\ undec [d1; d2; d3] = Some n.
Proof.
  intro H. assert (forallb (fun k => let n := N.of_nat k in match pad3 n with [d1; d2; d3] => match undec [d1; d2; d3] with Some n' => N.eqb n n' | None => false end | _ => false end) (seq 0 1000) = true) as Hall by (vm_compute; reflexivity).
  rewrite forallb_forall in Hall. specialize (Hall (N.to_nat n)). cbn zeta in Hall. rewrite N2Nat.id in Hall. lapply Hall; [|apply in_seq; lia]. clear Hall.
  destruct (pad3 n) as [|d1 [|d2 [|d3 [|d4 r]]]]; try discriminate. intro E. exists d1, d2, d3. split; [reflexivity|]. destruct (undec _) as [n'|]; [|discriminate]. apply N.eqb_eq in E. now subst.
Qed.
Lemma undec_minus w n : undec w = Some n -> forall w', w <> str "-" ++ w'.
Proof. intros H w' ->. unfold undec in H. cbn in H. destruct (DecimalString.NilEmpty.uint_of_string _); discriminate. Qed.
Lemma tail4 {A} (a b : list A) w x y z w' x' y' z' : a ++ [w; x; y; z] = b ++ [w'; x'; y'; z'] -> a = b /\ [x; y; z] = [x'; y'; z'].
Proof.
  intro H. change ([w; x; y; z]) with ([w; x; y] ++ [z]) in H. change ([w'; x'; y'; z']) with ([w'; x'; y'] ++ [z']) in H. rewrite !app_assoc in H. apply app_inj_tail in H. destruct H as [H ->].
  change ([w; x; y]) with ([w; x] ++ [y]) in H. change ([w'; x'; y']) with ([w'; x'] ++ [y']) in H. rewrite !app_assoc in H. apply app_inj_tail in H. destruct H as [H ->].
  change ([w; x]) with ([w] ++ [x]) in H. change ([w'; x']) with ([w'] ++ [x']) in H. rewrite !app_assoc in H. apply app_inj_tail in H. destruct H as [H ->]. apply app_inj_tail in H. destruct H as [-> _]. now split.
Qed.
(* Every number in the file (parameter values, steady state) is written as a decimal with three places, the nearest one: at most
   0.0005 away, and equal only to numbers with three decimals. *)
Theorem C97_three_decimals : forall x, exists y, denotes3 (fixed3 x) y /\ (forall y', denotes3 (fixed3 x) y' -> (y' == y)%Q) /\
  (Qabs (y - x) <= 1 # 2000)%Q /\ ((y == x)%Q <-> exists k : Z, (x == inject_Z k / 1000)%Q).
Proof.
  intro x. set (n := Z.to_N (round_half_even (Qabs x * 1000))).
  assert (0 <= Qabs x * 1000)%Q as Hpos by (pose proof (Qabs_nonneg x); Lqa.lra).
  pose proof (rhe_nonneg _ Hpos) as Hnn. pose proof (rhe_spec (Qabs x * 1000)) as Hr.
  assert (inject_Z (Z.of_N n) = inject_Z (round_half_even (Qabs x * 1000))) as En by (unfold n; now rewrite Z2N.id).
  assert (inject_Z (Z.of_N (n / 1000)) + inject_Z (Z.of_N (n mod 1000)) / 1000 == inject_Z (Z.of_N n) / 1000)%Q as Esplit.
  { pose proof (N.div_mod n 1000 ltac:(discriminate)) as D. assert (Z.of_N n = 1000 * Z.of_N (n / 1000) + Z.of_N (n mod 1000))%Z as -> by lia. rewrite inject_Z_plus, inject_Z_mult. change (inject_Z 1000) with 1000%Q. field. }
  set (neg := match Qcompare x 0 with Lt => true | _ => false end).
  set (y := (if neg then - (inject_Z (Z.of_N n) / 1000) else inject_Z (Z.of_N n) / 1000)%Q).
  destruct (pad3_digits (n mod 1000)) as (d1 & d2 & d3 & E3 & U3); [apply N.mod_lt; discriminate|].
  assert (fixed3 x = (if neg then str "-" else []) ++ dec (n / 1000) ++ str "." ++ [d1; d2; d3]) as Et by (rewrite <- E3; reflexivity).
  assert ((neg = true /\ Qabs x == - x /\ x < 0)%Q \/ (neg = false /\ Qabs x == x)%Q) as Hneg.
  { unfold neg. destruct (Qcompare_spec x 0) as [E|E|E]; [right|left|right]; (split; [reflexivity|]); [rewrite Qabs_pos; [reflexivity|Lqa.lra]|split; [rewrite Qabs_neg; [reflexivity|Lqa.lra]|exact E]|rewrite Qabs_pos; [reflexivity|Lqa.lra]]. }
  exists y. split; [|split; [|split]].
  - exists neg, (dec (n / 1000)), d1, d2, d3, (n / 1000)%N. split; [exact Et|]. split; [apply undec_dec|]. exists (n mod 1000)%N. split; [exact U3|]. unfold y. destruct neg; rewrite Esplit; reflexivity.
  - intros y' (neg' & whole & e1 & e2 & e3 & w & E & Uw & f & Uf & Ey). rewrite Et in E.
    assert (neg' = neg /\ whole = dec (n / 1000) /\ [e1; e2; e3] = [d1; d2; d3]) as (-> & -> & E4).
    { change (str "." ++ [d1; d2; d3]) with (["."%char; d1; d2; d3]) in E. change (str "." ++ [e1; e2; e3]) with (["."%char; e1; e2; e3]) in E.
      rewrite !app_assoc in E. apply tail4 in E. destruct E as [E E4]. rewrite <- E4.
      destruct neg', neg; cbn [app str list_ascii_of_string] in E; try (injection E as E); rewrite <- ?E; try (repeat split; reflexivity); exfalso.
      - exact (undec_minus _ _ (undec_dec (n / 1000)) whole E).
      - exact (undec_minus _ _ Uw (dec (n / 1000)) (eq_sym E)). }
    injection E4 as -> -> ->. rewrite undec_dec in Uw. injection Uw as <-. rewrite U3 in Uf. injection Uf as <-. rewrite Ey. unfold y. destruct neg; rewrite Esplit; reflexivity.
  - apply Qabs_Qle_condition in Hr. apply Qabs_Qle_condition. unfold y. rewrite En. set (r := inject_Z (round_half_even (Qabs x * 1000))) in *. assert (r / 1000 == r * (1 # 1000))%Q as E by (field). destruct Hneg as [(-> & Ea & _)|(-> & Ea)]; split; Lqa.lra.
  - split.
    + intro E. exists (if neg then - Z.of_N n else Z.of_N n)%Z. rewrite <- E. unfold y. destruct neg; [rewrite inject_Z_opp; field|reflexivity].
    + intros [k Hk]. assert (inject_Z (round_half_even (Qabs x * 1000)) == Qabs x * 1000)%Q as Ex.
      { apply (rhe_exact _ (if neg then - k else k)%Z). destruct Hneg as [(-> & Ea & _)|(-> & Ea)]; rewrite Ea, Hk; [rewrite inject_Z_opp|]; field. }
      unfold y. rewrite En. destruct Hneg as [(-> & Ea & _)|(-> & Ea)]; rewrite Ex, Ea; field.
Qed.
(* Every parameter value, and every computed steady-state value, is written, in order. *)
Theorem C97_values_written : forall lit_value minus m width F, make_mod_file lit_value minus m width = Ok F ->
  (length (f_assigned F) = length (d_values m) /\ forall i k x, nth_error (d_values m) i = Some (k, x) -> nth_error (f_assigned F) i = Some (k, fixed3 x)) /\
  (forall rows, f_steady F = inr rows -> exists ss, d_steady m = Ok ss /\ length rows = length ss /\ forall i k x, nth_error ss i = Some (k, x) -> nth_error rows i = Some (k, fixed3 x)).
Proof.
  intros lv minus m width F H. unfold make_mod_file in H. destruct (locals lv minus m) as [ls|]; [|discriminate]. cbn in H. destruct (steady_block lv minus m) as [st|] eqn:Es; [|discriminate]. cbn in H. injection H as <-. cbn [f_assigned f_steady]. split.
  - split; [apply map_length|]. intros i k x Hi. now rewrite nth_error_map, Hi.
  - intros rows ->. unfold steady_block in Es. destruct (Nat.eqb _ _); [discriminate|]. destruct (d_steady m) as [ss|]; [|discriminate]. cbn in Es. injection Es as <-. exists ss. split; [reflexivity|]. split; [apply map_length|]. intros i k x Hi. now rewrite nth_error_map, Hi.
Qed.
(* Values are not written exactly: a persistence of 0.9996 becomes a unit root, a small variance becomes zero. *)
Theorem C97_exact_values_refuted : fixed3 (9996 # 10000) = str "1.000" /\ fixed3 (4 # 10000) = str "0.000" /\ fixed3 (- (123456 # 100000)) = str "-1.235".
Proof. repeat split; vm_compute; reflexivity. Qed.
Print Assumptions C97_three_decimals.
