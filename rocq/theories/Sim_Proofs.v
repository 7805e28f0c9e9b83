(* Lemmas for the simulation statements. *)
From mathcomp Require Import all_ssreflect all_algebra.
From Verif Require Import Sim_Model Sim_Spec.
Import GRing.Theory Num.Theory Order.TTheory.
Set Implicit Arguments.
Unset Strict Implicit.
Unset Printing Implicit Defensive.
Local Open Scope ring_scope.
Section P.
Variables (F : rcfType) (Name : eqType) (names : seq Name) (n : nat).
Notation k := (size names).
Variables (T : 'M[F]_n) (R : 'M[F]_(n, k)).
Notation sim := (simulate_linear_system T R).

Lemma later_follows p es : size (later_rows T R p es) = size es /\
  forall t, (t < size es)%N ->
   nth 0 (later_rows T R p es) t = (if t is s.+1 then T *m nth 0 (later_rows T R p es) s else T *m p) + R *m nth 0 es t.
Proof.
elim: es p => [|e es IH] p //=; have [S H] := IH (T *m p + R *m e).
split=> [|[|t] //= Ht]; first by rewrite S.
by rewrite H //; case: t Ht.
Qed.
Lemma sim_ok e : e <> [::] -> exists2 x, sim e = Returned x & follows T R e x.
Proof.
case: e => [//|e es] _; eexists; first by [].
have [S H] := later_follows (R *m e) es; split; first by rewrite /= S.
case=> [|t] /= Ht; first by rewrite add0r.
by rewrite H //; case: t Ht.
Qed.
Lemma follows_unique e x y : follows T R e x -> follows T R e y -> x = y.
Proof.
move=> [sx hx] [sy hy]; apply: (@eq_from_nth _ 0) => [|t]; first by rewrite sx sy.
rewrite sx; elim: t => [|t IH] Ht; first by rewrite hx // hy.
by rewrite hx // hy // IH // ltnW.
Qed.
Lemma sim_iff e x : sim e = Returned x <-> e <> [::] /\ follows T R e x.
Proof.
split=> [|[ne fx]]; last by have [y -> fy] := sim_ok ne; rewrite (follows_unique fx fy).
case: (e =P [::]) => [-> //|ne E]; split=> //.
by have [y] := sim_ok ne; rewrite E => -[->].
Qed.
Lemma afterS t x : after T t.+1 x = T *m after T t x. Proof. by []. Qed.
Lemma afterD t x y : after T t (x + y) = after T t x + after T t y.
Proof. by elim: t => //= t IH; rewrite IH mulmxDr. Qed.
Lemma afterZ t a x : after T t (a *: x) = a *: after T t x.
Proof. by elim: t => //= t IH; rewrite IH -scalemxAr. Qed.
Lemma after0 t : after T t 0 = 0.
Proof. by elim: t => //= t IH; rewrite IH mulmx0. Qed.
Lemma follows_ma e : follows T R e (moving_average T R e).
Proof.
split; first by rewrite size_mkseq.
move=> t Ht; rewrite nth_mkseq // big_ord_recr /= subnn; congr (_ + _).
case: t Ht => [|t] Ht; first by rewrite big_ord0.
rewrite nth_mkseq ?(ltnW Ht) // mulmx_sumr; apply: eq_bigr => i _.
by rewrite subSn ?afterS // -ltnS.
Qed.
Lemma follows_impulse e l : follows T R (e :: nseq l 0) (impulse_path T R e l.+1).
Proof.
split; first by rewrite size_mkseq /= size_nseq.
rewrite /= size_nseq => -[|t] Ht; first by rewrite nth_mkseq // add0r.
by rewrite !nth_mkseq ?(ltnW Ht) //= nth_nseq if_same mulmx0 addr0.
Qed.
Lemma sim_impulse e l : sim (e :: nseq l 0) = Returned (impulse_path T R e l.+1).
Proof. by apply/sim_iff; split=> //; exact: follows_impulse. Qed.
Lemma follows_linear a b e f x y : size e = size f -> follows T R e x -> follows T R f y ->
  follows T R [seq a *: p.1 + b *: p.2 | p <- zip e f] [seq a *: p.1 + b *: p.2 | p <- zip x y].
Proof.
move=> S [sx hx] [sy hy].
have sz : size (zip e f) = size e by rewrite size_zip -S minnn.
have sz' : size (zip x y) = size e by rewrite size_zip sx sy -S minnn.
have nthz t : nth 0 [seq a *: p.1 + b *: p.2 | p <- zip x y] t = (if (t < size e)%N then a *: nth 0 x t + b *: nth 0 y t else 0).
  case: ifP => H; last by rewrite nth_default // size_map sz' leqNgt H.
  by rewrite (nth_map (0, 0)) ?sz' // nth_zip ?sx ?sy.
split; first by rewrite !size_map sz sz'.
rewrite size_map sz => t Ht; rewrite nthz Ht (nth_map (0, 0)) ?sz // nth_zip //= hx // hy -?S //.
have E : forall u, T *m (a *: nth 0 x u + b *: nth 0 y u) = a *: (T *m nth 0 x u) + b *: (T *m nth 0 y u).
  by move=> u; rewrite mulmxDr -!scalemxAr.
have D u v w z : a *: (u + v) + b *: (w + z) = a *: u + b *: w + (a *: v + b *: z) by rewrite !scalerDr addrACA.
case: t Ht => [|t] Ht; rewrite D; congr (_ + _); rewrite ?scaler0 ?addr0 ?nthz ?(ltnW Ht) ?E ?mulmxDr -?scalemxAr //.
Qed.
Lemma in_turn_map A B (f : A -> outcome B) (g : A -> B) (l : seq A) :
  {in [pred x | true], forall x, f x = Returned (g x)} -> in_turn [seq f x | x <- l] = Returned [seq g x | x <- l].
Proof. by move=> H; elim: l => //= x l IH; rewrite H //= IH. Qed.
Lemma in_turn_ok A (l : seq (outcome A)) xs : in_turn l = Returned xs -> l = [seq Returned x | x <- xs].
Proof.
elim: l xs => [|[a|e] l IH] xs /=; [by move=> [<-]| |by []].
by case E : (in_turn l) => [ys|] //= [<-] /=; rewrite (IH _ E).
Qed.
Lemma only_cons i e es : @only_shock F Name names i (e :: es) = alone i (e i 0) :: only_shock i es.
Proof. by congr cons; apply/matrixP => a b; rewrite !mxE; case: eqP => // ->. Qed.
Lemma only_zero i l : @only_shock F Name names i (nseq l 0) = nseq l 0.
Proof.
rewrite /only_shock map_nseq; congr nseq; apply/matrixP => a b; rewrite !mxE; by case: ifP.
Qed.
(* the positions of the selected names, in model order, are the selected names *)
Lemma idxs_names (sel : seq Name) : uniq names ->
  [seq tnth (in_tuple names) i | i <- shock_idxs names sel] = [seq x <- names | x \in sel].
Proof.
move=> U; rewrite /shock_idxs.
have E : names = [seq tnth (in_tuple names) i | i <- enum 'I_k] by rewrite (map_tnth_enum (in_tuple names)).
by rewrite [in RHS]E filter_map.
Qed.
Lemma dict_get_None (d : dict F Name) x : dict_get d x = None <-> x \notin keys d.
Proof.
elim: d => //= -[y v] d IH; rewrite inE negb_or eq_sym; case: eqP => [->|_] /=; last exact: IH.
by split.
Qed.
Lemma dict_get_Some (d : dict F Name) x : x \in keys d -> exists v, dict_get d x = Some v.
Proof.
by case E : (dict_get d x) => [v|]; [exists v|move/dict_get_None/negP: E].
Qed.
Lemma dict_get_in (d : dict F Name) x v : uniq (keys d) -> ((x, v) \in d) = (dict_get d x == Some v).
Proof.
elim: d => //= -[y w] d IH /andP [ny u]; rewrite inE xpair_eqE IH // [x == y]eq_sym.
case: (y =P x) => [E|_] //=; rewrite -E (iffRL (dict_get_None d y) ny) orbF.
by apply/eqP/eqP => [->|[->]].
Qed.
End P.
