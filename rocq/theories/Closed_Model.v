(* Models of
     gEconpy/model/block/cobb_douglas.py: _decompose_monomial l.9-51, _match_cobb_douglas_constraint l.54-121,
       CobbDouglasBlock.detect l.153-185, _compute_foc l.196-259
     gEconpy/model/block/ces.py: _decompose_ces_outer l.9-48, _decompose_ces_inner l.51-105, _match_ces_constraint
       l.108-176, CESBlock._compute_foc l.247-317
     gEconpy/model/block/registry.py: dispatch (a block for which a subclass's detect holds gets that subclass).
   Simplifications:
   - base ** exponent is exp(exponent * log base) ([pw]), which is its value for positive bases;
   - sp.expand only collects the signed addends of rhs - lhs (zero addends dropped); it does not multiply out products;
   - the order of the arguments of SymPy sums and products is their written order;
   - sp.simplify(e) == 0 is an oracle [zero]; the theorems assume that what it accepts is zero;
   - error 30 stands for the RuntimeError "no multiplier for the production constraint". *)
From Verif Require Import Common Sym_Model SymDict_Model Block_Model.
Local Open Scope list_scope.

Definition pw (x a : sx) : sx := Fn (str "exp") 0 (Mu a (Fn (str "log") 0 x)).
(* f.args of a Pow *)
Definition as_pow (e : sx) : option (sx * sx) :=
  match e with
  | Fn f 0 (Mu a (Fn g 0 x)) => if (chars_eqb f (str "exp") && chars_eqb g (str "log"))%bool then Some (x, a) else None
  | _ => None
  end.

(* the addends of a sum with their signs *)
Fixpoint signed (pos : bool) (e : sx) : list (bool * sx) :=
  match e with
  | Ad a b => signed pos a ++ signed pos b
  | Ng a => signed (negb pos) a
  | Cst 0 => []
  | _ => [(pos, e)]
  end.
(* One addend must be -Y, the other the product; -Y is looked for first to last. *)
Definition split_residual (l : list (bool * sx)) : option (sym * sx) :=
  match l with
  | [(false, Sy y); (s, t)] => Some (y, if s then t else Ng t)
  | [(s, t); (false, Sy y)] => Some (y, if s then t else Ng t)
  | _ => None
  end.

(* _decompose_monomial *)
Definition monomial_step (acc : option (option sym * list (sym * sx))) (f : sx) : option (option sym * list (sym * sx)) :=
  match acc with
  | None => None
  | Some (A, inputs) =>
      match as_pow f with
      | Some (Sy x, a) => Some (A, inputs ++ [(x, a)])
      | Some _ => None
      | None =>
          match f with
          | Sy s => match A with Some _ => None | None => Some (Some s, inputs) end
          | _ => None
          end
      end
  end.
(* len(set(l)) == len(l) *)
Fixpoint distinct (l : list sym) : bool :=
  match l with [] => true | x :: l' => (negb (smem x l') && distinct l')%bool end.
Definition decompose_monomial (e : sx) : option (option sym * list (sym * sx)) :=
  match fold_left monomial_step (factors e) (Some (None, [])) with
  | Some (A, inputs) =>
      if match inputs with [] => true | _ => false end then None
      else if distinct (map fst inputs) then Some (A, inputs) else None
  | None => None
  end.
Definition olist {A} (o : option A) : list A := match o with Some x => [x] | None => [] end.

(* the two residuals tried in turn *)
Definition residuals (e : eqn) : list (list (bool * sx)) :=
  [signed true (rhs e) ++ signed false (lhs e); signed true (lhs e) ++ signed false (rhs e)].
Fixpoint first_some {A B} (f : A -> option B) (l : list A) : option B :=
  match l with [] => None | x :: l' => match f x with Some y => Some y | None => first_some f l' end end.

Record cd := CD { cd_Y : sym; cd_A : option sym; cd_inputs : list (sym * sx) }.
Definition match_cd_residual (l : list (bool * sx)) : option cd :=
  match split_residual l with
  | Some (Y, prod) =>
      match decompose_monomial prod with
      | Some (A, inputs) => if distinct (Y :: olist A ++ map fst inputs) then Some (CD Y A inputs) else None
      | None => None
      end
  | None => None
  end.
(* _match_cobb_douglas_constraint *)
Definition match_cd (cons : option (ntab eqn)) : option (nat * cd) :=
  match cons with
  | Some [(idx, e)] => match first_some match_cd_residual (residuals e) with Some m => Some (idx, m) | None => None end
  | _ => None
  end.

Definition find_input (c : sym) (inputs : list (sym * sx)) : option sx :=
  match find (fun xa => sym_eqb c (fst xa)) inputs with Some xa => Some (snd xa) | None => None end.

Section F.
Variable ord : set_order.

(* the common part of the two _compute_foc methods: multiplier, objective derivative, closed form or fallback *)
Definition closed_foc (idx : nat) (closed : sym -> sym -> option sx) (b : block) (c : sym) (L df : sx) : result sx :=
  match nget idx (k_mult b) with
  | None => Err KeyError
  | Some None => Err (GEconError 30)
  | Some (Some mu) =>
      match tab (k_obj b) with
      | [] => Err AttributeError
      | (oi, o) :: _ =>
          let r := if match nget oi (k_flags b) with Some f => fl_min f | None => false end then Ng (rhs o) else rhs o in
          ot <- foc_of ord r df c ;;
          match closed mu c with
          | Some t => Ok (Ad ot t)
          | None => foc_of ord L df c
          end
      end
  end.
(* CobbDouglasBlock._compute_foc *)
Definition cd_closed (m : cd) (mu c : sym) : option sx :=
  match find_input c (cd_inputs m) with
  | Some a => Some (Mu (Mu (Mu (Sy mu) a) (Sy (cd_Y m))) (pw (Sy c) (Cst (-1))))
  | None => None
  end.
Definition cd_foc (idx : nat) (m : cd) : block -> sym -> sx -> sx -> result sx := closed_foc idx (cd_closed m).

(* ---- CES ---- *)
Variable zero : sx -> bool.  (* sp.simplify(e) == 0 *)
Definition minus (a b : sx) : sx := Ad a (Ng b).

(* _decompose_ces_outer *)
Definition outer_step (acc : option (option sym * option (sx * sx))) (f : sx) : option (option sym * option (sx * sx)) :=
  match acc with
  | None => None
  | Some (A, pf) =>
      match f with
      | Sy s => match A with Some _ => None | None => Some (Some s, pf) end
      | _ => match as_pow f with
             | Some (Ad u v, o) => match pf with Some _ => None | None => Some (A, Some (Ad u v, o)) end
             | _ => None
             end
      end
  end.
Definition decompose_outer (e : sx) : option (option sym * sx * sx) :=
  match fold_left outer_step (factors e) (Some (None, None)) with
  | Some (A, Some (inner, o)) => Some (A, inner, o)
  | _ => None
  end.
(* l.73-82 *)
Definition candidates (inner : sx) : list sx :=
  fold_left (fun cs f => match as_pow f with
                         | Some (_, a) => if existsb (fun c => zero (minus a c)) cs then cs else cs ++ [a]
                         | None => cs
                         end) (flat_map factors (addends inner)) [].
(* l.84-98: one addend *)
Definition term_step (s : sx) (acc : option (option sym * list sx)) (f : sx) : option (option sym * list sx) :=
  match acc with
  | None => None
  | Some (x, share) =>
      match as_pow f with
      | Some (b, a) =>
          if zero (minus a s) then
            match x, b with
            | None, Sy y => Some (Some y, share)
            | _, _ => None
            end
          else Some (x, share ++ [f])
      | None => Some (x, share ++ [f])
      end
  end.
Definition product (l : list sx) : sx := fold_right Mu (Cst 1) l.
Definition decompose_term (s : sx) (t : sx) : option (sym * sx) :=
  match fold_left (term_step s) (factors t) (Some (None, [])) with
  | Some (Some x, share) => Some (x, product share)
  | _ => None
  end.
Fixpoint all_some {A} (l : list (option A)) : option (list A) :=
  match l with
  | [] => Some []
  | Some x :: l' => match all_some l' with Some r => Some (x :: r) | None => None end
  | None :: _ => None
  end.
(* _decompose_ces_inner *)
Definition decompose_inner (inner o : sx) : option (sx * list (sym * sx)) :=
  match filter (fun c => zero (minus (Mu o c) (Cst 1))) (candidates inner) with
  | [s] =>
      match all_some (map (decompose_term s) (addends inner)) with
      | Some inputs => if distinct (map fst inputs) then Some (s, inputs) else None
      | None => None
      end
  | _ => None
  end.
Record ces := CES { ces_Y : sym; ces_A : option sym; ces_s : sx; ces_inputs : list (sym * sx) }.
Definition match_ces_residual (l : list (bool * sx)) : option ces :=
  match split_residual l with
  | Some (Y, prod) =>
      match decompose_outer prod with
      | Some (A, inner, o) =>
          match decompose_inner inner o with
          | Some (s, inputs) => if distinct (Y :: olist A ++ map fst inputs) then Some (CES Y A s inputs) else None
          | None => None
          end
      | None => None
      end
  | None => None
  end.
Definition match_ces (cons : option (ntab eqn)) : option (nat * ces) :=
  match cons with
  | Some [(idx, e)] => match first_some match_ces_residual (residuals e) with Some m => Some (idx, m) | None => None end
  | _ => None
  end.
(* CESBlock._compute_foc *)
Definition ces_closed (m : ces) (mu c : sym) : option sx :=
  match find_input c (ces_inputs m) with
  | Some share =>
      let af := match ces_A m with Some A => pw (Sy A) (ces_s m) | None => Cst 1 end in
      Some (Mu (Mu (Mu (Sy mu) share) af)
               (pw (Mu (Sy (ces_Y m)) (pw (Sy c) (Cst (-1)))) (minus (Cst 1) (ces_s m))))
  | None => None
  end.
Definition ces_foc (idx : nat) (m : ces) : block -> sym -> sx -> sx -> result sx := closed_foc idx (ces_closed m).
End F.

(* solve_optimization of the class chosen by dispatch_block: CES is imported, hence registered, before Cobb-Douglas
   (gEconpy/model/block/__init__.py l.4-7) *)
Definition solve_dispatched (ord sord : set_order) (aord : list sx -> list sx) (zero : sx -> bool) (b : block) : result block :=
  match k_obj b, match_ces zero (k_cons b) with
  | Some _, Some (idx, m) => solve_with ord sord aord (ces_foc ord idx m) b
  | Some _, None =>
      match match_cd (k_cons b) with
      | Some (idx, m) => solve_with ord sord aord (cd_foc ord idx m) b
      | None => solve_optimization ord sord aord b
      end
  | None, _ => solve_optimization ord sord aord b
  end.
