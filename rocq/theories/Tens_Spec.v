(* Vocabulary for C144. *)
From Verif Require Import Common Conv_Model Conv_Spec Tens_Model.
Section S.
Context {V Op : Type}.
Variable sem : Op -> list V -> V.
Notation output := (output V Op).
Notation node := (node V Op).
(* what picking the elements with P, in order, gives *)
Inductive picks {A} (P : A -> Prop) : list A -> list A -> Prop :=
| picks_nil : picks P [] []
| picks_keep x a b : P x -> picks P a b -> picks P (x :: a) (x :: b)
| picks_drop x a b : ~ P x -> picks P a b -> picks P (x :: a) b.
Definition mentions (o : output) (k : key) : Prop := match o with inl _ => False | inr e => exists x, occurs x e /\ key_of x = k end.

(* a model as the loader makes it, with known steady-state values [sol] *)
Record wf (m : model V Op) (sol : list (sym * output)) : Prop := {
  t_params : forall s, In s (m_free m ++ map fst (m_det m) ++ map fst (m_calib m)) -> scls s = CSymbol /\ clean_sym s;
  t_vars : forall s, In s (m_vars m) -> scls s = CTime;
  t_clean : forall o e, In o (map snd (m_det m) ++ m_eqs m ++ map snd (m_calib m) ++ map snd sol) -> o = inr e -> clean e;
  t_sol : NoDup (map fst sol) /\ forall s v, In s (map fst sol) -> In v (all_vars m) -> sname s = sname v -> s = v }.

(* the equations of the model *)
Definition equations (m : model V Op) : list output := m_eqs m ++ map snd (m_calib m).
Definition unknown (m : model V Op) (sol : list (sym * output)) (v : sym) : Prop := In v (all_vars m) /\ ~ In v (map fst sol).
(* the symbols an equation speaks of after putting in the known values, and whether an unknown variable is among them *)
Definition speaks (all : list sym) (sol : list (sym * output)) (o : output) (k : key) : Prop :=
  (mentions o k /\ forall s, In s (map fst sol) -> In s all -> key_of s <> k) \/
  (exists s so, In (s, so) sol /\ In s all /\ mentions o (key_of s) /\ mentions so k).
Definition open_equation (m : model V Op) (sol : list (sym * output)) (o : output) : Prop :=
  exists v, unknown m sol v /\ speaks (all_vars m) sol o (key_of v).
(* values with the known variables computed from the others *)
Fixpoint with_known (all : list sym) (sol : list (sym * output)) (E : key -> V) (k : key) : V :=
  match sol with
  | [] => E k
  | (s, o) :: t => if in_dec sym_dec s all then if key_dec (key_of s) k then evalo sem E o else with_known all t E k else with_known all t E k
  end.

(* [input k] is the input that stands for the symbol k: the right answer to a query *)
Definition input_node (input : key -> nat) (s : sym) : node := Inp (input (key_of s)) (sname s).
Definition computes (input : key -> nat) (all : list sym) (sol : list (sym * output)) (n : node) (o : output) : Prop :=
  (forall r, evaln sem r n = evalo sem (with_known all sol (fun k => r (input k))) o) /\
  (forall i, depends i n <-> exists k, speaks all sol o k /\ i = input k).
Definition right_equations (m : model V Op) (input : key -> nat) (sol : list (sym * output)) (l : list node) : Prop :=
  ((exists k, In k (map fst sol) /\ In k (all_vars m)) ->
     exists es, picks (open_equation m sol) (equations m) es /\ Forall2 (computes input (all_vars m) sol) l es) /\
  ((forall k, In k (map fst sol) -> ~ In k (all_vars m)) -> Forall2 (computes input (all_vars m) []) l (equations m)).
Definition right_reply (deriv : expr V Op -> sym -> expr V Op) (m : model V Op) (input : key -> nat) (q : query V Op) (a : reply V Op) : Prop :=
  match q, a with
  | SsTensors f, Nodes l => exists vs, picks (unknown m (if f then m_sol m else [])) (all_vars m) vs /\ l = map (input_node input) vs
  | ParamTensors a b c, Nodes l =>
      l = map (input_node input) ((if a then m_free m else []) ++ (if b then map fst (m_det m) else []) ++ (if c then map fst (m_calib m) else []))
  | EquationTensors f, Nodes l => right_equations m input (if f then m_sol m else []) l
  | WithFixed fv, Problem l ins => right_equations m input (merged m fv) l /\
      exists vs, picks (unknown m (merged m fv)) (all_vars m) vs /\ ins = map (input_node input) vs
  | OtherGraph c, Graphs a => right_answer sem deriv input c a
  | _, _ => False
  end.
Definition fine_query (deriv : expr V Op -> sym -> expr V Op) (m : model V Op) (q : query V Op) : Prop :=
  match q with WithFixed fv => wf m (merged m fv) | OtherGraph c => clean_call deriv c | _ => True end.
End S.
