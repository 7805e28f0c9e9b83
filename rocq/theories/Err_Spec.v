(* What it means for a text to be readable back from a joined one, what the lines of a text are, and which suggestion is better. *)
From Coq Require Import QArith.
From Verif Require Import Common Err_Model SymDict_Model.
(* the separator occurs in [f ++ sep] only at the end *)
Definition clean (sep f : chars) : Prop := forall a b, f ++ sep = a ++ sep ++ b -> b = [].
(* lines, each with its newline *)
Definition unlines (ls : list chars) : chars := concat (map (fun l => l ++ [newline]) ls).
(* a name with a higher similarity is better, and the first one in the alphabet among equals *)
Definition better (a b : Q * chars) : Prop := (fst b < fst a)%Q \/ (fst a == fst b)%Q /\ chars_leb (snd a) (snd b) = true.
