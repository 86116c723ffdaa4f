(* Specification vocabulary for linear equations in two unknowns with interval constraints. *)
From Verif Require Import Base.

Inductive con := MinX (v : Z) | MaxX (v : Z) | MinY (v : Z) | MaxY (v : Z).
Definition holds (p : Z * Z) (c : con) : Prop :=
  match c with MinX v => v <= fst p | MaxX v => fst p <= v | MinY v => v <= snd p | MaxY v => snd p <= v end.
Definition con_val (c : con) : Z := match c with MinX v | MaxX v | MinY v | MaxY v => v end.
(* p = (x, y) solves a x + b y = z under the constraints cs *)
Definition solves (a b z : Z) (cs : list con) (p : Z * Z) : Prop := a * fst p + b * snd p = z /\ Forall (holds p) cs.
