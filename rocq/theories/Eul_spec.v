(* Specification vocabulary for Eulerian circuits and trails of directed multigraphs. *)
From Verif Require Import Base.
From Coq Require Import Permutation.

(* the edges used by the walk w, in order *)
Fixpoint steps (w : list Z) : list (Z * Z) := match w with x :: ((y :: _) as r) => (x, y) :: steps r | _ => [] end.
(* the walk starts at a and ends at b *)
Definition walk (a : Z) (w : list Z) (b : Z) : Prop := (exists r, w = a :: r) /\ exists q, w = q ++ [b].
(* a walk that uses every edge of E exactly once (E lists the edges, with repetitions) *)
Definition is_trail (E : list (Z * Z)) (a : Z) (w : list Z) (b : Z) : Prop := walk a w b /\ Permutation (steps w) E.
