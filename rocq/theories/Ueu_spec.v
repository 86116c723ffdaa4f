(* Specification vocabulary for Eulerian circuits and trails of undirected multigraphs (walk and steps are in Eul_spec). *)
From Verif Require Import Base Eul_spec.
From Coq Require Import Permutation.

(* an edge without its direction *)
Definition norm (e : Z * Z) : Z * Z := (Z.min (fst e) (snd e), Z.max (fst e) (snd e)).
(* a walk from a to b that uses every edge of E exactly once, in either direction *)
Definition is_utrail (E : list (Z * Z)) (a : Z) (w : list Z) (b : Z) : Prop := walk a w b /\ Permutation (map norm (steps w)) (map norm E).
