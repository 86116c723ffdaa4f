(* Specification vocabulary for bipartite matching. *)
From Verif Require Import Base.

(* E: the edges (l, r) of a bipartite graph with left vertices 0..n-1 and right vertices 0..m-1 *)
Definition edges_ok (n m : Z) (E : list (Z * Z)) : Prop := forall l r, In (l, r) E -> 0 <= l < n /\ 0 <= r < m.
(* a matching: edges no two of which share an end point *)
Definition is_matching (E M : list (Z * Z)) : Prop := incl M E /\ NoDup (map fst M) /\ NoDup (map snd M).
Definition is_max_matching (E M : list (Z * Z)) : Prop := is_matching E M /\ forall M', is_matching E M' -> zlen M' <= zlen M.
(* sets of vertices; right vertex r is numbered n + r *)
Definition is_cover (n m : Z) (E : list (Z * Z)) (C : list Z) : Prop :=
  NoDup C /\ (forall v, In v C -> 0 <= v < n + m) /\ forall l r, In (l, r) E -> In l C \/ In (n + r) C.
Definition is_min_cover (n m : Z) (E : list (Z * Z)) (C : list Z) : Prop := is_cover n m E C /\ forall C', is_cover n m E C' -> zlen C <= zlen C'.
Definition is_independent (n m : Z) (E : list (Z * Z)) (C : list Z) : Prop :=
  NoDup C /\ (forall v, In v C -> 0 <= v < n + m) /\ forall l r, In (l, r) E -> In l C -> In (n + r) C -> False.
Definition is_max_independent (n m : Z) (E : list (Z * Z)) (C : list Z) : Prop := is_independent n m E C /\ forall C', is_independent n m E C' -> zlen C' <= zlen C.
(* a set of edges that touches every vertex *)
Definition is_edge_cover (n m : Z) (E F : list (Z * Z)) : Prop :=
  incl F E /\ (forall l, 0 <= l < n -> In l (map fst F)) /\ forall r, 0 <= r < m -> In r (map snd F).
Definition is_min_edge_cover (n m : Z) (E F : list (Z * Z)) : Prop := is_edge_cover n m E F /\ forall F', is_edge_cover n m E F' -> zlen F <= zlen F'.
