(* Specification vocabulary for bridges, articulation points and 2-edge-connected components.
   A graph is a list of edges; the position of an edge in the list is its id.  [connected E a b]
   (UnionFind_spec) is the equivalence closure of the pairs in E. *)
From Verif Require Import Base.
From Verif Require Export UnionFind_spec.

(* the edges are between vertices 0..n-1 *)
Definition graph_on (n : Z) (E : list (Z * Z)) : Prop := forall a b, In (a, b) E -> 0 <= a < n /\ 0 <= b < n.
(* E without the edge number id; E without the edges at u *)
Definition without_edge (E : list (Z * Z)) (id : Z) : list (Z * Z) := firstn (Z.to_nat id) E ++ skipn (S (Z.to_nat id)) E.
Definition without_vertex (E : list (Z * Z)) (u : Z) : list (Z * Z) := filter (fun e => negb (fst e =? u) && negb (snd e =? u)) E.
(* edge number id joins u and v *)
Definition joins (E : list (Z * Z)) (id u v : Z) : Prop := 0 <= id < zlen E /\ (nth_error E (Z.to_nat id) = Some (u, v) \/ nth_error E (Z.to_nat id) = Some (v, u)).
(* removing the edge separates two vertices that were connected *)
Definition bridge (E : list (Z * Z)) (id : Z) : Prop :=
  0 <= id < zlen E /\ exists a b, connected E a b /\ ~ connected (without_edge E id) a b.
(* removing the vertex separates two other vertices that were connected *)
Definition articulation (n : Z) (E : list (Z * Z)) (u : Z) : Prop :=
  0 <= u < n /\ exists a b, a <> u /\ b <> u /\ connected E a b /\ ~ connected (without_vertex E u) a b.
(* the vertices in V form k connected components: there are k pairwise unconnected representatives *)
Definition components (V : Z -> Prop) (E : list (Z * Z)) (k : Z) : Prop :=
  exists reps, zlen reps = k /\ NoDup reps /\ (forall r, In r reps -> V r) /\
    (forall r r', In r reps -> In r' reps -> connected E r r' -> r = r') /\
    (forall v, V v -> exists r, In r reps /\ connected E v r).
(* no single edge separates a from b *)
Definition two_edge_connected (E : list (Z * Z)) (a b : Z) : Prop :=
  connected E a b /\ forall id, 0 <= id < zlen E -> connected (without_edge E id) a b.
