(* Graphs as the library takes them: adjacency lists.  Vertices are 0 .. n-1. *)
From Verif Require Import Base.

(* [edge g u v]: v is in the adjacency list of u *)
Definition edge (g : list (list Z)) (u v : Z) : Prop := exists adj, vget g u = Ok adj /\ In v adj.
(* weighted: (v, c) is in the adjacency list of u *)
Definition wedge (g : list (list (Z * Z))) (u v c : Z) : Prop := exists adj, vget g u = Ok adj /\ In (v, c) adj.
(* adjacency lists mention existing vertices only *)
Definition graph_ok (g : list (list Z)) : Prop := forall u v, edge g u v -> 0 <= v < zlen g.
Definition wgraph_ok (g : list (list (Z * Z))) : Prop := forall u v c, wedge g u v c -> 0 <= v < zlen g.
Definition vertex {A} (g : list A) (v : Z) : Prop := 0 <= v < zlen g.

(* [route E s t p c]: p is a route from s to t (both listed) whose edges cost c in total *)
Inductive route (E : Z -> Z -> Z -> Prop) : Z -> Z -> list Z -> Z -> Prop :=
  | route_end s : route E s s [s] 0
  | route_step s u t p c d : E s u c -> route E u t p d -> route E s t (s :: p) (c + d).
(* every edge costs one: the cost of a route is its number of edges *)
Definition hop (g : list (list Z)) (u v c : Z) : Prop := edge g u v /\ c = 1.
(* [reach E s t c]: some route from s to t costs c;  [best E s t c]: and none costs less *)
Definition reach (E : Z -> Z -> Z -> Prop) (s t c : Z) : Prop := exists p, route E s t p c.
Definition best (E : Z -> Z -> Z -> Prop) (s t c : Z) : Prop := reach E s t c /\ forall d, reach E s t d -> c <= d.
(* a directed cycle *)
Definition cyclic (g : list (list Z)) : Prop := exists v c, reach (hop g) v v c /\ 0 < c.
