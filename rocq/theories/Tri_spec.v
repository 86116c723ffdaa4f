(* Triangles of a simple undirected graph *)
From Verif Require Import Base Graph_spec Tree_spec.
Definition simple_graph (g : list (list Z)) : Prop :=
  graph_ok g /\ undirected g /\ (forall u, ~ edge g u u) /\ (forall u adj, vget g u = Ok adj -> NoDup adj).
Definition triangle (g : list (list Z)) (a b c : Z) : Prop := edge g a b /\ edge g b c /\ edge g a c.
(* the same three vertices, in any order *)
Definition same3 (t : Z * Z * Z) (a b c : Z) : Prop :=
  t = (a, b, c) \/ t = (a, c, b) \/ t = (b, a, c) \/ t = (b, c, a) \/ t = (c, a, b) \/ t = (c, b, a).
