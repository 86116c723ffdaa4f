(* Centroids *)
From Verif Require Import Base Graph_spec Tree_spec.
(* x and w are joined by a route that does not use v *)
Definition joined_without (g : list (list Z)) (v x w : Z) : Prop := exists p c, route (hop g) x w p c /\ ~ In v p.
(* v is a centroid: without v, no piece has more than half of all the vertices *)
Definition centroid (g : list (list Z)) (v : Z) : Prop := vertex g v /\
  forall x l, vertex g x -> NoDup l -> (forall w, In w l -> joined_without g v x w) -> 2 * zlen l <= zlen g.
