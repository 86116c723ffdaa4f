(* C118: cliques, independent sets and vertex covers of a graph given by adjacency lists. *)
From Verif Require Import Base.
Definition adj (g : list (list Z)) (u v : Z) : Prop := exists l, vget g u = Ok l /\ In v l.
(* undirected, without loops, all neighbours are vertices *)
Definition simple (g : list (list Z)) : Prop := forall u v, adj g u v -> u <> v /\ adj g v u.
Definition vertices (g : list (list Z)) (s : list Z) : Prop := NoDup s /\ forall v, In v s -> 0 <= v < zlen g.
Definition clique g s : Prop := vertices g s /\ forall u v, In u s -> In v s -> u <> v -> adj g u v.
Definition independent g s : Prop := vertices g s /\ forall u v, In u s -> In v s -> ~ adj g u v.
Definition cover g s : Prop := vertices g s /\ forall u v, adj g u v -> In u s \/ In v s.
Definition largest (P : list Z -> Prop) (s : list Z) : Prop := P s /\ forall t, P t -> zlen t <= zlen s.
Definition smallest (P : list Z -> Prop) (s : list Z) : Prop := P s /\ forall t, P t -> zlen s <= zlen t.
