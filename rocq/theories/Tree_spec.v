(* Trees and forests given as undirected adjacency lists. *)
From Verif Require Import Base Graph_spec.

Definition undirected (g : list (list Z)) : Prop := forall u v, edge g u v -> edge g v u.
Definition connected (g : list (list Z)) (u v : Z) : Prop := exists c, reach (hop g) u v c.
(* a tree: undirected, connected, and n - 1 edges, each listed at both ends *)
Definition tree (g : list (list Z)) : Prop :=
  0 < zlen g /\ graph_ok g /\ undirected g /\ (forall u v, vertex g u -> vertex g v -> connected g u v) /\
  zlen (concat g) = 2 * (zlen g - 1).

(* [climb par k v a]: k steps to the parent lead from v to a.  A root has parent -1. *)
Inductive climb (par : Z -> Z) : Z -> Z -> Z -> Prop :=
  | climb_0 v : climb par 0 v v
  | climb_S k v a : par v <> -1 -> climb par k (par v) a -> climb par (k + 1) v a.
Definition ancestor (par : Z -> Z) (a v : Z) : Prop := exists k, climb par k v a.
(* [rooted g par]: g is a forest and par gives it roots: the neighbours of a vertex are its parent
   and its children, each listed once, and from every vertex the parents lead to a root *)
Definition rooted (g : list (list Z)) (par : Z -> Z) : Prop :=
  (forall v, vertex g v -> par v = -1 \/ vertex g (par v)) /\
  (forall u, vertex g u -> exists adj, vget g u = Ok adj /\ NoDup adj /\
     forall v, In v adj <-> vertex g v /\ (par v = u \/ par u = v)) /\
  (forall v, vertex g v -> exists k r, climb par k v r /\ par r = -1).
Definition forest (g : list (list Z)) : Prop := exists par, rooted g par.
(* [depth par v d]: d steps lead from v to its root *)
Definition depth (par : Z -> Z) (v d : Z) : Prop := exists r, climb par d v r /\ par r = -1.
(* [is_lca par u v a]: a is the lowest of the common ancestors of u and v *)
Definition is_lca (par : Z -> Z) (u v a : Z) : Prop :=
  ancestor par a u /\ ancestor par a v /\ forall b, ancestor par b u -> ancestor par b v -> ancestor par b a.
(* [simple_path g u v p]: p lists the vertices of a route from u to v that visits none twice *)
Definition simple_path (g : list (list Z)) (u v : Z) (p : list Z) : Prop := NoDup p /\ exists c, route (hop g) u v p c.
(* [one_each g rs]: rs holds exactly one vertex of every component *)
Definition one_each (g : list (list Z)) (rs : list Z) : Prop :=
  (forall r, In r rs -> vertex g r) /\ ForallOrdPairs (fun a b => ~ connected g a b) rs /\ forall v, vertex g v -> exists r, In r rs /\ connected g r v.
(* the least vertex of its component *)
Definition least_of (g : list (list Z)) (r : Z) : Prop := forall w, vertex g w -> connected g r w -> r <= w.
