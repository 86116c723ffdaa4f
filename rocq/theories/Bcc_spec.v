(* Specification vocabulary for biconnected components.  A graph is a list of edges; the position of
   an edge in the list is its id (see LowLink_spec). *)
From Verif Require Import Base.
From Verif Require Export LowLink_spec.
From Coq Require Import Relations.

Definition no_loops (E : list (Z * Z)) : Prop := forall a, ~ In (a, a) E.
(* x is an endpoint of edge number id *)
Definition endpoint (E : list (Z * Z)) (id x : Z) : Prop := exists y, joins E id x y.
(* no single vertex separates edge e from edge f: whichever vertex x is removed, what is left of e stays
   connected with what is left of f.  (For edges that are not loops, and e <> f, this is the same as lying
   on a common simple cycle.) *)
Definition inseparable (E : list (Z * Z)) (e f : Z) : Prop :=
  forall x a b, endpoint E e a -> endpoint E f b -> a <> x -> b <> x -> connected (without_vertex E x) a b.
(* no edge ends at v *)
Definition isolated (n : Z) (E : list (Z * Z)) (v : Z) : Prop := 0 <= v < n /\ forall id, ~ endpoint E id v.
(* the elements of vs that do not occur before, in their order; seen: those already met *)
Fixpoint firsts (seen vs : list Z) : list Z :=
  match vs with
  | [] => []
  | v :: vs => if in_dec Z.eq_dec v seen then firsts seen vs else v :: firsts (v :: seen) vs
  end.
(* removing an edge of the relation separates its ends: the relation is a forest *)
Definition forest (adj : Z -> Z -> Prop) : Prop := forall x y, adj x y ->
  ~ clos_refl_sym_trans Z (fun a b => adj a b /\ ~ (a = x /\ b = y) /\ ~ (a = y /\ b = x)) x y.
(* the vertices of node c of the block-cut forest.  [lab e] is the component of edge e; nodes 0..k-1 are the
   components, then comes one node for every vertex in iso, then one for every vertex in arts *)
Definition member (E : list (Z * Z)) (lab : Z -> res Z) (k : Z) (iso arts : list Z) (c v : Z) : Prop :=
  (exists e, lab e = Ok c /\ endpoint E e v) \/ (exists j, vget iso j = Ok v /\ c = k + j) \/ (exists j, vget arts j = Ok v /\ c = k + zlen iso + j).
