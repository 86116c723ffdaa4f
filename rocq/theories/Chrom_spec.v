(* Proper colourings and covers by independent sets; a set of vertices is a bit mask. *)
From Verif Require Import Base RingSum.
(* the vertices 0 .. n-1 get colours 0 .. k-1 such that the ends of every edge differ *)
Definition colourable (n : Z) (edges : list (Z * Z)) (k : Z) : Prop :=
  exists c : Z -> Z, (forall v, 0 <= v < n -> 0 <= c v < k) /\ forall u v, In (u, v) edges -> c u <> c v.
Definition independent (edges : list (Z * Z)) (T : Z) : bool := forallb (fun e => negb (Z.testbit T (fst e) && Z.testbit T (snd e))) edges.
(* number of k-tuples of independent sets of vertices with union s *)
Fixpoint covers (n : Z) (edges : list (Z * Z)) (k : nat) (s : Z) : Z :=
  match k with
  | O => if s =? 0 then 1 else 0
  | S k => sum 0 Z.add 0 (2 ^ n) (fun T => sum 0 Z.add 0 (2 ^ n) (fun U =>
      if (Z.lor T U =? s) && independent edges T then covers n edges k U else 0))
  end.
