(* The shape of the infinite walk from a vertex of a functional graph: a tail, then a cycle. *)
From Verif Require Import Base FGraph_spec FPath_model.

Definition on_cycle (nxt : list Z) (v : Z) : Prop := exists k, (0 < k)%nat /\ follow nxt k v = Ok v.
(* [r] describes the walk from u: after head_len steps it is at loop_v, the first vertex that lies on a
   cycle, and loop_len is the length of this cycle *)
Definition describes (nxt : list Z) (u : Z) (r : ipath) : Prop :=
  head_v r = u /\ 0 <= head_len r /\ follow nxt (Z.to_nat (head_len r)) u = Ok (loop_v r) /\
  (forall j w, 0 <= j < head_len r -> follow nxt (Z.to_nat j) u = Ok w -> ~ on_cycle nxt w) /\
  0 < loop_len r /\ follow nxt (Z.to_nat (loop_len r)) (loop_v r) = Ok (loop_v r) /\
  (forall j, 0 < j < loop_len r -> follow nxt (Z.to_nat j) (loop_v r) <> Ok (loop_v r)).
