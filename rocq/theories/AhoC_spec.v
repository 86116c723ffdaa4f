(* Specification vocabulary for tries and the Aho-Corasick automaton: strings are lists of integers. *)
From Verif Require Import Base.
From Verif Require Export UnionFind_spec.

(* p is a suffix of t *)
Definition suffix (p t : list Z) : Prop := exists q, t = q ++ p.
(* q is the number of the patterns (counted with repetition) that are suffixes of t *)
Definition matches (ps : list (list Z)) (t : list Z) (q : Z) : Prop :=
  counts (zlen ps) (fun i => exists p, vget ps i = Ok p /\ suffix p t) q.
