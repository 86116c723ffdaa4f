(* Counting bits of a predicate on 0 .. i-1. *)
From Verif Require Import Base.

Definition count_upto (f : Z -> bool) (i : Z) : Z := zlen (filter f (zrange i)).
