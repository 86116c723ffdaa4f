(* Rectangular arrays: N rows of M entries. *)
From Verif Require Import Base.
Definition rectangular {T} (N M : Z) (A : list (list T)) : Prop := zlen A = N /\ forall row, In row A -> zlen row = M.
(* entry in row i, column j *)
Definition cell {T} (A : list (list T)) (i j : Z) : res T := let* row := vget A i in vget row j.
