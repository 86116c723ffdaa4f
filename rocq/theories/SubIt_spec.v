(* Sets of bit positions. *)
From Verif Require Import Base.

(* number of ones in the binary representation *)
Fixpoint ones (p : positive) : Z := match p with xH => 1 | xO p => ones p | xI p => 1 + ones p end.
Definition card (x : Z) : Z := match x with Zpos p => ones p | _ => 0 end.
(* every bit of t is a bit of s *)
Definition subset (t s : Z) : Prop := 0 <= t /\ Z.land t s = t.
