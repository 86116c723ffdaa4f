(* C117: clamped affine functions on 64-bit integers. *)
From Verif Require Import Base.
Definition in64 (x : Z) : Prop := - 2 ^ 63 <= x < 2 ^ 63.
(* a x + b, replaced by l when smaller than l and by r when larger than r (for l <= r) *)
Definition clamp_affine (a b l r x : Z) : Z := Z.max l (Z.min r (a * x + b)).
