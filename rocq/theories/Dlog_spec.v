(* Specification vocabulary for discrete logarithms. *)
From Verif Require Import Base.

(* r is the least t >= 0 with x^t = y (mod m), or -1 when there is none *)
Definition least_log (m x y r : Z) : Prop :=
  (r = -1 /\ forall t, 0 <= t -> x ^ t mod m <> y) \/
  (0 <= r /\ x ^ r mod m = y /\ forall t, 0 <= t < r -> x ^ t mod m <> y).
