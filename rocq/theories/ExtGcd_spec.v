(* Simultaneous congruences. *)
From Verif Require Import Base.
Definition solves (eq : list (Z * Z)) (X : Z) : Prop := forall x m, In (x, m) eq -> (m | X - x).
Definition pairwise_coprime (eq : list (Z * Z)) : Prop :=
  forall i j p q, i <> j -> vget eq i = Ok p -> vget eq j = Ok q -> Z.gcd (snd p) (snd q) = 1.
Definition int_equations (eq : list (Z * Z)) : Prop :=
  forall x m, In (x, m) eq -> - 2 ^ 31 <= x < 2 ^ 31 /\ 0 < m < 2 ^ 31.
