(* Specification vocabulary for the quotients floor(n / d). *)
From Verif Require Import Base.

Definition quotient_of (n q : Z) : Prop := 0 < q /\ exists x, 0 < x /\ n / x = q.
Definition ascending (l : list Z) : Prop := forall i j a b, i < j -> vget l i = Ok a -> vget l j = Ok b -> a < b.
(* the ranges are [1, r1], [r1 + 1, r2], ..., up to last; same d: d belongs with the third component *)
Fixpoint ranges_ok {Q} (same : Q -> Z -> Prop) (start last : Z) (rs : list (Z * Z * Q)) : Prop :=
  match rs with
  | [] => last = start - 1
  | (l, r, q) :: rs => l = start /\ l <= r <= last /\ (forall d, 0 < d -> (l <= d <= r <-> same q d)) /\ ranges_ok same (r + 1) last rs
  end.
