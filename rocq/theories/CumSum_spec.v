(* What sums are asked for. *)
From Verif Require Import Base Seq.

Section Spec.
  Context {T : Type}.
  Variables (zero : T) (add : T -> T -> T).
  (* a_l + ... + a_{r-1} *)
  Definition range_sum (a : list T) (l r : Z) : T := fold_right add zero (slice l r a).
  (* the sum over rows u..d-1 and columns l..r-1 *)
  Definition rect_sum (a : list (list T)) (u d l r : Z) : T :=
    fold_right add zero (map (fun row => range_sum row l r) (slice u d a)).
  (* the sum of the a_i with i = k (mod step) and l <= i < r *)
  Definition step_sum (a : list T) (step k l r : Z) : T :=
    fold_right add zero (map (fun i => nth (Z.to_nat i) a zero)
      (filter (fun i => (i mod step =? k) && (l <=? i) && (i <? r)) (zrange (zlen a)))).
End Spec.
