(* Subset convolution: entry s is the sum of a[t] * b[u] over the pairs of disjoint sets t, u (as bit masks) with union s. *)
From Verif Require Import Base RingSum Transform_spec.
Section Spec.
  Context {T : Type}.
  Variables (r0 : T) (add mul : T -> T -> T).
  Definition disjoint_union_sums (a b : list T) : list T :=
    tabulate (zlen a) (fun s => sum r0 add 0 (zlen a) (fun t => sum r0 add 0 (zlen b) (fun u =>
      if (Z.lor t u =? s) && (Z.land t u =? 0) then mul (at_ r0 a t) (at_ r0 b u) else r0))).
End Spec.
