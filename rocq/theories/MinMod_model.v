(* Model of library/number/min_of_mod_of_linear.hpp.  atcoder::floor_sum is modelled by its documented result, the sum itself, as a
   signed 64-bit value; int and long long arithmetic is checked. *)
From Verif Require Import Base.

Definition sum_floor (n m a b : Z) : Z := fold_right Z.add 0 (map (fun x => (a * x + b) / m) (zrange n)).
(* atcoder::floor_sum (external) *)
Definition floor_sum (n m a b : Z) : res Z := i64 (sum_floor n m a b).
(* lines 11-36 *)
Definition min_of_mod_of_linear (n m a b : Z) : res Z :=
  let* fs := floor_sum n m a b in
  let* v := i64 (fs + n) in
  let* (l, r) := loop (Z.to_nat (m + 1)) (fun st => let '(l, r) := st in
    if 1 <? r - l then
      let k := (l + r) / 2 in
      let* b' := i32 (b + (m - 1 - k)) in
      let* w := floor_sum n m a b' in
      Ok (inl (if w <? v then (l, k) else (k, r)))
    else Ok (inr (l, r))) (-1, m - 1) in
  Ok r.
