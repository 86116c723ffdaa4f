(* sequence/powers.hpp with mint = residues modulo m (mint(x) is x mod m, pow is the power of the residue); n is small enough for the sieve's int. *)
From Verif Require Import Base Sieve_model.
(* library/sequence/powers.hpp:9-16 *)
Definition powers (m n k : Z) : res (list Z) :=
  let* s := sieve_make n in
  let mpf := get_min_prime_factor s in
  let* r := vset (vrep (n + 1) 0) 0 ((if k =? 0 then 1 else 0) mod m) in
  for_ 1 (n + 1) (fun i r =>
    if i =? 1 then vset r i (1 mod m) else
    let* p := vget mpf i in
    if p =? i then vset r i ((i mod m) ^ k mod m) else
    let* x := vget r p in
    let* y := vget r (Z.quot i p) in
    vset r i (x * y mod m)) r.
