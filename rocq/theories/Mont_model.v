(* sequence/montmort_number.hpp with mint = residues modulo m. *)
From Verif Require Import Base.
(* library/sequence/montmort_number.hpp:8-13; resize with a negative size throws length_error *)
Definition montmort_number (m n : Z) : res (list Z) :=
  let* r := for_ 2 (n + 1) (fun i r =>
    let* x := vget r (i - 1) in
    let* y := vget r (i - 2) in
    Ok (r ++ [(i - 1) * (x + y) mod m])) [1 mod m; 0] in
  if n + 1 <? 0 then Abort else
  Ok (firstn (Z.to_nat (n + 1)) r ++ vrep (n + 1 - zlen r) 0).
