(* graph/chromatic_number.hpp.  Machine integers are unbounded here: the code needs n <= 30 for its shifts, and then every value fits. *)
From Verif Require Import Base Bits Transform_spec.
(* library/graph/chromatic_number.hpp:17-24, for k = k, ..., n - 1 *)
Fixpoint detail_loop (fuel : nat) (n m k : Z) (ind f : list Z) : res Z :=
  match fuel with
  | O => Ok n
  | S fuel =>
      let* r := for_ 0 (2 ^ n) (fun s '(f, total) =>
        let* x := vget f s in
        let* y := vget ind s in
        let* f := vset f s (x * y mod m) in
        Ok (f, total + x * y mod m)) (f, 0) in
      let '(f, total) := r in
      if negb (total mod m =? 0) then Ok k else detail_loop fuel n m (k + 1) ind f
  end.
(* library/graph/chromatic_number.hpp:11-26 *)
Definition detail (m n : Z) (ind : list Z) : res Z :=
  let* f := for_ 0 (2 ^ n) (fun s f => vset f s (if Z.odd (n - popcount s) then m - 1 else 1)) (vrep (2 ^ n) 0) in
  detail_loop (Z.to_nat (n - 1)) n m 1 ind f.
(* library/graph/chromatic_number.hpp:33-37 *)
Definition masks (n : Z) (edges : list (Z * Z)) : res (list Z) :=
  for_each edges (fun '(u, v) g =>
    let* x := vget g u in let* g := vset g u (Z.lor x (2 ^ v)) in
    let* y := vget g v in vset g v (Z.lor y (2 ^ u))) (vrep n 0).
(* library/graph/chromatic_number.hpp:39-44 *)
Definition count_independent (n : Z) (g : list Z) : res (list Z) :=
  let* ind := vset (vrep (2 ^ n) 0) 0 1 in
  for_ 1 (2 ^ n) (fun s ind =>
    let* v := ctz_ s in
    let t := Z.lxor s (2 ^ v) in
    let* gv := vget g v in
    let* a := vget ind t in
    let* b := vget ind (Z.land t (Z.lnot gv)) in
    vset ind s (a + b)) ind.
(* library/graph/chromatic_number.hpp:30-47 *)
Definition chromatic_number (n : Z) (edges : list (Z * Z)) : res Z :=
  if n =? 0 then Ok 0 else
  let* g := masks n edges in
  let* ind := count_independent n g in
  let* a := detail 998244353 n ind in
  let* b := detail 1000000007 n ind in
  Ok (Z.min a b).
