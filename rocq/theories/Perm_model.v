(* Permutation, PermutationHash: library/util/permutation.hpp.  A Permutation is a vector<int>. *)
From Verif Require Import Base.

(* permutation.hpp:16-18: std::iota *)
Definition perm_id (n : Z) : list Z := zrange n.
(* permutation.hpp:23-29; d is the value-initialised T *)
Definition perm_permute {A} (d : A) (p : list Z) (a : list A) : res (list A) :=
  for_ 0 (zlen a) (fun i r => let* j := vget p i in let* x := vget a j in vset r i x) (vrep (zlen a) d).
(* permutation.hpp:31-37 *)
Definition perm_inv_permute {A} (d : A) (p : list Z) (a : list A) : res (list A) :=
  for_ 0 (zlen a) (fun i r => let* j := vget p i in let* x := vget a i in vset r j x) (vrep (zlen a) d).
(* permutation.hpp:40-42 *)
Definition perm_mul (p q : list Z) : res (list Z) := perm_permute 0 q p.
(* permutation.hpp:46-51 *)
Definition perm_inv (p : list Z) : res (list Z) :=
  for_ 0 (zlen p) (fun i r => let* j := vget p i in vset r j i) (perm_id (zlen p)).
(* permutation.hpp:52-70.  j + k is a long long: a sum above 2^63 - 1 is undefined behaviour.
   Fuel of the inner loop: a cycle has at most n vertices *)
Definition perm_cycle (p : list Z) (s : Z) : res (list Z) :=
  let* v := vget p s in
  loop (length p + 1) (fun st => let '(v, cycle) := st in
    if v =? s then Ok (inr cycle) else let* w := vget p v in Ok (inl (w, cycle ++ [v]))) (v, [s]).
Definition perm_pow (p : list Z) (k : Z) : res (list Z) :=
  assert_ (0 <=? k) ;;;
  let* (seen, r) := for_ 0 (zlen p) (fun s st => let '(seen, r) := st in
    let* b := vget seen s in
    if b : bool then Ok (seen, r)
    else
      let* cycle := perm_cycle p s in
      let l := zlen cycle in
      for_ 0 l (fun j st => let '(seen, r) := st in
        let* v := vget cycle j in
        let* seen := vset seen v true in
        (if j + k <? 2 ^ 63 then Ok tt else UB) ;;;
        let* w := vget cycle ((j + k) mod l) in
        let* r := vset r v w in
        Ok (seen, r)) (seen, r)) (vrep (zlen p) false, perm_id (zlen p)) in
  Ok r.

(* permutation.hpp:89-100.  hash_t is taken wide enough for n! *)
Definition hash_step (i : Z) (st : Z * list Z * list Z) : res (Z * list Z * list Z) :=
  let '(h, p, q) := st in
  let* pi := vget p i in
  let h := h * (i + 1) + pi in
  let* qi := vget q i in
  let* p := vset p qi pi in
  let* pi := vget p i in
  let* qi := vget q i in
  let* q := vset q pi qi in
  Ok (h, p, q).
Definition perm_hash (per : list Z) : res Z :=
  let* q := perm_inv per in
  let* (h, p, q) := ford_ (zlen per - 1) (-1) hash_step (0, per, q) in
  Ok h.
(* permutation.hpp:101-109; q[p[i]] = p[q[i]] = i assigns to p first *)
Definition unhash_step (i : Z) (st : Z * list Z * list Z) : res (Z * list Z * list Z) :=
  let '(h, p, q) := st in
  let* p := vset p i (h mod (i + 1)) in
  let* pi := vget p i in
  let* x := vget q pi in
  let* q := vset q i x in
  let* qi := vget q i in
  let* p := vset p qi i in
  let* pi := vget p i in
  let* q := vset q pi i in
  Ok (h / (i + 1), p, q).
Definition perm_unhash (n h : Z) : res (list Z) :=
  let* (h, p, q) := for_ 0 n unhash_step (h, perm_id n, perm_id n) in
  Ok p.
