(* Model of number/ext_gcd.hpp and number/garner.hpp.  [long long] arithmetic is
   checked: a signed result that does not fit is [UB] ([i64] of Base.v). *)
From Verif Require Import Base.

(* signed division and remainder on long long: undefined for a zero divisor and
   when the quotient does not fit *)
Definition quot64 (a b : Z) : res Z := if b =? 0 then UB else i64 (Z.quot a b).
Definition rem64 (a b : Z) : res Z := if b =? 0 then UB else let* _ := i64 (Z.quot a b) in Ok (Z.rem a b).

(* ext_gcd.hpp:11-14 *)
Definition eg_safe_mod (x m : Z) : res Z :=
  let* x := rem64 x m in if x <? 0 then i64 (x + m) else Ok x.

(* ext_gcd.hpp:17-30; state (a, b, x, y, z, w).  200 rounds suffice for 64-bit operands *)
Definition ext_gcd (a b : Z) : res (Z * Z * Z) :=
  let* s := loop 200 (fun '(a, b, x, y, z, w) =>
    if b =? 0 then Ok (inr (a, x, z)) else
    let* p := quot64 a b in
    let* q := rem64 a b in
    let* yp := i64 (y * p) in
    let* x := i64 (x - yp) in
    let* wp := i64 (w * p) in
    let* z := i64 (z - wp) in
    Ok (inl (b, q, y, x, w, z))) (a, b, 1, 0, 0, 1) in
  let '(a, x, z) := s in
  if a <? 0 then
    let* x := i64 (- x) in let* z := i64 (- z) in let* a := i64 (- a) in Ok (x, z, a)
  else Ok (x, z, a).
(* ext_gcd.hpp:33-36 *)
Definition gcd_inv (a m : Z) : res (Z * Z) :=
  let* (x, y, g) := ext_gcd a m in
  let* x := eg_safe_mod x m in Ok (x, g).
(* ext_gcd.hpp:39-43 *)
Definition inv_mod (a m : Z) : res Z :=
  let* (x, y, g) := ext_gcd a m in
  assert_ (g =? 1) ;;; eg_safe_mod x m.

(* garner.hpp:17-25 *)
Definition calc_prefix (eq : list (Z * Z)) (a : list Z) (i mod_ : Z) : res Z :=
  let* s := for_ 0 i (fun j '(r, prd) =>
    let* aj := vget a j in
    let* t := i64 (aj * prd) in
    let* r := i64 (r + t) in
    let* r := rem64 r mod_ in
    let* e := vget eq j in
    let* prd := i64 (prd * snd e) in
    let* prd := rem64 prd mod_ in
    Ok (r, prd)) (0, 1) in
  Ok (fst s).
(* garner.hpp:13-39; the result is converted from long long to int *)
Definition garner (eq : list (Z * Z)) (m : Z) : res Z :=
  let n := zlen eq in
  let* a := for_ 0 n (fun i a =>
    let* (xi, mi) := vget eq i in
    let* c := calc_prefix eq a i mi in
    let* t := i64 (xi - c) in
    let* t := rem64 t mi in
    let* a := vset a i t in
    let* a := (if t <? 0 then let* t := i64 (t + mi) in vset a i t else Ok a) in
    for_ 0 i (fun j a =>
      let* e := vget eq j in
      let* inv := inv_mod (snd e) mi in
      let* ai := vget a i in
      let* ai := i64 (ai * inv) in
      let* ai := rem64 ai mi in
      vset a i ai) a) (vrep n 0) in
  let* r := calc_prefix eq a n m in
  Ok (to_i32 r).
