(* binary_search, binary_search_exponential and the integral ternary_search: library/util/search.hpp.
   Arg is a signed integer type with values in [-B, B) (B = 2^31 or 2^63); a difference or a sum
   outside is undefined behaviour.  The floating-point overloads are not modelled. *)
From Verif Require Import Base.

Section Search.
  Variable B : Z.
  Definition fit (x : Z) : res Z := if (- B <=? x) && (x <? B) then Ok x else UB.
  (* conversion to Arg *)
  Definition conv (x : Z) : Z := (x + B) mod (2 * B) - B.

  (* search.hpp:95-104 and 119-123: the loop.  Fuel: the distance shrinks *)
  Definition bs_loop (f : Z -> bool) (s : Z * Z) : res ((Z * Z) + Z) :=
    let '(l_ng, r_ok) := s in
    let* d := fit (r_ok - l_ng) in
    if 1 <? d then
      let* m := fit (l_ng + Z.shiftr d 1) in
      Ok (inl (if f m then (l_ng, m) else (m, r_ok)))
    else Ok (inr r_ok).
  Definition binary_search (f : Z -> bool) (l_ng r_ok : Z) : res Z :=
    assert_ (l_ng <=? r_ok) ;;; assert_ (negb (f l_ng)) ;;; assert_ (f r_ok) ;;;
    loop (Z.to_nat (r_ok - l_ng) + 1) (bs_loop f) (l_ng, r_ok).
  (* search.hpp:114-124; w <<= 1 past the type is undefined (the shift loses the value).
     Fuel: w doubles, so it leaves the type after log2 B steps *)
  Definition exp_loop (f : Z -> bool) (l_ng w : Z) : res (Z + Z) :=
    let* x := fit (l_ng + w) in
    if f x then Ok (inr w) else let* w := fit (2 * w) in Ok (inl w).
  Definition binary_search_exponential (f : Z -> bool) (l_ng : Z) : res Z :=
    assert_ (negb (f l_ng)) ;;;
    let* w := loop (Z.to_nat (Z.log2 B) + 2) (exp_loop f l_ng) 1 in
    let* r_ok := fit (l_ng + w) in
    loop (Z.to_nat (r_ok - l_ng) + 1) (bs_loop f) (l_ng, r_ok).

  (* search.hpp:41-55; [compare] is > for Convex and < for Concave *)
  Definition ts_loop (compare : Z -> Z -> bool) (f : Z -> Z) (s : Z * Z) : res ((Z * Z) + (Z * Z)) :=
    let '(l, r) := s in
    let* d := fit (r - l) in
    if 3 <=? d then
      let ml := l + Z.quot d 3 in let mr := r - Z.quot d 3 in
      Ok (inl (if compare (f ml) (f mr) then (ml, r) else (l, mr)))
    else Ok (inr (l, r)).
  Definition scan_loop (compare : Z -> Z -> bool) (f : Z -> Z) (r : Z) (s : Z * Z) : res ((Z * Z) + Z) :=
    let '(y, x) := s in
    if y <=? r then
      let x := if compare (f x) (f y) then y else x in
      let* y := fit (y + 1) in Ok (inl (y, x))
    else Ok (inr x).
  Definition ternary_search_key (compare : Z -> Z -> bool) (f : Z -> Z) (l r : Z) : res Z :=
    assert_ (l <=? r) ;;;
    let* (l, r) := loop (Z.to_nat (r - l) + 1) (ts_loop compare f) (l, r) in
    let* y := fit (l + 1) in
    loop (Z.to_nat (r - l) + 1) (scan_loop compare f r) (y, l).
  Definition ternary_convex := ternary_search_key Z.gtb.
  Definition ternary_concave := ternary_search_key Z.ltb.
  (* search.hpp:82-84: the result type is Arg, not the result type of f *)
  Definition ternary_value (compare : Z -> Z -> bool) (f : Z -> Z) (l r : Z) : res Z :=
    let* x := ternary_search_key compare f l r in Ok (conv (f x)).
End Search.
