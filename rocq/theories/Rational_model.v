(* Model of number/rational.hpp (Rational<T>).  Simplification: T is taken
   unbounded (overflow of T is outside the contract of the class). *)
From Verif Require Import Base.

(* rational.hpp:14 *)
Record rat := mkRat { rnum : Z; rden : Z }.

(* C++ division: undefined for a zero divisor, truncated *)
Definition tquot (a b : Z) : res Z := if b =? 0 then UB else Ok (Z.quot a b).
Definition trem (a b : Z) : res Z := if b =? 0 then UB else Ok (Z.rem a b).

(* rational.hpp:17 *)
Definition rat_int (n : Z) : rat := mkRat n 1.
(* rational.hpp:18-28; std::gcd is the non-negative gcd *)
Definition rat_make (n d : Z) : res rat :=
  if n =? 0 then assert_ (negb (d =? 0)) ;;; Ok (mkRat 0 1) else
  let g := Z.gcd n d in
  let* n := tquot n g in
  let* d := tquot d g in
  if d <? 0 then Ok (mkRat (- n) (- d)) else Ok (mkRat n d).

(* rational.hpp:31-33 *)
Definition b2z (b : bool) : Z := if b then 1 else 0.
Definition signum (r : rat) : Z := -1 + b2z (0 <=? rnum r) + b2z (0 <? rnum r).

(* rational.hpp:37: -int(x) | 1 *)
Definition pow_m1 (x : bool) : Z := if x then -1 else 1.
(* rational.hpp:36-54.  [rev = -rev] on a bool: true -> -1 -> true, false -> 0 -> false *)
Definition neg_bool (rev : bool) : bool := if rev then true else false.
Definition compare (l r : rat) : res Z :=
  let sgn_l := signum l in let sgn_r := signum r in
  if rnum l =? 0 then Ok (- sgn_r) else
  if rnum r =? 0 then Ok sgn_l else
  if Z.lxor sgn_l sgn_r <? 0 then Ok sgn_l else
  loop (S (Z.to_nat (rden l))) (fun '(nl, dl, nr, dr, rev) =>
    if negb (dl =? 0) && negb (dr =? 0) then
      let* ql := tquot nl dl in let* qr := tquot nr dr in
      if negb (ql =? qr) then Ok (inr (pow_m1 (xorb (ql <? qr) rev))) else
      let* rl := trem nl dl in let* rr := trem nr dr in
      Ok (inl (dl, rl, dr, rr, neg_bool rev))
    else Ok (inr (if negb (dl =? 0) || negb (dr =? 0) then pow_m1 (xorb (0 <? dr) rev) else 0)))
    (Z.abs (rnum l), rden l, Z.abs (rnum r), rden r, sgn_l <? 0).
(* rational.hpp:56-73 *)
Definition rat_lt (l r : rat) : res bool := let* c := compare l r in Ok (c <? 0).
Definition rat_gt (l r : rat) : res bool := let* c := compare l r in Ok (0 <? c).
Definition rat_le (l r : rat) : res bool := let* c := compare l r in Ok (c <=? 0).
Definition rat_ge (l r : rat) : res bool := let* c := compare l r in Ok (0 <=? c).
Definition rat_eq (l r : rat) : res bool := let* c := compare l r in Ok (c =? 0).
Definition rat_ne (l r : rat) : res bool := let* c := compare l r in Ok (negb (c =? 0)).

(* rational.hpp:78-80 *)
Definition rat_neg (r : rat) : res rat := rat_make (- rnum r) (rden r).
(* rational.hpp:81-84 *)
Definition rat_add (l r : rat) : res rat :=
  let* q := tquot (rden l) (Z.gcd (rden l) (rden r)) in
  let lcm := q * rden r in
  let* x := tquot lcm (rden l) in
  let* y := tquot lcm (rden r) in
  rat_make (rnum l * x + rnum r * y) lcm.
(* rational.hpp:85-88 *)
Definition rat_sub (l r : rat) : res rat :=
  let* q := tquot (rden l) (Z.gcd (rden l) (rden r)) in
  let lcm := q * rden r in
  let* x := tquot lcm (rden l) in
  let* y := tquot lcm (rden r) in
  rat_make (rnum l * x - rnum r * y) lcm.
(* rational.hpp:89-93 *)
Definition rat_mul (l r : rat) : res rat :=
  let g1 := Z.gcd (rnum l) (rden r) in
  let g2 := Z.gcd (rden l) (rnum r) in
  let* a := tquot (rnum l) g1 in let* b := tquot (rnum r) g2 in
  let* c := tquot (rden l) g2 in let* d := tquot (rden r) g1 in
  rat_make (a * b) (c * d).
(* rational.hpp:113-115 *)
Definition rat_inv (r : rat) : res rat := rat_make (rden r) (rnum r).
(* rational.hpp:94-96 *)
Definition rat_div (l r : rat) : res rat := let* i := rat_inv r in rat_mul l i.
(* rational.hpp:116-118 *)
Definition rat_abs (r : rat) : res rat := rat_make (Z.abs (rnum r)) (rden r).
(* rational.hpp:120-125 without the final conversion to int/long long *)
Definition rat_trunc (r : rat) : res Z := tquot (rnum r) (rden r).
(* rational.hpp:133-135 *)
Definition rat_floor (r : rat) : res Z :=
  if 0 <=? rnum r then tquot (rnum r) (rden r) else let* q := tquot (- rnum r) (rden r) in Ok (- q).
(* rational.hpp:136-138 *)
Definition rat_ceil (r : rat) : res Z :=
  if 0 <=? rnum r then let* q := tquot (- rnum r) (rden r) in Ok (- q) else tquot (rnum r) (rden r).
(* rational.hpp:221-228 *)
Definition rat_max (l r : rat) : res rat := let* b := rat_gt l r in Ok (if b then l else r).
Definition rat_min (l r : rat) : res rat := let* b := rat_lt l r in Ok (if b then l else r).
