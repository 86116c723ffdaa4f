(* Model of library/number/enumerate_quotient.hpp for a signed integer type T of 64 bits (T arithmetic checked by i64, int arithmetic by i32). *)
From Verif Require Import Base.

(* sqrtl on x86: the square root of n correctly rounded to 64 significant bits; then converted to an integer (line 17, 30).
   For 2^63 > n > 0 the argument is exact; the value is round(sqrt(n * 4^k)) / 2^k where k puts the root in [2^63, 2^64). *)
Definition sqrtl_trunc (n : Z) : Z :=
  if n =? 0 then 0 else
  let k := 63 - Z.log2 (Z.sqrt n) in
  let r := Z.sqrt (n * 4 ^ k) in
  (if r <? n * 4 ^ k - r * r then r + 1 else r) / 2 ^ k.
(* static_cast<T>(static_cast<double>(n) / l) (line 33), 1 <= l <= n < 2^53: n / l rounded to 53 significant bits, ties to even, then truncated *)
Definition round_div (a b : Z) : Z :=
  let q := a / b in let r := a mod b in
  if 2 * r <? b then q else if b <? 2 * r then q + 1 else if Z.even q then q else q + 1.
Definition double_div (n l : Z) : Z := let k := 52 - Z.log2 (n / l) in round_div (n * 2 ^ k) l / 2 ^ k.
(* lines 15-19 *)
Definition quotient_num (n : Z) : res Z :=
  let h := sqrtl_trunc n in
  let* h1 := i64 (h * (h + 1)) in let* h2 := i64 (2 * h) in
  Ok (h2 - (if n <? h1 then 1 else 0)).
(* lines 25-37; f is the callback on a state *)
Definition foreach_quotients {S} (n : Z) (f : Z -> S -> res S) (s : S) : res S :=
  assert_ (0 <=? n) ;;;
  if n =? 0 then Ok s else
  let* h := i32 (sqrtl_trunc n) in
  let* m2 := i32 (2 * h) in
  let m := m2 - (if h =? n / h then 1 else 0) in
  let* s := for_ 1 (h + 1) f s in
  if n <? 2 ^ 53 then ford_ (h - m mod 2) 0 (fun l s => f (double_div n l) s) s
  else ford_ (h - m mod 2) 0 (fun l s => f (n / l) s) s.
(* lines 43-49; it is the index of the next slot *)
Definition enumerate_quotients (n : Z) : res (list Z) :=
  let* num := quotient_num n in
  let* (q, it) := foreach_quotients n (fun v st => let '(q, it) := st in let* q := vset q it v in Ok (q, it + 1)) (vrep num 0, 0) in
  Ok q.
(* lines 57-68 *)
Definition quotient_ranges (n : Z) : res (list (Z * Z * Z)) :=
  assert_ (0 <=? n) ;;;
  let* qs := enumerate_quotients n in
  let m := zlen qs in
  for_ 0 m (fun i res =>
    let* l := (if i =? 0 then Ok 1 else let* x := vget qs (i - 1) in Ok (x + 1)) in
    let* r := vget qs i in
    let* q := vget qs (m - i - 1) in
    vset res i (l, r, q)) (vrep m (0, 0, 0)).
(* lines 76-94; tmax = numeric_limits<T>::max(); reading *max_element of an empty container is UB *)
Definition multiple_quotients_ranges (tmax : Z) (vs : list Z) : res (list (Z * Z * list Z)) :=
  match vs with
  | [] => UB
  | v0 :: _ =>
    let n := zlen vs in
    let max_val := fold_right Z.max v0 vs in
    assert_ (0 <=? fold_right Z.min v0 vs) ;;;
    loop (Z.to_nat (max_val + 1)) (fun st => let '(l, res) := st in
      if l <=? max_val then
        let* (qs, r) := for_ 0 n (fun i st => let '(qs, r) := st in
          let* v := vget vs i in
          let q := v / l in
          let* qs := vset qs i q in
          Ok (qs, Z.min r (if q =? 0 then tmax else v / q))) (vrep n 0, tmax) in
        if r <? tmax then Ok (inl (r + 1, res ++ [(l, r, qs)])) else UB
      else Ok (inr res)) (1, [])
  end.
