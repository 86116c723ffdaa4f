(* Model of library/number/barrett_reduction.hpp and library/number/modint.hpp
   with the machine arithmetic written out: [u32]/[u64]/[u128] are unsigned
   wrap-around, [i32]/[i64] make signed overflow undefined behaviour, C++ '/'
   and '%' on signed operands are [Z.quot]/[Z.rem]. *)
From Verif Require Import Base.

(* ---- barrett_reduction.hpp ---------------------------------------------- *)
(* barrett_reduction.hpp:30-31 *)
Record barrett := mkBarrett { b_M : Z; b_L : Z }.

(* barrett_reduction.hpp:12  [L(uint64_t(-1) / M + 1)], then [assert(M)];
   M = 0 divides by zero in the initialiser *)
Definition barrett_new (M : Z) : res barrett :=
  if M =? 0 then UB else Ok (mkBarrett M (u64 ((2 ^ 64 - 1) / M + 1))).

(* barrett_reduction.hpp:20-26.  [x - q * M] is computed in uint64_t and
   converted to int32_t; [r += M] is uint32_t arithmetic converted back. *)
Definition barrett_quorem (care_M1 : bool) (b : barrett) (x : Z) : Z * Z :=
  if care_M1 && (b_M b =? 1) then (x, 0) else
  let q := u64 (u128 (x * b_L b) / 2 ^ 64) in
  let r := to_i32 (u64 (x - u64 (q * b_M b))) in
  if r <? 0 then (u64 (q - 1), u32 (to_i32 (u32 (r + b_M b)))) else (q, u32 r).

(* barrett_reduction.hpp:16,18 *)
Definition barrett_quo (care_M1 : bool) (b : barrett) (x : Z) : Z := fst (barrett_quorem care_M1 b x).
Definition barrett_rem (care_M1 : bool) (b : barrett) (x : Z) : Z := snd (barrett_quorem care_M1 b x).

(* barrett_reduction.hpp:28 *)
Definition barrett_mul (care_M1 : bool) (b : barrett) (x y : Z) : Z :=
  barrett_rem care_M1 b (u64 (x * y)).

(* ---- modint.hpp: helpers ------------------------------------------------ *)
(* modint.hpp:12  safe_mod on long long; [INT64_MIN % -1] cannot happen as m > 0 here *)
Definition safe_mod (x m : Z) : res Z :=
  if m =? 0 then UB else
  let x := Z.rem x m in
  if x <? 0 then i64 (x + m) else Ok x.

(* modint.hpp:17-20  loop of pow_mod; n >= 0 halves each round, 64 rounds suffice *)
Fixpoint pow_mod_loop (fuel : nat) (um n r y : Z) : res Z :=
  match fuel with
  | O => OutOfFuel
  | S k =>
      if n =? 0 then Ok r else
      let r := if Z.odd n then u64 (r * y) mod um else r in
      let y := u64 (y * y) mod um in
      pow_mod_loop k um (n / 2) r y
  end.

(* modint.hpp:13-22 *)
Definition pow_mod (x n m : Z) : res Z :=
  if m =? 1 then Ok 0 else
  let um := u32 m in
  let* y := safe_mod x m in
  pow_mod_loop 64 um n 1 y.

(* modint.hpp:28  [while (d % 2 == 0) d /= 2;] *)
Fixpoint strip2 (fuel : nat) (d : Z) : res Z :=
  match fuel with
  | O => OutOfFuel
  | S k => if Z.rem d 2 =? 0 then strip2 k (Z.quot d 2) else Ok d
  end.

(* modint.hpp:32  inner loop of is_prime *)
Fixpoint mr_loop (fuel : nat) (n t y : Z) : res (Z * Z) :=
  match fuel with
  | O => OutOfFuel
  | S k =>
      if negb (t =? n - 1) && negb (y =? 1) && negb (y =? n - 1) then
        let* yy := i64 (y * y) in
        mr_loop k n (t * 2) (Z.rem yy n)
      else Ok (t, y)
  end.

(* modint.hpp:30-34  one base *)
Definition mr_base (n d a : Z) : res bool :=
  let* y := pow_mod a d n in
  let* (t, y) := mr_loop 32 n d y in
  Ok (negb (negb (y =? n - 1) && (Z.rem t 2 =? 0))).

(* modint.hpp:23-36  is_prime(int n) *)
Definition is_prime (n : Z) : res bool :=
  if n <=? 1 then Ok false else
  if (n =? 2) || (n =? 7) || (n =? 61) then Ok true else
  if Z.rem n 2 =? 0 then Ok false else
  let* d := strip2 32 (n - 1) in
  let* b1 := mr_base n d 2 in
  if negb b1 then Ok false else
  let* b2 := mr_base n d 7 in
  if negb b2 then Ok false else
  let* b3 := mr_base n d 61 in
  Ok b3.

(* modint.hpp:41-46  loop of inv_gcd *)
Fixpoint inv_gcd_loop (fuel : nat) (s t m0 m1 : Z) : res (Z * Z) :=
  match fuel with
  | O => OutOfFuel
  | S k =>
      if t =? 0 then Ok (s, m0) else
      let u := Z.quot s t in
      let* tu := i64 (t * u) in
      let* s := i64 (s - tu) in
      let* m1u := i64 (m1 * u) in
      let* m0 := i64 (m0 - m1u) in
      inv_gcd_loop k t s m1 m0
  end.

(* modint.hpp:37-49; 200 rounds suffice for 64-bit operands *)
Definition inv_gcd (a b : Z) : res (Z * Z) :=
  let* a := safe_mod a b in
  if a =? 0 then Ok (b, 0) else
  let* (s, m0) := inv_gcd_loop 200 b a 0 1 in
  if m0 <? 0 then
    let* m0 := i64 (m0 + Z.quot b s) in Ok (s, m0)
  else Ok (s, m0).

(* modint.hpp:51-55 *)
Record barrett128 := mkB128 { k_M : Z; k_dL : Z; k_uL : Z }.
Definition barrett128_new (M : Z) : res barrett128 :=
  if M =? 0 then UB else
  let L := u128 ((2 ^ 128 - 1) / M + 1) in
  Ok (mkB128 M (u64 L) (u64 (L / 2 ^ 64))).

(* modint.hpp:58-66 *)
Definition barrett128_rem (care_M1 : bool) (b : barrett128) (c : Z) : Z :=
  if care_M1 && (k_M b =? 1) then 0 else
  let cu := u128 (c * k_uL b) in
  let cd := u64 (u128 (c * k_dL b) / 2 ^ 64) in
  let r := u32 (u64 (c - u64 (u64 (cu / 2 ^ 64) * k_M b))) in
  if u64 cu >? 2 ^ 64 - 1 - cd then u32 (r - k_M b) else r.

(* modint.hpp:68 *)
Definition barrett128_mul (b : barrett128) (x y : Z) : Z :=
  barrett128_rem false b (u64 (x * y)).

(* ---- static_modint<m>: a value is its [_v], an unsigned int -------------- *)
(* modint.hpp:86-90  from a signed integer *)
Definition sm_of_signed (m v : Z) : Z :=
  let x := to_i32 (Z.rem v m) in
  let x := if x <? 0 then x + m else x in
  u32 x.
(* modint.hpp:92  from an unsigned integer *)
Definition sm_of_unsigned (m v : Z) : Z := u32 (v mod m).
(* modint.hpp:96-100 *)
Definition sm_inc (m v : Z) : Z := let v := u32 (v + 1) in if v =? m then 0 else v.
(* modint.hpp:101-105 *)
Definition sm_dec (m v : Z) : Z := let v := if v =? 0 then m else v in u32 (v - 1).
(* modint.hpp:109-113 *)
Definition sm_add (m x y : Z) : Z := let v := u32 (x + y) in if v >=? m then u32 (v - m) else v.
(* modint.hpp:114-118 *)
Definition sm_sub (m x y : Z) : Z := let v := u32 (x - y) in if v >=? m then u32 (v + m) else v.
(* modint.hpp:119-122 *)
Definition sm_mul (m x y : Z) : Z := u32 (u64 (x * y) mod m).
(* modint.hpp:126  [raw(umod() - _v)]: unsigned -> int -> unsigned *)
Definition sm_neg (m x : Z) : Z := if x =? 0 then x else u32 (to_i32 (u32 (m - x))).

(* modint.hpp:131-134 and 229-232: binary powering with multiplication [mul] *)
Fixpoint mpow_loop (fuel : nat) (mul : Z -> Z -> Z) (n x r : Z) : res Z :=
  match fuel with
  | O => OutOfFuel
  | S k =>
      if n =? 0 then Ok r else
      let r := if Z.odd n then mul r x else r in
      mpow_loop k mul (n / 2) (mul x x) r
  end.
(* modint.hpp:128-136; [assert(0 <= n)] *)
Definition sm_pow (m x n : Z) : res Z :=
  assert_ (0 <=? n) ;;;
  mpow_loop 64 (sm_mul m) n x (sm_of_signed m 1).

(* modint.hpp:138-147 *)
Definition sm_inv (m x : Z) : res Z :=
  let* pr := is_prime m in
  if pr then
    assert_ (negb (x =? 0)) ;;;
    sm_pow m x (u32 (m - 2))
  else
    let* (g, r) := inv_gcd x m in
    assert_ (g =? 1) ;;;
    Ok (sm_of_signed m r).

(* modint.hpp:137  [-n] overflows for the least long long *)
Definition sm_xpow (m x n : Z) : res Z :=
  if n <? 0 then
    let* i := sm_inv m x in
    let* n' := i64 (- n) in sm_pow m i n'
  else sm_pow m x n.

(* modint.hpp:123 *)
Definition sm_div (m x y : Z) : res Z :=
  let* i := sm_inv m y in Ok (sm_mul m x i).

(* ---- dynamic_modint: same [_v], multiplication through barrett_K128 ------ *)
(* modint.hpp:178-184 *)
Definition dm_of_signed (b : barrett128) (v : Z) : Z :=
  let m := k_M b in
  if v <? 0 then
    let x := to_i32 (Z.rem v m) in
    let x := if x <? 0 then x + m else x in u32 x
  else barrett128_rem true b v.
(* modint.hpp:186 *)
Definition dm_of_unsigned (b : barrett128) (v : Z) : Z := barrett128_rem true b v.
(* modint.hpp:197-219 are textually the same as 96-118 *)
Definition dm_inc (b : barrett128) (v : Z) : Z := sm_inc (k_M b) v.
Definition dm_dec (b : barrett128) (v : Z) : Z := sm_dec (k_M b) v.
Definition dm_add (b : barrett128) (x y : Z) : Z := sm_add (k_M b) x y.
Definition dm_sub (b : barrett128) (x y : Z) : Z := sm_sub (k_M b) x y.
(* modint.hpp:220-223 *)
Definition dm_mul (b : barrett128) (x y : Z) : Z := barrett128_mul b x y.
(* modint.hpp:226-234 *)
Definition dm_pow (b : barrett128) (x n : Z) : res Z :=
  assert_ (0 <=? n) ;;;
  mpow_loop 64 (dm_mul b) n x (dm_of_signed b 1).
(* modint.hpp:236-240 *)
Definition dm_inv (b : barrett128) (x : Z) : res Z :=
  let* (g, r) := inv_gcd x (k_M b) in
  assert_ (g =? 1) ;;;
  Ok (dm_of_signed b r).
(* modint.hpp:224 *)
Definition dm_div (b : barrett128) (x y : Z) : res Z :=
  let* i := dm_inv b y in Ok (dm_mul b x i).
