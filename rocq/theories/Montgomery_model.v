(* Model of number/montogomery.hpp (Montgomery<Int, DInt>) and of
   number/modint_2^61m1.hpp.  Unsigned arithmetic is reduced modulo 2^width at
   every step. *)
From Verif Require Import Base.

Section Montgomery.
  Variable w : Z.        (* bits of Int: 32 (Montgomery32) or 64 (Montgomery64); DInt has 2w *)
  Definition sint (x : Z) : Z := x mod 2 ^ w.            (* conversion to Int *)
  Definition dint (x : Z) : Z := x mod 2 ^ (2 * w).      (* DInt arithmetic *)
  Record mont := mkMont { mo_N : Z; mo_N2 : Z; mo_R2 : Z; mo_RR : Z }.

  (* montogomery.hpp:85-86 *)
  Definition divR (t : Z) : Z := sint (t / 2 ^ w).
  Definition modR (t : Z) : Z := t mod 2 ^ w.
  (* montogomery.hpp:88-107; cur_bits = 2, 4, 8, ... *)
  Definition calcN2 (N : Z) : res Z :=
    let* invN := loop 10 (fun '(cur, inv) =>
      if cur <? w then Ok (inl (cur * 2, modR (dint (inv * modR (dint (2 - dint (N * inv)))))))
      else Ok (inr inv)) (2, N) in
    assert_ (modR (dint (N * invN)) =? 1) ;;;
    Ok (modR (dint (- invN))).
  (* montogomery.hpp:108-112 *)
  Definition calcR2 (N N2 : Z) : Z := divR (dint (1 + dint (N * N2))).
  (* montogomery.hpp:113-115 *)
  Definition calcRR (N : Z) : res Z := if N =? 0 then UB else Ok (sint (dint (- N) mod N)).
  (* montogomery.hpp:29-31; the assert runs after the member initialisers *)
  Definition mont_new (N : Z) : res mont :=
    let* N2 := calcN2 N in
    let R2 := calcR2 N N2 in
    let* RR := calcRR N in
    assert_ (Z.odd N) ;;;
    Ok (mkMont N N2 R2 RR).
  Variable M : mont.
  (* montogomery.hpp:38-59 *)
  Definition mont_reduce (T : Z) : Z :=
    let m := modR (dint (modR T * mo_N2 M)) in
    let t := divR (dint (T + dint (m * mo_N M))) in
    if mo_N M <=? t then sint (dint (t - mo_N M)) else sint t.
  (* montogomery.hpp:34-36 *)
  Definition mont_make (t : Z) : Z := mont_reduce (dint (t * mo_RR M)).
  (* montogomery.hpp:61-63 *)
  Definition mont_add (A B : Z) : Z := let A := sint (A + B) in if mo_N M <=? A then sint (A - mo_N M) else A.
  (* montogomery.hpp:64-66; the comparison is between unsigned values *)
  Definition mont_sub (A B : Z) : Z := let A := sint (A - B) in if A <? 0 then sint (A + mo_N M) else A.
  (* montogomery.hpp:67-69 *)
  Definition mont_mul (A B : Z) : Z := mont_reduce (dint (A * B)).
  (* montogomery.hpp:75-82; b is a long long: 64 rounds suffice for b >= 0 *)
  Definition mont_pow (A b : Z) : res Z :=
    loop 65 (fun '(P, A, b) =>
      if b =? 0 then Ok (inr P) else
      let P := if Z.odd b then mont_mul P A else P in
      Ok (inl (P, mont_mul A A, b / 2))) (mont_make 1, A, b).
End Montgomery.

(* ---- modint2p61m1: a value is its member v, a uint64_t ---- *)
(* modint_2^61m1.hpp:91 *)
Definition m61 : Z := 2 ^ 61 - 1.
(* modint_2^61m1.hpp:19-27 *)
Definition fast_mod (v : Z) : Z :=
  let u := v / 2 ^ 61 in
  let d := Z.land v (2 ^ 61 - 1) in
  let r := u64 (u + d) in
  if m61 <=? r then u64 (r - m61) else r.
(* modint_2^61m1.hpp:12-13 *)
Definition m61_of (v : Z) : Z := fast_mod v.
(* modint_2^61m1.hpp:33-37 *)
Definition m61_add (x y : Z) : Z := let v := u64 (x + y) in if m61 <=? v then u64 (v - m61) else v.
(* modint_2^61m1.hpp:38-42 *)
Definition m61_sub (x y : Z) : Z := let v := if x <? y then u64 (x + m61) else x in u64 (v - y).
(* modint_2^61m1.hpp:43-65 *)
Definition m61_mul (x y : Z) : Z :=
  let au := x / 2 ^ 31 in
  let ad := Z.land x (2 ^ 31 - 1) in
  let bu := y / 2 ^ 31 in
  let bd := Z.land y (2 ^ 31 - 1) in
  let m := u64 (u64 (au * bd) + u64 (ad * bu)) in
  let mu := m / 2 ^ 30 in
  let md := Z.land m (2 ^ 30 - 1) in
  fast_mod (u64 (u64 (u64 (u64 (u64 (au * bu) * 2) + mu) + u64 (md * 2 ^ 31)) + u64 (ad * bd))).
(* modint_2^61m1.hpp:72-80 *)
Definition m61_pow (x b : Z) : res Z :=
  assert_ (0 <=? b) ;;;
  loop 65 (fun '(r, p, b) =>
    if b =? 0 then Ok (inr r) else
    Ok (inl (if Z.odd b then m61_mul r p else r, m61_mul p p, b / 2))) (m61_of 1, x, b).
(* modint_2^61m1.hpp:81-89 *)
Definition m61_inv (x : Z) : res Z :=
  let* s := for_ 2 61 (fun _ '(r, p) => let p := m61_mul p p in Ok (m61_mul r p, p)) (x, m61_mul x x) in
  Ok (fst s).
