(* Model of number/internal_eratosthenes.hpp, sieve_of_eratosthenes.hpp and
   sieve_of_eratosthenes_constexpr.hpp (same code).  N is the template parameter;
   unsigned int is unbounded (N below about 2^27 keeps every value small), a byte
   is a Z in [0, 256).  std::sqrt followed by truncation is Z.sqrt. *)
From Verif Require Import Base Sieve_model.

(* internal_eratosthenes.hpp:9-49 *)
Definition K : Z := 8.
Definition PROD : Z := 30.
Definition RM : list Z := [1; 7; 11; 13; 17; 19; 23; 29].
Definition DR : list Z := [6; 4; 2; 4; 2; 4; 6; 2].
Definition DF : list (list Z) := [
  [0; 0; 0; 0; 0; 0; 0; 1]; [1; 1; 1; 0; 1; 1; 1; 1];
  [2; 2; 0; 2; 0; 2; 2; 1]; [3; 1; 1; 2; 1; 1; 3; 1];
  [3; 3; 1; 2; 1; 3; 3; 1]; [4; 2; 2; 2; 2; 2; 4; 1];
  [5; 3; 1; 4; 1; 3; 5; 1]; [6; 4; 2; 4; 2; 4; 6; 1] ].
Definition DRP : list Z := [48; 32; 16; 32; 16; 32; 48; 16].
Definition DFP : list (list Z) := [
  [0; 0; 0; 0; 0; 0; 0; 8]; [8; 8; 8; 0; 8; 8; 8; 8];
  [16; 16; 0; 16; 0; 16; 16; 8]; [24; 8; 8; 16; 8; 8; 24; 8];
  [24; 24; 8; 16; 8; 24; 24; 8]; [32; 16; 16; 16; 16; 16; 32; 8];
  [40; 24; 8; 32; 8; 24; 40; 8]; [48; 32; 16; 32; 16; 32; 48; 8] ].
Definition MASK : list (list Z) := [
  [1; 2; 4; 8; 16; 32; 64; 128]; [2; 32; 16; 1; 128; 8; 4; 64];
  [4; 16; 1; 64; 2; 128; 8; 32]; [8; 1; 64; 32; 4; 2; 128; 16];
  [16; 128; 2; 4; 32; 64; 1; 8]; [32; 8; 128; 2; 64; 1; 16; 4];
  [64; 4; 8; 128; 1; 16; 32; 2]; [128; 64; 32; 16; 8; 4; 2; 1] ].
Definition OFFSET : list (list Z) := [
  [0; 1; 2; 3; 4; 5; 6; 7]; [1; 5; 4; 0; 7; 3; 2; 6];
  [2; 4; 0; 6; 1; 7; 3; 5]; [3; 0; 6; 5; 2; 1; 7; 4];
  [4; 7; 1; 2; 5; 6; 0; 3]; [5; 3; 7; 1; 6; 0; 4; 2];
  [6; 2; 3; 7; 0; 4; 5; 1]; [7; 6; 5; 4; 3; 2; 1; 0] ].
(* internal_eratosthenes.hpp:51-63 *)
Definition mask_to_index (bits : Z) : res Z :=
  if bits =? 1 then Ok 0 else if bits =? 2 then Ok 1 else if bits =? 4 then Ok 2 else if bits =? 8 then Ok 3
  else if bits =? 16 then Ok 4 else if bits =? 32 then Ok 5 else if bits =? 64 then Ok 6 else if bits =? 128 then Ok 7 else Abort.
Definition tab2 (t : list (list Z)) (i j : Z) : res Z := let* r := vget t i in vget r j.
Definition u8 (x : Z) : Z := x mod 256.

(* sieve_of_eratosthenes.hpp:15 *)
Definition ss_siz (N : Z) : Z := Z.quot N PROD + 1.
(* sieve_of_eratosthenes.hpp:25-28 *)
Definition ss_inner (siz kp mp : Z) (flag : list Z) : res (list Z) :=
  let* m := vget RM mp in
  let kr := kp * (PROD * kp + 2 * m) + Z.quot (m * m) PROD in
  loop (S (Z.to_nat (8 * siz))) (fun '(mq, kr, flag) =>
    if kr <? siz then
      let* f := vget flag kr in
      let* msk := tab2 MASK mp mq in
      let* flag := vset flag kr (u8 (Z.lor f msk)) in
      let* dr := vget DR mq in
      let* df := tab2 DF mp mq in
      Ok (inl (Z.land (mq + 1) 7, kr + (kp * dr + df), flag))
    else Ok (inr flag)) (mp, kr, flag).
(* sieve_of_eratosthenes.hpp:18-32; the static array starts zeroed *)
Definition ss_make (N : Z) : res (list Z) :=
  let siz := ss_siz N in
  let flag := vrep siz 0 in
  let* f0 := vget flag 0 in
  let* flag := vset flag 0 (Z.lor f0 1) in
  let k_max := Z.quot (Z.sqrt (N + 2)) PROD in
  for_ 0 (k_max + 1) (fun kp flag =>
    let* f := vget flag kp in
    loop 9 (fun '(bits, flag) =>
      if negb (bits =? 0) then
        let* mp := mask_to_index (u8 (Z.land bits (- bits))) in
        let* flag := ss_inner siz kp mp flag in
        Ok (inl (u8 (Z.land bits (bits - 1)), flag))
      else Ok (inr flag)) (u8 (Z.lnot f), flag)) flag.
(* the switch on p % PROD: position of the residue in RM *)
Definition rm_index (r : Z) : option Z :=
  if r =? 1 then Some 0 else if r =? 7 then Some 1 else if r =? 11 then Some 2 else if r =? 13 then Some 3
  else if r =? 17 then Some 4 else if r =? 19 then Some 5 else if r =? 23 then Some 6 else if r =? 29 then Some 7 else None.
(* sieve_of_eratosthenes.hpp:46-63 *)
Definition ss_is_prime (flag : list Z) (p : Z) : res bool :=
  if (p =? 2) || (p =? 3) || (p =? 5) then Ok true
  else match rm_index (Z.rem p PROD) with
       | Some t => let* f := vget flag (Z.quot p PROD) in Ok (Z.land (Z.shiftr f t) 1 =? 0)
       | None => Ok false
       end.
(* sieve_of_eratosthenes.hpp:33-45 *)
Definition ss_prime_list (siz : Z) (flag : list Z) (max_val : Z) : res (list Z) :=
  let* out := loop (S (Z.to_nat siz)) (fun '(i, offset, out) =>
    if (i <? siz) && (offset <? max_val) then
      let* fl := vget flag i in
      let* out := loop 9 (fun '(f, out) =>
        if negb (f =? 0) then
          let g := u8 (Z.land f (- f)) in
          let* t := mask_to_index g in
          let* r := vget RM t in
          Ok (inl (Z.lxor f g, out ++ [offset + r]))
        else Ok (inr out)) (u8 (Z.lnot fl), out) in
      Ok (inl (i + 1, offset + PROD, out))
    else Ok (inr out)) (0, 0, [2; 3; 5]) in
  loop (S (length out)) (fun out =>
    if negb (zlen out =? 0) then
      let* b := vget out (zlen out - 1) in
      if max_val <? b then Ok (inl (removelast out)) else Ok (inr out)
    else Ok (inr out)) out.

(* sieve_of_eratosthenes.hpp:71-72 *)
Definition es_base_max (N : Z) : Z := Z.quot ((N + 1) * K) PROD.
(* sieve_of_eratosthenes.hpp:83-89 *)
Definition es_inner (base_max kp mp : Z) (pf : list Z) : res (list Z) :=
  let* m := vget RM mp in
  let* x := vget pf (kp * K + mp) in
  if x =? 0 then
    let act_i := kp * PROD + m in
    let base_k := (kp * (PROD * kp + 2 * m) + Z.quot (m * m) PROD) * K in
    loop (S (Z.to_nat (base_max + 8))) (fun '(mq, base_k, pf) =>
      if base_k <=? base_max then
        let* o := tab2 OFFSET mp mq in
        let* pf := vset pf (base_k + o) act_i in
        let* dr := vget DRP mq in
        let* df := tab2 DFP mp mq in
        Ok (inl (Z.land (mq + 1) 7, base_k + (kp * dr + df), pf))
      else Ok (inr pf)) (mp, base_k, pf)
  else Ok pf.
(* sieve_of_eratosthenes.hpp:75-95 *)
Definition es_make (N : Z) : res (list Z) :=
  let base_max := es_base_max N in
  let pf := vrep (base_max + K) 0 in
  let* pf := vset pf 0 1 in
  let k_max := Z.quot (Z.sqrt (N + 1) - 1) PROD in
  for_ 0 (k_max + 1) (fun kp pf => for_ 0 K (fun mp pf => es_inner base_max kp mp pf) pf) pf.
(* sieve_of_eratosthenes.hpp:96-113 *)
Definition es_is_prime (pf : list Z) (p : Z) : res bool :=
  if (p =? 2) || (p =? 3) || (p =? 5) then Ok true
  else match rm_index (Z.rem p PROD) with
       | Some t => let* f := vget pf (Z.quot p PROD * K + t) in Ok (f =? 0)
       | None => Ok false
       end.
(* sieve_of_eratosthenes.hpp:114-133 *)
Definition es_prime_factor (pf : list Z) (p : Z) : res Z :=
  let r := Z.rem p PROD in
  if existsb (Z.eqb r) [0; 2; 4; 6; 8; 10; 12; 14; 16; 18; 20; 22; 24; 26; 28] then Ok 2
  else if existsb (Z.eqb r) [3; 9; 15; 21; 27] then Ok 3
  else if existsb (Z.eqb r) [5; 25] then Ok 5
  else match rm_index r with
       | Some t => let* f := vget pf (Z.quot p PROD * K + t) in Ok (if f =? 0 then p else f)
       | None => Abort
       end.
(* sieve_of_eratosthenes.hpp:137-146; [strip] is the do-while *)
Definition es_factorize (N : Z) (pf : list Z) (n : Z) : res (list (Z * Z)) :=
  assert_ ((0 <? n) && (n <=? N)) ;;;
  loop (S (Z.to_nat n)) (fun '(n, out) =>
    if 1 <? n then
      let* p := es_prime_factor pf n in
      let* (n, c) := strip n p in
      Ok (inl (n, out ++ [(p, c)]))
    else Ok (inr out)) (n, []).
(* sieve_of_eratosthenes.hpp:156-162: the two loops for one prime power *)
Definition extend_divisors (prime index : Z) (divs : list Z) : res (list Z) :=
  for_ 0 (zlen divs) (fun i divs =>
    let* d := vget divs i in
    let* s := for_ 0 index (fun j '(d, divs) => let d := d * prime in Ok (d, divs ++ [d])) (d, divs) in
    Ok (snd s)) divs.
(* sieve_of_eratosthenes.hpp:151-165 *)
Definition es_divisors (N : Z) (pf : list Z) (n : Z) : res (list Z) :=
  assert_ ((0 <? n) && (n <=? N)) ;;;
  let* fs := es_factorize N pf n in
  for_each fs (fun '(prime, index) divs => extend_divisors prime index divs) [1].
