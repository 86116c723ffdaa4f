(* Properties C14, C15 and C41. *)
From Coq Require Import Znumtheory.
From Verif Require Import Base Modint_model Modint_spec Modint_run.
From Verif Require Modint_proof Modint_proof2.

(* C14: quotient and remainder are exact for every modulus up to 2^31 and every
   64-bit x (with the default template argument care_M1 = true). *)
Theorem barrett_quorem_exact :
  forall M x, 1 <= M <= 2 ^ 31 -> 0 <= x < 2 ^ 64 ->
  exists b, barrett_new M = Ok b /\
    barrett_quorem true b x = (x / M, x mod M) /\
    barrett_quo true b x = x / M /\ barrett_rem true b x = x mod M /\
    (2 <= M -> barrett_quorem false b x = (x / M, x mod M)).
Proof. exact Modint_proof2.barrett_quorem_exact_. Qed.
Print Assumptions barrett_quorem_exact.

(* C14: a*b mod M for 32-bit a, b. *)
Theorem barrett_mul_exact :
  forall M x y, 1 <= M <= 2 ^ 31 -> 0 <= x < 2 ^ 32 -> 0 <= y < 2 ^ 32 ->
  exists b, barrett_new M = Ok b /\ barrett_mul true b x y = (x * y) mod M.
Proof. exact Modint_proof2.barrett_mul_exact_. Qed.
Print Assumptions barrett_mul_exact.

(* C14: "correctly works for all 0<=x<2^64" fails for the 32-bit modulus
   M = 2^31 + 1 (x = 2^31), which the constructor accepts. *)
Theorem barrett_large_modulus_refuted :
  exists M x b, 1 <= M < 2 ^ 32 /\ 0 <= x < 2 ^ 64 /\ barrett_new M = Ok b /\
    barrett_quorem true b x <> (x / M, x mod M).
Proof. exact Modint_proof2.barrett_large_modulus_refuted_. Qed.
Print Assumptions barrett_large_modulus_refuted.

Example barrett_example :
  (let* b := barrett_new (2 ^ 31 - 1) in Ok (barrett_quorem true b (2 ^ 64 - 1))) = Ok (8589934596, 3).
Proof. vm_compute. reflexivity. Qed.

(* C15: static_modint<m>. *)
Theorem static_modint_arithmetic :
  forall m e, 1 <= m < 2 ^ 31 -> mexpr_ok e -> sm_eval m e = Ok (ieval e mod m).
Proof. exact (fun m e H => Modint_proof.sm_eval_ok m H e). Qed.
Print Assumptions static_modint_arithmetic.

(* C15: dynamic_modint after set_mod(m). *)
Theorem dynamic_modint_arithmetic :
  forall m e, 1 <= m < 2 ^ 31 -> mexpr_ok e -> no_neg e ->
  exists b, barrett128_new m = Ok b /\ dm_eval b e = Ok (ieval e mod m).
Proof. exact Modint_proof2.dynamic_modint_arithmetic_. Qed.
Print Assumptions dynamic_modint_arithmetic.

(* C15: the 128-bit Barrett reduction is exact for all 32-bit moduli. *)
Theorem barrett128_exact :
  forall M c, 1 <= M < 2 ^ 32 -> 0 <= c < 2 ^ 64 ->
  exists b, barrett128_new M = Ok b /\ barrett128_rem true b c = c mod M.
Proof. exact Modint_proof2.barrett128_exact_. Qed.
Print Assumptions barrett128_exact.

Example modint_example :
  mexpr_ok (EPow (ESub (CSigned (-5)) (EMul (CUnsigned (2 ^ 64 - 1)) (CSigned 3))) (2 ^ 62)) /\
  sm_eval 998244353 (EPow (ESub (CSigned (-5)) (EMul (CUnsigned (2 ^ 64 - 1)) (CSigned 3))) 5) = Ok 729968176 /\
  (let* b := barrett128_new 1000000007 in dm_eval b (EDec (EInc (ESub (CSigned (-5)) (CSigned (-2 ^ 63)))))) = Ok 291171999.
Proof. split; [cbn; lia|]. split; vm_compute; reflexivity. Qed.

(* C41: inv() and division of dynamic_modint: exact when the divisor is coprime
   to the modulus, assertion failure otherwise. *)
Theorem dynamic_modint_division :
  forall m x y, 1 <= m < 2 ^ 31 -> 0 <= x < m -> 0 <= y < m ->
  exists b, barrett128_new m = Ok b /\
  (Z.gcd y m = 1 -> exists z, dm_div b x y = Ok z /\ 0 <= z < m /\ (z * y) mod m = x) /\
  (Z.gcd y m <> 1 -> dm_div b x y = Abort).
Proof. exact Modint_proof2.dynamic_modint_division_. Qed.
Print Assumptions dynamic_modint_division.

(* C41: the same for static_modint when its compile-time primality test is right
   about m.  Missing for the full claim (no hypothesis on m): that the
   Miller-Rabin test with bases 2, 7, 61 accepts no composite below 2^31. *)
Theorem static_modint_division_partial :
  forall m x y, 1 <= m < 2 ^ 31 -> 0 <= x < m -> 0 <= y < m ->
  prime m \/ is_prime m = Ok false ->
  (Z.gcd y m = 1 -> exists z, sm_div m x y = Ok z /\ 0 <= z < m /\ (z * y) mod m = x) /\
  (Z.gcd y m <> 1 -> sm_div m x y = Abort).
Proof. exact Modint_proof2.sm_div_ok. Qed.
Print Assumptions static_modint_division_partial.

(* C41: the primality test always answers and never rejects a prime. *)
Theorem is_prime_complete_partial :
  forall n, - 2 ^ 31 <= n < 2 ^ 31 -> exists v, is_prime n = Ok v /\ (prime n -> v = true).
Proof. exact Modint_proof2.is_prime_complete_. Qed.
Print Assumptions is_prime_complete_partial.

Example modint_division_example :
  sm_div 12 5 7 = Ok 11 /\ sm_div 12 5 9 = Abort /\ is_prime 12 = Ok false /\
  is_prime 998244353 = Ok true /\ sm_div 998244353 1 3 = Ok 332748118.
Proof. vm_compute. auto. Qed.

(* C41: inv_gcd(a, b) for every long long a and positive b: greatest common
   divisor and the least non-negative multiplier, without signed overflow. *)
Theorem inv_gcd_exact :
  forall a b, - 2 ^ 63 <= a < 2 ^ 63 -> 0 < b < 2 ^ 63 ->
  exists x, inv_gcd a b = Ok (Z.gcd a b, x) /\
    0 <= x < b / Z.gcd a b /\ (x * a) mod b = Z.gcd a b mod b.
Proof. exact Modint_proof2.inv_gcd_exact_. Qed.
Print Assumptions inv_gcd_exact.

Example inv_gcd_example : inv_gcd (- 2 ^ 63) (2 ^ 63 - 1) = Ok (1, 2 ^ 63 - 2).
Proof. vm_compute. reflexivity. Qed.
