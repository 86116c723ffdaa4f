(* C17: ext_gcd, gcd_inv, inv_mod.  C18: garner. *)
From Verif Require Import Base ExtGcd_model ExtGcd_spec ExtGcd_proof Garner_proof.

(* every pair of 64-bit integers except those containing the least one: no
   overflow, Bezout coefficients of the non-negative gcd, with tight bounds *)
Theorem ext_gcd_bezout a b : Z.abs a < 2 ^ 63 -> Z.abs b < 2 ^ 63 ->
  exists x y, ext_gcd a b = Ok (x, y, Z.gcd a b) /\ a * x + b * y = Z.gcd a b /\
    Z.abs x <= Z.max 1 (Z.abs b) /\ Z.abs y <= Z.max 1 (Z.abs a).
Proof. exact (ext_gcd_full a b). Qed.
Print Assumptions ext_gcd_bezout.
Example ext_gcd_example : ext_gcd (-240) 46 = Ok (9, 47, 2) /\ ext_gcd 0 (-7) = Ok (0, -1, 7) /\
  ext_gcd (2 ^ 63 - 1) (- (2 ^ 63 - 2)) = Ok (1, 1, 1).
Proof. vm_compute. auto. Qed.

Theorem gcd_inv_correct a m : Z.abs a < 2 ^ 63 -> 0 < m < 2 ^ 63 ->
  exists x, gcd_inv a m = Ok (x, Z.gcd a m) /\ 0 <= x < m /\ (a * x) mod m = Z.gcd a m mod m.
Proof. exact (gcd_inv_ok a m). Qed.
Print Assumptions gcd_inv_correct.
Example gcd_inv_example : gcd_inv (-6) 15 = Ok (2, 3).
Proof. vm_compute. reflexivity. Qed.

(* the inverse when there is one, a failed assertion otherwise *)
Theorem inv_mod_correct a m : Z.abs a < 2 ^ 63 -> 0 < m < 2 ^ 63 ->
  if Z.gcd a m =? 1 then exists x, inv_mod a m = Ok x /\ 0 <= x < m /\ (a * x) mod m = 1 mod m
  else inv_mod a m = Abort.
Proof. exact (inv_mod_ok a m). Qed.
Print Assumptions inv_mod_correct.
Example inv_mod_example : inv_mod (-3) 7 = Ok 2 /\ inv_mod 6 15 = Abort.
Proof. vm_compute. auto. Qed.

(* garner: the least non-negative solution reduced modulo [M], or a failed
   assertion when two of the moduli have a common factor *)
Theorem garner_correct eq M : int_equations eq -> 0 < M < 2 ^ 31 ->
  (pairwise_coprime eq -> exists X, garner eq M = Ok (X mod M) /\ 0 <= X < fold_right Z.mul 1 (map snd eq) /\ solves eq X /\
     forall Y, 0 <= Y -> solves eq Y -> X <= Y) /\
  (~ pairwise_coprime eq -> garner eq M = Abort).
Proof. exact (garner_list eq M). Qed.
Print Assumptions garner_correct.
Example garner_example : garner [(2, 3); (-2, 5); (2, 7)] 1000 = Ok 23 /\ garner [(2, 3); (3, 5); (2, 7)] 10 = Ok 3 /\
  garner [(1, 4); (1, 6)] 100 = Abort.
Proof. vm_compute. auto. Qed.
