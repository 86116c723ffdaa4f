(* C21: subset, superset, Walsh-Hadamard, divisor and multiple transforms and the
   convolutions built on them, over any commutative ring.  C45: the Kronecker
   power of any matrix.  C46: the quadratic convolutions. *)
From Verif Require Import Base RingSum Transform_model Transform_spec Transform_proof Divisor_proof2 Naive_proof KronMat_proof.
From Coq Require Import Ring InitialRing.

(* subset sums and their inverse, on vectors of length 2^k *)
Theorem subset_transform {T} r0 r1 add mul sub opp (RT : ring_theory r0 r1 add mul sub opp (@eq T)) a k : zlen a = 2 ^ Z.of_nat k ->
  subset_zeta r0 add a = Ok (subset_sums r0 add a) /\
  (let* y := subset_zeta r0 add a in subset_mobius r0 sub y) = Ok a /\ (let* y := subset_mobius r0 sub a in subset_zeta r0 add y) = Ok a.
Proof. exact (fun H => conj (subset_zeta_ok r0 r1 add mul sub opp RT a k H) (subset_inverse r0 r1 add mul sub opp RT a k H)). Qed.
Print Assumptions subset_transform.
Example subset_transform_example : zlen [1; 2; 3; 4] = 2 ^ Z.of_nat 2 /\ subset_zeta 0 Z.add [1; 2; 3; 4] = Ok [1; 3; 4; 10].
Proof. split; reflexivity. Qed.

(* superset sums and their inverse *)
Theorem supset_transform {T} r0 r1 add mul sub opp (RT : ring_theory r0 r1 add mul sub opp (@eq T)) a k : zlen a = 2 ^ Z.of_nat k ->
  supset_zeta r0 add a = Ok (supset_sums r0 add a) /\
  (let* y := supset_zeta r0 add a in supset_mobius r0 sub y) = Ok a /\ (let* y := supset_mobius r0 sub a in supset_zeta r0 add y) = Ok a.
Proof. exact (fun H => conj (supset_zeta_ok r0 r1 add mul sub opp RT a k H) (supset_inverse r0 r1 add mul sub opp RT a k H)). Qed.
Print Assumptions supset_transform.
Example supset_transform_example : zlen [1; 2; 3; 4] = 2 ^ Z.of_nat 2 /\ supset_zeta 0 Z.add [1; 2; 3; 4] = Ok [10; 6; 7; 4].
Proof. split; reflexivity. Qed.

(* Walsh-Hadamard: signed sums; the inverse transform undoes it whenever dividing
   by the length undoes multiplying by it *)
Theorem walsh_hadamard_transform {T} r0 r1 add mul sub opp (RT : ring_theory r0 r1 add mul sub opp (@eq T)) a k : zlen a = 2 ^ Z.of_nat k ->
  walsh_hadamard r0 add sub a = Ok (hadamard_sums r0 add opp a) /\
  (forall scale, (forall v, scale (2 ^ Z.of_nat k) (mul (int_pow2 r1 add k) v) = Ok v) ->
    (let* y := walsh_hadamard r0 add sub a in walsh_hadamard_inv r0 add sub scale y) = Ok a).
Proof. exact (fun H => conj (walsh_hadamard_ok r0 r1 add mul sub opp RT a k H) (fun scale Hs => wh_inverse r0 r1 add mul sub opp RT scale k Hs a H)). Qed.
Print Assumptions walsh_hadamard_transform.
Example walsh_hadamard_example : zlen [1; 2; 3; 4] = 2 ^ Z.of_nat 2 /\ walsh_hadamard 0 Z.add Z.sub [1; 2; 3; 4] = Ok [10; -2; -4; 0] /\
  walsh_hadamard_inv 0 Z.add Z.sub int_div [10; -2; -4; 0] = Ok [1; 2; 3; 4].
Proof. repeat split; reflexivity. Qed.

(* or / and convolution *)
Theorem or_and_convolution_correct {T} r0 r1 add mul sub opp (RT : ring_theory r0 r1 add mul sub opp (@eq T)) a b k : zlen a = 2 ^ Z.of_nat k -> zlen b = zlen a ->
  or_convolution r0 add sub mul a b = Ok (bit_convolution r0 add mul Z.lor a b) /\
  and_convolution r0 add sub mul a b = Ok (bit_convolution r0 add mul Z.land a b).
Proof. exact (fun Ha Hb => conj (or_conv_ok r0 r1 add mul sub opp RT a b k Ha Hb) (and_conv_ok r0 r1 add mul sub opp RT a b k Ha Hb)). Qed.
Print Assumptions or_and_convolution_correct.
Example or_and_convolution_example : or_convolution 0 Z.add Z.sub Z.mul [1; 2; 3; 4] [5; 6; 7; 8] = Ok [5; 28; 43; 184] /\
  and_convolution 0 Z.add Z.sub Z.mul [1; 2; 3; 4] [5; 6; 7; 8] = Ok [103; 52; 73; 32].
Proof. split; reflexivity. Qed.

(* xor convolution: over a ring where the length can be divided by, and over the
   integers with truncated division *)
Theorem xor_convolution_correct {T} r0 r1 add mul sub opp (RT : ring_theory r0 r1 add mul sub opp (@eq T)) scale a b k : zlen a = 2 ^ Z.of_nat k -> zlen b = zlen a ->
  (forall v, scale (2 ^ Z.of_nat k) (mul (int_pow2 r1 add k) v) = Ok v) ->
  xor_convolution r0 add sub mul scale a b = Ok (bit_convolution r0 add mul Z.lxor a b).
Proof. exact (fun Ha Hb Hs => xor_conv_ok r0 r1 add mul sub opp RT scale k Hs a b Ha Hb). Qed.
Print Assumptions xor_convolution_correct.
Theorem xor_convolution_int a b k : zlen a = 2 ^ Z.of_nat k -> zlen b = zlen a ->
  xor_convolution 0 Z.add Z.sub Z.mul int_div a b = Ok (bit_convolution 0 Z.add Z.mul Z.lxor a b).
Proof. exact (xor_conv_ok 0 1 Z.add Z.mul Z.sub Z.opp Zth int_div k (int_div_ok k) a b). Qed.
Print Assumptions xor_convolution_int.
Example xor_convolution_example : xor_convolution 0 Z.add Z.sub Z.mul int_div [1; 2; 3; 4] [5; 6; 7; 8] = Ok [70; 68; 62; 60].
Proof. reflexivity. Qed.

(* divisor sums and multiple sums and their inverses, on vectors of any length *)
Theorem divisor_transform {T} r0 r1 add mul sub opp (RT : ring_theory r0 r1 add mul sub opp (@eq T)) a :
  divisor_zeta add a = Ok (divisor_sums r0 add a) /\
  (let* y := divisor_zeta add a in divisor_mobius sub y) = Ok a /\ (let* y := divisor_mobius sub a in divisor_zeta add y) = Ok a.
Proof. exact (conj (divisor_zeta_ok r0 r1 add mul sub opp RT a) (divisor_inverse r0 r1 add mul sub opp RT a)). Qed.
Print Assumptions divisor_transform.
Example divisor_transform_example : divisor_zeta Z.add [9; 1; 2; 3; 4; 5; 6] = Ok [9; 1; 3; 4; 7; 6; 12].
Proof. reflexivity. Qed.
Theorem multiple_transform {T} r0 r1 add mul sub opp (RT : ring_theory r0 r1 add mul sub opp (@eq T)) a :
  multiple_zeta add a = Ok (multiple_sums r0 add a) /\
  (let* y := multiple_zeta add a in multiple_mobius sub y) = Ok a /\ (let* y := multiple_mobius sub a in multiple_zeta add y) = Ok a.
Proof. exact (conj (multiple_zeta_ok r0 r1 add mul sub opp RT a) (multiple_inverse r0 r1 add mul sub opp RT a)). Qed.
Print Assumptions multiple_transform.
Example multiple_transform_example : multiple_zeta Z.add [9; 1; 2; 3; 4; 5; 6] = Ok [9; 21; 12; 9; 4; 5; 6].
Proof. reflexivity. Qed.

(* gcd / lcm convolution *)
Theorem gcd_lcm_convolution_correct {T} r0 r1 add mul sub opp (RT : ring_theory r0 r1 add mul sub opp (@eq T)) a b : zlen b = zlen a ->
  gcd_convolution add sub mul a b = Ok (arith_convolution r0 add mul Z.gcd a b) /\
  lcm_convolution add sub mul a b = Ok (arith_convolution r0 add mul Z.lcm a b).
Proof. exact (fun Hb => conj (gcd_conv_ok r0 r1 add mul sub opp RT a b Hb) (lcm_conv_ok r0 r1 add mul sub opp RT a b Hb)). Qed.
Print Assumptions gcd_lcm_convolution_correct.
Example gcd_lcm_convolution_example : gcd_convolution Z.add Z.sub Z.mul [0; 1; 2; 3; 4] [0; 5; 6; 7; 8] = Ok [0; 155; 52; 21; 32] /\
  lcm_convolution Z.add Z.sub Z.mul [0; 1; 2; 3; 4] [0; 5; 6; 7; 8] = Ok [0; 5; 28; 43; 100].
Proof. split; reflexivity. Qed.

(* all five reject operands of different sizes *)
Theorem transform_convolution_sizes {T} (r0 : T) add sub mul scale a b : zlen b <> zlen a ->
  or_convolution r0 add sub mul a b = Abort /\ and_convolution r0 add sub mul a b = Abort /\ xor_convolution r0 add sub mul scale a b = Abort /\
  gcd_convolution add sub mul a b = Abort /\ lcm_convolution add sub mul a b = Abort.
Proof. exact (fun H => conj (tconv_size mul _ _ a b H) (conj (tconv_size mul _ _ a b H) (conj (tconv_size mul _ _ a b H) (conj (tconv_size mul _ _ a b H) (tconv_size mul _ _ a b H))))). Qed.
Print Assumptions transform_convolution_sizes.

(* kronecker_power_transform with a matrix multiplies by its k-th Kronecker power *)
Theorem kronecker_power_correct {T} r0 r1 add mul sub opp (RT : ring_theory r0 r1 add mul sub opp (@eq T)) A x k :
  2 <= zlen A -> (forall r, In r A -> zlen r = zlen A) -> zlen x = zlen A ^ Z.of_nat k ->
  kron_mat r0 add mul x A = Ok (kron_product r0 r1 add mul (zlen A) A k x).
Proof. exact (kron_mat_ok r0 r1 add mul sub opp RT A x k). Qed.
Print Assumptions kronecker_power_correct.
Example kronecker_power_example : kron_mat 0 Z.add Z.mul [1; 2; 3; 4; 5; 6; 7; 8; 9] [[1; 2; 0]; [0; 1; 1]; [3; 0; 1]] = Ok [33; 27; 42; 37; 28; 48; 38; 32; 48].
Proof. reflexivity. Qed.

(* the quadratic convolutions *)
Theorem convolution_naive_correct {T} r0 r1 add mul sub opp (RT : ring_theory r0 r1 add mul sub opp (@eq T)) a b : 1 <= zlen a + zlen b ->
  convolution_naive r0 add mul a b = Ok (tabulate (zlen a + zlen b - 1) (conv_by r0 add mul Z.add 0 a b)).
Proof. exact (naive_ok r0 r1 add mul sub opp RT a b). Qed.
Print Assumptions convolution_naive_correct.
Example convolution_naive_example : convolution_naive 0 Z.add Z.mul [1; 2; 3] [4; 5] = Ok [4; 13; 22; 15].
Proof. reflexivity. Qed.
Theorem dirichlet_convolution_correct {T} r0 r1 add mul sub opp (RT : ring_theory r0 r1 add mul sub opp (@eq T)) a b n : 0 <= n ->
  dirichlet_convolution r0 add mul a b n = Ok (tabulate n (dirichlet r0 add mul (fun _ _ => true) a b)) /\
  dirichlet_convolution_coprime r0 add mul a b n = Ok (tabulate n (dirichlet r0 add mul (fun i j => Z.gcd i j =? 1) a b)).
Proof. exact (fun H => conj (dirichlet_ok r0 r1 add mul sub opp RT a b n H) (coprime_ok r0 r1 add mul sub opp RT a b n H)). Qed.
Print Assumptions dirichlet_convolution_correct.
Example dirichlet_convolution_example : dirichlet_convolution 0 Z.add Z.mul [0; 1; 1; 1; 1] [0; 1; 1; 1; 1] 5 = Ok [0; 1; 2; 2; 3] /\
  dirichlet_convolution_coprime 0 Z.add Z.mul [0; 1; 1; 1; 1] [0; 1; 1; 1; 1] 5 = Ok [0; 1; 2; 2; 2].
Proof. split; reflexivity. Qed.
