(* C110: subset convolution. *)
From Verif Require Import Base Bits RingSum Transform_spec Transform_model SubConv_spec SubConv_model SubConv_proof.
From Coq Require Import Ring.
(* over any commutative ring and for vectors of length 2^k, entry s of the result is the sum of a[t] * b[u] over the disjoint t, u with union s *)
Theorem subset_convolution_correct {T} r0 r1 add mul sub opp (RT : ring_theory r0 r1 add mul sub opp (@eq T)) a b k : zlen a = 2 ^ Z.of_nat k -> zlen b = zlen a ->
  subset_convolution r0 add sub mul a b = Ok (disjoint_union_sums r0 add mul a b).
Proof. exact (subset_convolution_ok r0 r1 add mul sub opp RT a b k). Qed.
Print Assumptions subset_convolution_correct.
Example subset_convolution_example : zlen [1; 2; 3; 4; 5; 6; 7; 8] = 2 ^ Z.of_nat 3 /\
  subset_convolution 0 Z.add Z.sub Z.mul [1; 2; 3; 4; 5; 6; 7; 8] [1; -2; 3; 0; 9; 4; 2; 5] = Ok [1; 0; 6; 4; 14; 18; 51; 69].
Proof. split; reflexivity. Qed.
(* a non-empty first operand whose length is not a power of two trips an assertion; on empty operands the bit count of zero is undefined *)
Theorem subset_convolution_rejects {T} (r0 : T) add sub mul a b : (0 < zlen a -> (forall k, 0 <= k -> zlen a <> 2 ^ k) -> subset_convolution r0 add sub mul a b = Abort) /\
  subset_convolution r0 add sub mul [] b = UB.
Proof.
  split; [|reflexivity]. intros Ha Hk. unfold subset_convolution, ranked_zeta, ranked. cbv zeta. destruct (Z.eqb_spec (Z.land (- zlen a) (zlen a)) (zlen a)) as [E|]; [|reflexivity].
  exfalso. apply (Hk (ctz (zlen a)) (ctz_nonneg _)). rewrite <- lowbit_ctz by auto. unfold lowbit. now rewrite Z.land_comm.
Qed.
Print Assumptions subset_convolution_rejects.
Example subset_convolution_rejects_example : subset_convolution 0 Z.add Z.sub Z.mul [1; 2; 3] [4; 5; 6] = Abort.
Proof. reflexivity. Qed.
