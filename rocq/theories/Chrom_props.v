(* C114: chromatic numbers. *)
From Verif Require Import Base RingSum Chrom_spec Chrom_model Chrom_proof.
(* On a graph with n >= 1 vertices and no loops the answer r is between 1 and n, the graph has a proper colouring with r colours, and every smaller k that was
   passed over has a number of k-tuples of independent sets covering the vertices that both primes divide. *)
Theorem chromatic_number_sound n edges : 1 <= n -> (forall u v, In (u, v) edges -> 0 <= u < n /\ 0 <= v < n /\ u <> v) ->
  exists r, chromatic_number n edges = Ok r /\ 1 <= r <= n /\ colourable n edges r /\
    forall k, 1 <= k < r -> (998244353 | covers n edges (Z.to_nat k) (2 ^ n - 1)) /\ (1000000007 | covers n edges (Z.to_nat k) (2 ^ n - 1)).
Proof. exact (fun H He => chromatic_ok n edges (Z.le_trans 0 1 n Z.le_0_1 H) He H). Qed.
Print Assumptions chromatic_number_sound.
(* So it is the least number of colours c, unless both primes divide the (positive) number of covers by c independent sets. *)
Theorem chromatic_number_exact n edges c : 1 <= n -> (forall u v, In (u, v) edges -> 0 <= u < n /\ 0 <= v < n /\ u <> v) ->
  1 <= c -> colourable n edges c -> (forall k, 1 <= k < c -> ~ colourable n edges k) ->
  ~ ((998244353 | covers n edges (Z.to_nat c) (2 ^ n - 1)) /\ (1000000007 | covers n edges (Z.to_nat c) (2 ^ n - 1))) ->
  chromatic_number n edges = Ok c.
Proof.
  intros H He Hc Cc Least Nd. destruct (chromatic_number_sound n edges H He) as (r & E & Hr & Cr & D). rewrite E. f_equal.
  destruct (Z.lt_trichotomy r c) as [L|[Q|L]]; auto; exfalso; [apply (Least r); auto; lia|]. apply Nd. apply D. lia.
Qed.
Print Assumptions chromatic_number_exact.
(* the number of covers by k independent sets is positive exactly when k colours suffice *)
Theorem covers_positive n edges k : 1 <= n -> (forall u v, In (u, v) edges -> 0 <= u < n /\ 0 <= v < n /\ u <> v) -> 0 <= k ->
  (0 < covers n edges (Z.to_nat k) (2 ^ n - 1) <-> colourable n edges k).
Proof. exact (fun H He Hk => conj (covers_colourable n edges (Z.le_trans 0 1 n Z.le_0_1 H) He k Hk) (colourable_covers n edges (Z.le_trans 0 1 n Z.le_0_1 H) He k Hk)). Qed.
Print Assumptions covers_positive.
Theorem chromatic_number_empty edges : chromatic_number 0 edges = Ok 0.
Proof. reflexivity. Qed.
Print Assumptions chromatic_number_empty.
(* the cycle of length 5 needs three colours *)
Example chromatic_number_example : let e := [(0, 1); (1, 2); (2, 3); (3, 4); (4, 0)] in
  (forall u v, In (u, v) e -> 0 <= u < 5 /\ 0 <= v < 5 /\ u <> v) /\ chromatic_number 5 e = Ok 3 /\ covers 3 [(0, 1); (1, 2)] 2 7 = 2.
Proof. cbv zeta. split; [|split; vm_compute; reflexivity]. intros u v H. cbn in H. repeat (destruct H as [[= <- <-]|H]; [lia|]). destruct H. Qed.
