(* C38: Permutation and PermutationHash *)
From Verif Require Import Base BaseLemmas Perm_spec Perm_model Perm_proof Perm_proof2.
From Coq Require Import Permutation Factorial.

(* C38.  permute: b[i] = a[p[i]];  inv_permute: b[p[i]] = a[i]. *)
Theorem permutation_permute :
  forall {A} (d : A) p a, is_perm p -> zlen a = zlen p ->
  exists b, perm_permute d p a = Ok b /\ zlen b = zlen p /\ forall i, 0 <= i < zlen p -> vget b i = (let* j := vget p i in vget a j).
Proof. exact @permute_ok. Qed.
Print Assumptions permutation_permute.
Theorem permutation_inv_permute :
  forall {A} (d : A) p a, is_perm p -> zlen a = zlen p ->
  exists b, perm_inv_permute d p a = Ok b /\ zlen b = zlen p /\ forall i, 0 <= i < zlen p -> (let* j := vget p i in vget b j) = vget a i.
Proof. exact @inv_permute_ok. Qed.
Print Assumptions permutation_inv_permute.

(* C38.  p * q is a permutation with (p * q)[i] = p[q[i]], and * is associative. *)
Theorem permutation_mul :
  forall p q, is_perm p -> is_perm q -> zlen p = zlen q ->
  exists r, perm_mul p q = Ok r /\ is_perm r /\ zlen r = zlen p /\ forall i, 0 <= i < zlen p -> vget r i = (let* j := vget q i in vget p j).
Proof. exact mul_ok. Qed.
Print Assumptions permutation_mul.
Theorem permutation_mul_assoc :
  forall p q r, is_perm p -> is_perm q -> is_perm r -> zlen p = zlen q -> zlen q = zlen r ->
  (let* a := perm_mul p q in perm_mul a r) = (let* b := perm_mul q r in perm_mul p b).
Proof. exact mul_assoc. Qed.
Print Assumptions permutation_mul_assoc.

(* C38.  inv() is the two-sided inverse; Permutation(n) is the identity. *)
Theorem permutation_inv :
  forall p, is_perm p ->
  exists q, perm_inv p = Ok q /\ is_perm q /\ zlen q = zlen p /\ perm_mul p q = Ok (perm_id (zlen p)) /\ perm_mul q p = Ok (perm_id (zlen p)).
Proof. exact inv_ok. Qed.
Print Assumptions permutation_inv.
Theorem permutation_identity : forall n i, 0 <= i < n -> vget (perm_id n) i = Ok i.
Proof. exact vget_id. Qed.
Print Assumptions permutation_identity.

(* C38.  pow(k) applies p k times, for every k such that k + n - 1 is a long long. *)
Theorem permutation_pow :
  forall p k, is_perm p -> 0 <= k -> k + zlen p <= 2 ^ 63 ->
  exists r, perm_pow p k = Ok r /\ zlen r = zlen p /\ forall i, 0 <= i < zlen p -> vget r i = jump p (Z.to_nat k) i.
Proof. exact pow_ok. Qed.
Print Assumptions permutation_pow.

(* C38.  hash maps the permutations of n elements into [0, n!), unhash maps back, and both are onto. *)
Theorem permutation_hash :
  forall p, is_perm p -> exists h, perm_hash p = Ok h /\ 0 <= h < Z.of_nat (fact (length p)) /\ perm_unhash (zlen p) h = Ok p.
Proof. exact hash_ok. Qed.
Print Assumptions permutation_hash.
Theorem permutation_unhash :
  forall n h, 0 <= n -> 0 <= h < Z.of_nat (fact (Z.to_nat n)) -> exists p, perm_unhash n h = Ok p /\ zlen p = n /\ is_perm p /\ perm_hash p = Ok h.
Proof. exact unhash_ok. Qed.
Print Assumptions permutation_unhash.

Example permutation_example :
  let p := [2; 0; 1; 4; 3] in let q := [1; 4; 0; 2; 3] in
  is_perm p /\ is_perm q /\ perm_mul p q = Ok [0; 3; 2; 1; 4] /\ perm_inv p = Ok [1; 2; 0; 4; 3] /\ perm_pow p (10 ^ 18 + 1) = Ok [1; 2; 0; 4; 3] /\
  perm_permute 0 p [10; 11; 12; 13; 14] = Ok [12; 10; 11; 14; 13] /\ perm_inv_permute 0 p [10; 11; 12; 13; 14] = Ok [11; 12; 10; 14; 13] /\
  perm_hash p = Ok 92 /\ perm_unhash 5 92 = Ok p.
Proof.
  assert (C : forall p, let l := length p in forallb (fun i => if in_dec Z.eq_dec i p then true else false) (zrange (zlen p)) = true -> is_perm p).
  { intros p l H. apply Permutation_sym, NoDup_Permutation_bis; [apply NoDup_zrange| |].
    - unfold zrange. rewrite map_length, seq_length. unfold zlen. lia.
    - intros i Hi. rewrite forallb_forall in H. specialize (H i Hi). destruct (in_dec Z.eq_dec i p); auto; discriminate. }
  cbv zeta. split; [apply C; reflexivity|]. split; [apply C; reflexivity|]. vm_compute. auto 10.
Qed.
