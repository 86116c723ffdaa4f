From Coq Require Import Znumtheory.
From Verif Require Import Base BaseLemmas Dlog_spec Dlog_model Dlog_proof.
Import ListNotations.
Open Scope Z_scope.

(* C92: the least discrete logarithm, or -1; the modulus is set back.  inv is the modint's inverse. *)
Theorem dlog_least : forall inv,
  (forall m a, 1 <= m -> 0 <= a < m -> Z.gcd a m = 1 -> exists b, inv m a = Ok b /\ 0 <= b < m /\ (a * b) mod m = 1 mod m) ->
  forall m x y, 1 <= m < 2 ^ 30 -> 0 <= x < m -> 0 <= y < m ->
  exists r, dlog inv m x y = Ok (r, m) /\ least_log m x y r.
Proof. intros inv IO m x y. apply dlog_is. exact IO. Qed.
Print Assumptions dlog_least.

Theorem dlog_coprime_least : forall inv,
  (forall m a, 1 <= m -> 0 <= a < m -> Z.gcd a m = 1 -> exists b, inv m a = Ok b /\ 0 <= b < m /\ (a * b) mod m = 1 mod m) ->
  forall m x y, 1 <= m < 2 ^ 30 -> 0 <= x < m -> 0 <= y < m -> Z.gcd x m = 1 ->
  exists r, dlog_coprime inv m x y = Ok r /\ least_log m x y r.
Proof.
  intros inv IO m x y A B C D. destruct (coprime_is inv m x y IO A B C D) as (r & E & L & _). exists r. auto.
Qed.
Print Assumptions dlog_coprime_least.

(* the hypothesis on inv is met by a search *)
Theorem inv_search_ok : forall m a, 1 <= m -> 0 <= a < m -> Z.gcd a m = 1 -> exists b, inv_search m a = Ok b /\ 0 <= b < m /\ (a * b) mod m = 1 mod m.
Proof.
  intros m a Hm Ha G. unfold inv_search. destruct (find _ (zrange m)) as [b|] eqn:F.
  - apply find_some in F. destruct F as [Ib Eb]. apply In_zrange in Ib. apply Z.eqb_eq in Eb. exists b. auto.
  - exfalso. apply Zgcd_1_rel_prime in G. apply rel_prime_bezout in G. destruct G as [u v E].
    pose proof (find_none _ _ F (u mod m)) as N. cbv beta in N. rewrite Z.mul_mod_idemp_r in N by lia.
    assert (K : (a * u) mod m = 1 mod m). { replace (a * u) with (1 + (- v) * m) by lia. apply Z.mod_add. lia. }
    rewrite K, Z.eqb_refl in N. discriminate N. apply In_zrange. apply Z.mod_pos_bound. lia.
Qed.
Print Assumptions inv_search_ok.
Example dlog_ex : dlog inv_search 12 2 8 = Ok (3, 12) /\ dlog inv_search 12 2 6 = Ok (-1, 12) /\ dlog inv_search 101 2 77 = Ok (22, 101) /\ dlog inv_search 90 6 36 = Ok (2, 90).
Proof. repeat split; vm_compute; reflexivity. Qed.

(* for m >= 2^30 the shift 1 << 31 in floor_log2 leaves the int range *)
Theorem dlog_large_refuted : forall inv m x y, 2 ^ 30 <= m -> dlog inv m x y = UB.
Proof.
  intros inv m x y H. unfold dlog. destruct (Z.eqb_spec m 1); [lia|].
  assert (E : floor_log2 m = UB); [|rewrite E; reflexivity]. unfold floor_log2.
  assert (S : forall k r, 0 <= r <= 30 -> (Z.to_nat (30 - r) < k)%nat ->
    loop k (fun r => let* s := i32 (2 ^ (r + 1)) in if s <=? m then Ok (inl (r + 1)) else Ok (inr r)) r = @UB Z).
  { induction k as [|k IH]; intros r Hr Hk; [lia|]. cbn [loop]. destruct (Z.eq_dec r 30) as [->|N].
    - reflexivity.
    - assert (B : 2 ^ (r + 1) <= 2 ^ 30) by (apply Z.pow_le_mono_r; lia). assert (B0 : 0 < 2 ^ (r + 1)) by (apply Z.pow_pos_nonneg; lia).
      rewrite i32_id by lia. cbn [bind]. destruct (Z.leb_spec (2 ^ (r + 1)) m); [|lia]. cbn [bind]. apply IH; lia. }
  apply S; lia.
Qed.
Print Assumptions dlog_large_refuted.
