(* Property C73. *)
From Verif Require Import Base BaseLemmas MonoMin_model MonoMin_spec.
From Verif Require MonoMin_proof.

(* For every matrix whose leftmost row minima move to the right, monotone_minima returns the
   leftmost minimum of every row. *)
Theorem monotone_minima_correct :
  forall n m A, 0 <= n -> (0 < m \/ n = 0) -> monotone A n m ->
  exists rs, monotone_minima_matrix n m A = Ok rs /\ zlen rs = n /\
    forall i, 0 <= i < n -> exists j, vget rs i = Ok j /\ leftmost_min A m i j.
Proof. exact MonoMin_proof.matrix_. Qed.
Print Assumptions monotone_minima_correct.

Theorem min_plus_convex_convex_correct :
  forall a b, a <> [] -> b <> [] -> convex a -> convex b ->
  exists c, min_plus_convex_convex a b = Ok c /\ min_plus a b c.
Proof. intros a b Ha Hb Ca Cb. apply MonoMin_proof.cc_ok; auto; [destruct a|destruct b]; try congruence; rewrite zlen_cons; apply Z.lt_succ_r, zlen_nonneg. Qed.
Print Assumptions min_plus_convex_convex_correct.
Theorem min_plus_convex_arbitrary_correct :
  forall a b, a <> [] -> b <> [] -> convex a ->
  exists c, min_plus_convex_arbitrary a b = Ok c /\ min_plus a b c.
Proof. intros a b Ha Hb Ca. apply MonoMin_proof.ca_ok; auto; [destruct a|destruct b]; try congruence; rewrite zlen_cons; apply Z.lt_succ_r, zlen_nonneg. Qed.
Print Assumptions min_plus_convex_arbitrary_correct.
(* every other input fails an assertion *)
Theorem min_plus_asserts :
  forall a b,
  ((a = [] \/ b = [] \/ ~ (convex a /\ convex b)) -> min_plus_convex_convex a b = Abort) /\
  ((a = [] \/ b = [] \/ ~ convex a) -> min_plus_convex_arbitrary a b = Abort).
Proof.
  intros a b. destruct a as [|x a]; [split; intros _; apply MonoMin_proof.empty_abort; auto|]. destruct b as [|y b]; [split; intros _; apply MonoMin_proof.empty_abort; auto|].
  pose proof (zlen_nonneg a). pose proof (zlen_nonneg b).
  split; intros [H1|[H1|H1]]; try discriminate; [apply MonoMin_proof.cc_abort|apply MonoMin_proof.ca_abort]; rewrite ?zlen_cons; auto; lia.
Qed.
Print Assumptions min_plus_asserts.

Example monotone_minima_example :
  let A := fun i j => (j - 2 * i) * (j - 2 * i) in
  monotone A 3 4 /\ monotone_minima_matrix 3 4 A = Ok [0; 2; 3].
Proof.
  split; [|reflexivity]. intros i i' j j' Hi Hi' (B1 & B2 & B3) (C1 & C2 & C3).
  destruct (Z.le_gt_cases j j'); auto. exfalso. specialize (B2 j' ltac:(lia)). specialize (C3). specialize (C2 j ltac:(lia)). cbv beta in *.
  destruct (Z.eq_dec i i') as [->|]; [specialize (B3 j' ltac:(lia)); lia|nia].
Qed.
Example convex_example :
  convex [5; 1; 0; 4] /\ convex [2; 2; 3] /\
  min_plus_convex_convex [5; 1; 0; 4] [2; 2; 3] = Ok [7; 3; 2; 2; 3; 7] /\
  min_plus_convex_arbitrary [5; 1; 0; 4] [9; 0; 7] = Ok [14; 5; 1; 0; 4; 11] /\
  min_plus_convex_convex [5; 1; 0; 4] [9; 0; 7; 1] = Abort.
Proof.
  split; [|split; [|repeat split]]; intros i Hi; change (zlen _) with 4 in Hi || change (zlen _) with 3 in Hi;
    assert (i = 2 \/ i = 3) as [->| ->] by lia; try lia; vm_compute; congruence.
Qed.
