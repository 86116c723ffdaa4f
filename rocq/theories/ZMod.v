(* Congruences over Z. *)
From Coq Require Import Znumtheory.
From Verif Require Import Base BaseLemmas.

Lemma mod_add_l a b m : (a mod m + b) mod m = (a + b) mod m.
Proof. apply Zplus_mod_idemp_l. Qed.
Lemma mod_add_r a b m : (a + b mod m) mod m = (a + b) mod m.
Proof. apply Zplus_mod_idemp_r. Qed.
Lemma mod_mul_l a b m : (a mod m * b) mod m = (a * b) mod m.
Proof. apply Zmult_mod_idemp_l. Qed.
Lemma mod_mul_r a b m : (a * (b mod m)) mod m = (a * b) mod m.
Proof. apply Zmult_mod_idemp_r. Qed.
Lemma mod_sub_l a b m : (a mod m - b) mod m = (a - b) mod m.
Proof. apply Zminus_mod_idemp_l. Qed.
Lemma mod_sub_r a b m : (a - b mod m) mod m = (a - b) mod m.
Proof. apply Zminus_mod_idemp_r. Qed.

Lemma mod_eq_divide a b m : 0 < m -> a mod m = b mod m <-> (m | a - b).
Proof.
  intros Hm. split.
  - intros H. apply Z.mod_divide; [lia|]. rewrite Zminus_mod, H, Z.sub_diag. apply Z.mod_0_l; lia.
  - intros [k Hk]. replace a with (b + k * m) by lia. apply Z.mod_add; lia.
Qed.

Lemma mod_uniq a r m : 0 <= r < m -> (m | a - r) -> a mod m = r.
Proof.
  intros Hr H. rewrite <- (Z.mod_small r m) by lia. apply mod_eq_divide; auto; lia.
Qed.

Lemma mod_uniq' a q r m : 0 <= r < m -> a = q * m + r -> a mod m = r.
Proof. intros H1 H2. apply mod_uniq; auto. exists q. lia. Qed.

Lemma mod_pow_l a n m : 0 <= n -> 0 < m -> (a mod m) ^ n mod m = a ^ n mod m.
Proof.
  intros Hn Hm. revert n Hn. apply natlike_ind; [reflexivity|].
  intros n Hn IH. rewrite !Z.pow_succ_r by lia.
  rewrite mod_mul_l, <- mod_mul_r, IH, mod_mul_r. reflexivity.
Qed.

Lemma pow_half x n : 0 < n -> x ^ n = (if Z.odd n then x else 1) * (x * x) ^ (n / 2).
Proof.
  intros Hn. pose proof (Z.div_mod n 2 ltac:(lia)) as E. rewrite Zmod_odd in E.
  assert (0 <= n / 2) by (apply Z.div_pos; lia).
  rewrite Z.pow_mul_l, <- Z.pow_add_r by lia.
  destruct (Z.odd n).
  - replace x with (x ^ 1) at 2 by apply Z.pow_1_r.
    rewrite <- Z.pow_add_r by lia. f_equal; lia.
  - rewrite Z.mul_1_l. f_equal; lia.
Qed.

Lemma rem_mod_pos v m : 0 < m -> Z.rem v m + (if Z.rem v m <? 0 then m else 0) = v mod m.
Proof.
  intros Hm. pose proof (Z.quot_rem' v m).
  pose proof (Z.rem_bound_abs v m ltac:(lia)).
  symmetry. destruct (Z.ltb_spec (Z.rem v m) 0).
  - apply mod_uniq' with (q := v ÷ m - 1); nia.
  - apply mod_uniq' with (q := v ÷ m); nia.
Qed.

Lemma mul_bound a b A B : 0 <= a < A -> 0 <= b < B -> 0 <= a * b < A * B.
Proof. intros. split; [apply Z.mul_nonneg_nonneg; lia|]. apply Z.mul_lt_mono_nonneg; lia. Qed.
