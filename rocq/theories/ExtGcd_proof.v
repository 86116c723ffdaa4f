From Verif Require Import Base BaseLemmas ListZ ZMod ExtGcd_model.
From Coq Require Import Znumtheory.

Lemma i64_ok x : - 2 ^ 63 <= x < 2 ^ 63 -> i64 x = Ok x.
Proof. intro H. unfold i64. destruct (Z.leb_spec (- 2 ^ 63) x); destruct (Z.ltb_spec x (2 ^ 63)); cbn; auto; lia. Qed.
Lemma i64_abs x B : Z.abs x <= B -> B < 2 ^ 63 -> i64 x = Ok x.
Proof. intros H1 H2. apply i64_ok. lia. Qed.
Lemma quot_abs a b : b <> 0 -> Z.abs a = Z.abs (Z.quot a b) * Z.abs b + Z.abs (Z.rem a b) /\ Z.abs (Z.rem a b) < Z.abs b.
Proof.
  intro H. split.
  - rewrite <- Z.quot_abs, <- Z.rem_abs by auto. rewrite Z.mul_comm. apply Z.quot_rem'.
  - rewrite <- Z.rem_abs by auto. apply Z.rem_bound_pos; lia.
Qed.
Lemma quot64_ok a b : b <> 0 -> Z.abs a < 2 ^ 63 -> quot64 a b = Ok (Z.quot a b).
Proof.
  intros Hb Ha. unfold quot64. destruct (Z.eqb_spec b 0); [tauto|]. destruct (quot_abs a b Hb) as [E _].
  apply i64_abs with (Z.abs a); auto. pose proof (Z.abs_nonneg (Z.rem a b)). assert (1 <= Z.abs b) by lia.
  pose proof (Z.abs_nonneg (Z.quot a b)). clear -E H H0 H1. nia.
Qed.
Lemma rem64_ok a b : b <> 0 -> Z.abs a < 2 ^ 63 -> rem64 a b = Ok (Z.rem a b).
Proof.
  intros Hb Ha. pose proof (quot64_ok a b Hb Ha) as Q. unfold rem64, quot64 in *. destruct (Z.eqb_spec b 0); [tauto|].
  rewrite Q. reflexivity.
Qed.
Lemma rem64_mod a b : 0 < b -> 0 <= a < 2 ^ 63 -> rem64 a b = Ok (a mod b).
Proof. intros Hb Ha. rewrite rem64_ok by lia. now rewrite Z.rem_mod_nonneg by lia. Qed.

Lemma sign_cancel c x : 0 < c -> 0 <= x * c -> 0 <= x.
Proof. nia. Qed.
(* one Euclidean step on a coefficient pair (u, v) of (a, b) *)
Lemma egcd_step a b p q u v C : a = p * b + q -> b <> 0 -> Z.abs a = Z.abs p * Z.abs b + Z.abs q ->
  0 <= p * (a * b) -> 0 <= q * a ->
  Z.abs a * Z.abs v + Z.abs b * Z.abs u = C -> u * v * (a * b) <= 0 ->
  Z.abs b * Z.abs (u - v * p) + Z.abs q * Z.abs v = C /\ v * (u - v * p) * (b * q) <= 0 /\
  Z.abs (v * p) <= Z.abs (u - v * p) <= C.
Proof.
  intros E Hb Ea Sp Sq I S.
  assert (K : Z.abs (u - v * p) = Z.abs u + Z.abs (v * p)).
  { assert (u * (v * p) <= 0).
    { destruct (Z.eq_dec (a * b) 0) as [Z0|Z0].
      - assert (a = 0) by nia. subst a. assert (p = 0) by nia. subst p. lia.
      - assert (Hs : 0 <= p * (a * b)) by auto.
        destruct (Z_lt_ge_dec 0 (a * b)).
        + assert (0 <= p) by nia. assert (u * v <= 0) by nia. nia.
        + assert (p <= 0) by nia. assert (0 <= u * v) by nia. nia. }
    clear -H. destruct (Z_lt_ge_dec 0 u).
    - assert (v * p <= 0) by nia. lia.
    - destruct (Z.eq_dec u 0); [subst; lia|]. assert (0 <= v * p) by nia. lia. }
  rewrite Z.abs_mul in K. split; [|split].
  - rewrite K. rewrite <- I, Ea. ring.
  - assert (H1 : 0 <= p * (b * q)).
    { destruct (Z.eq_dec q 0); [subst; lia|]. apply (sign_cancel (a * a)).
      - assert (a <> 0) by (intro; subst a; lia). clear -H. nia.
      - replace (p * (b * q) * (a * a)) with (p * (a * b) * (q * a)) by ring. now apply Z.mul_nonneg_nonneg. }
    assert (H2 : 0 <= - (u * v * (b * q))).
    { destruct (Z.eq_dec q 0); [subst; lia|]. apply (sign_cancel (a * a)).
      - assert (a <> 0) by (intro; subst a; lia). clear -H. nia.
      - replace (- (u * v * (b * q)) * (a * a)) with (- (u * v * (a * b)) * (q * a)) by ring. apply Z.mul_nonneg_nonneg; lia. }
    replace (v * (u - v * p) * (b * q)) with (u * v * (b * q) - v * v * (p * (b * q))) by ring.
    pose proof (Z.mul_nonneg_nonneg (v * v) (p * (b * q)) (Z.square_nonneg v) H1) as H3. clear -H2 H3. lia.
  - split; [rewrite K, Z.abs_mul; clear; pose proof (Z.abs_nonneg u); lia|].
    assert (Z.abs b * Z.abs (u - v * p) <= C). { rewrite K. rewrite <- I, Ea. pose proof (Z.mul_nonneg_nonneg _ _ (Z.abs_nonneg q) (Z.abs_nonneg v)) as H3. clear -H3.
      set (A := Z.abs p) in *. set (B := Z.abs b) in *. set (X := Z.abs q) in *. set (V := Z.abs v) in *. set (U := Z.abs u) in *. clearbody A B X V U. lia. }
    assert (1 <= Z.abs b) by (clear -Hb; lia). pose proof (Z.abs_nonneg (u - v * p)). clear -H H0 H1. nia.
Qed.

Lemma quot_sign a b : b <> 0 -> 0 <= Z.quot a b * (a * b).
Proof.
  intro H. destruct (Z.eq_dec (Z.quot a b) 0) as [E|E]; [rewrite E; lia|].
  pose proof (Z.quot_rem' a b) as Q. pose proof (Z.rem_sign_mul a b H) as S. destruct (quot_abs a b H) as [A B].
  set (p := Z.quot a b) in *. set (q := Z.rem a b) in *. clearbody p q.
  assert (C : 0 <= p * b * a); [|rewrite <- Z.mul_assoc, (Z.mul_comm b) in C; exact C].
  assert (D : Z.abs q < Z.abs (p * b)). { rewrite Z.abs_mul. clear -B E. pose proof (Z.abs_nonneg b). assert (1 <= Z.abs p) by lia. nia. }
  rewrite (Z.mul_comm b p) in Q. set (r := p * b) in *. clearbody r. clear -Q D S. nia.
Qed.

Definition eg_measure (s : Z * Z * Z * Z * Z * Z) : nat :=
  let '(a, b, _, _, _, _) := s in
  if b =? 0 then O else
  Z.to_nat ((if Z.abs a <? Z.abs b then 2 else 1) + Z.log2 (Z.abs a * Z.abs b)).

Lemma eg_decrease a b x y z w x' y' z' w' : b <> 0 ->
  (eg_measure (b, Z.rem a b, x', y', z', w') < eg_measure (a, b, x, y, z, w))%nat.
Proof.
  intro Hb. unfold eg_measure. destruct (Z.eqb_spec b 0); [tauto|]. clear n.
  destruct (quot_abs a b Hb) as [E L]. set (q := Z.rem a b) in *. clearbody q.
  set (p := Z.abs (Z.quot a b)) in *. assert (Hp : 0 <= p) by apply Z.abs_nonneg. clearbody p.
  pose proof (Z.log2_nonneg (Z.abs a * Z.abs b)).
  destruct (Z.eqb_spec q 0) as [Eq|Eq].
  - destruct (Z.abs a <? Z.abs b); lia.
  - destruct (Z.ltb_spec (Z.abs b) (Z.abs q)); [lia|].
    destruct (Z.ltb_spec (Z.abs a) (Z.abs b)).
    + assert (p = 0) by nia. subst p. rewrite (Z.mul_comm (Z.abs b)). replace (Z.abs q) with (Z.abs a) by lia. lia.
    + assert (1 <= p) by nia.
      assert (2 * (Z.abs b * Z.abs q) <= Z.abs a * Z.abs b) by nia.
      assert (Hl : Z.log2 (2 * (Z.abs b * Z.abs q)) <= Z.log2 (Z.abs a * Z.abs b)) by (apply Z.log2_le_mono; lia).
      rewrite Z.log2_double in Hl by nia.
      pose proof (Z.log2_nonneg (Z.abs b * Z.abs q)). lia.
Qed.

Section EG.
  Variables (a0 b0 : Z).
  Hypothesis Ha : Z.abs a0 < 2 ^ 63.
  Hypothesis Hb : Z.abs b0 < 2 ^ 63.
  Definition eg_inv (s : Z * Z * Z * Z * Z * Z) : Prop :=
    let '(a, b, x, y, z, w) := s in
    a = a0 * x + b0 * z /\ b = a0 * y + b0 * w /\ Z.gcd a b = Z.gcd a0 b0 /\
    Z.abs a * Z.abs y + Z.abs b * Z.abs x = Z.abs b0 /\ x * y * (a * b) <= 0 /\
    Z.abs a * Z.abs w + Z.abs b * Z.abs z = Z.abs a0 /\ z * w * (a * b) <= 0 /\
    Z.abs a < 2 ^ 63 /\ Z.abs b < 2 ^ 63 /\
    Z.abs x <= Z.max 1 (Z.abs b0) /\ Z.abs y <= Z.max 1 (Z.abs b0) /\ 
    Z.abs z <= Z.max 1 (Z.abs a0) /\ Z.abs w <= Z.max 1 (Z.abs a0).
  Theorem ext_gcd_full : exists x y, ext_gcd a0 b0 = Ok (x, y, Z.gcd a0 b0) /\ a0 * x + b0 * y = Z.gcd a0 b0 /\
    Z.abs x <= Z.max 1 (Z.abs b0) /\ Z.abs y <= Z.max 1 (Z.abs a0).
  Proof.
    unfold ext_gcd.
    match goal with |- context [loop ?fu ?bo ?st] =>
      destruct (loop_inv eg_inv eg_measure (fun '(a, x, z) =>
        a = a0 * x + b0 * z /\ Z.abs a = Z.gcd a0 b0 /\ Z.abs a < 2 ^ 63 /\ Z.abs x <= Z.max 1 (Z.abs b0) /\ Z.abs z <= Z.max 1 (Z.abs a0)) bo fu st)
        as (((a & x) & z) & E & Q)
    end.
    - unfold eg_inv. repeat split; lia.
    - unfold eg_measure. destruct (Z.eqb_spec b0 0); [lia|].
      assert (Z.log2 (Z.abs a0 * Z.abs b0) <= Z.log2 (2 ^ 126)).
      { apply Z.log2_le_mono. change (2 ^ 126) with (2 ^ 63 * 2 ^ 63). apply Z.mul_le_mono_nonneg; lia. }
      rewrite Z.log2_pow2 in H by lia. destruct (Z.abs a0 <? Z.abs b0); lia.
    - intros (((((a & b) & x) & y) & z) & w) I. destruct I as (I1 & I2 & I3 & I4 & I5 & I6 & I7 & I8 & I9 & I10 & I11 & I12 & I13).
      destruct (Z.eqb_spec b 0) as [Eb|Eb].
      + eexists; split; [reflexivity|]. rewrite Eb, Z.gcd_0_r in I3. repeat split; auto.
      + rewrite quot64_ok by auto. cbn [bind]. rewrite rem64_ok by auto. cbn [bind].
        destruct (quot_abs a b Eb) as [A1 A2]. pose proof (Z.quot_rem' a b) as A3. pose proof (quot_sign a b Eb) as A4.
        pose proof (Z.rem_sign_mul a b Eb) as A5. pose proof (Z.gcd_rem a b Eb) as A6.
        pose proof (eg_decrease a b x y z w y (x - y * Z.quot a b) w (z - w * Z.quot a b) Eb) as D.
        set (p := Z.quot a b) in *. set (q := Z.rem a b) in *. clearbody p q.
        assert (A7 : a = p * b + q) by (rewrite (Z.mul_comm p b); exact A3).
        destruct (egcd_step a b p q x y (Z.abs b0) A7 Eb A1 A4 A5 I4 I5) as (J1 & J2 & J3 & J4).
        destruct (egcd_step a b p q z w (Z.abs a0) A7 Eb A1 A4 A5 I6 I7) as (K1 & K2 & K3 & K4).
        rewrite (i64_abs (y * p) (Z.abs b0) (Z.le_trans _ _ _ J3 J4) Hb). cbn [bind]. rewrite (i64_abs (x - y * p) (Z.abs b0) J4 Hb). cbn [bind].
        rewrite (i64_abs (w * p) (Z.abs a0) (Z.le_trans _ _ _ K3 K4) Ha). cbn [bind]. rewrite (i64_abs (z - w * p) (Z.abs a0) K4 Ha). cbn [bind].
        eexists; split; [reflexivity|]. split; [|exact D].
        unfold eg_inv. repeat split; auto.
        * replace q with (a - p * b) by (clear -A7; lia). rewrite I1, I2. ring.
        * rewrite Z.gcd_comm, A6, Z.gcd_comm. exact I3.
        * exact (Z.lt_trans _ _ _ A2 I9).
        * exact (Z.le_trans _ _ _ J4 (Z.le_max_r _ _)).
        * exact (Z.le_trans _ _ _ K4 (Z.le_max_r _ _)).
    - rewrite E. cbn [bind]. destruct Q as (Q1 & Q2 & Q3 & Q4 & Q5).
      destruct (Z.ltb_spec a 0).
      + rewrite (i64_abs (- x) (Z.max 1 (Z.abs b0))) by lia. cbn [bind].
        rewrite (i64_abs (- z) (Z.max 1 (Z.abs a0))) by lia. cbn [bind].
        rewrite (i64_abs (- a) (Z.abs a)) by lia. cbn [bind].
        exists (- x), (- z). replace (- a) with (Z.gcd a0 b0) by lia. repeat split; auto; try lia.
      + exists x, z. replace a with (Z.gcd a0 b0) by lia. repeat split; auto; lia.
  Qed.
End EG.

Lemma safe_mod_ok x m : 0 < m < 2 ^ 63 -> Z.abs x < 2 ^ 63 -> eg_safe_mod x m = Ok (x mod m).
Proof.
  intros Hm Hx. unfold eg_safe_mod. rewrite rem64_ok by lia. cbn [bind].
  pose proof (rem_mod_pos x m ltac:(lia)) as R. destruct (quot_abs x m ltac:(lia)) as [_ B].
  destruct (Z.ltb_spec (Z.rem x m) 0); [|f_equal; lia]. rewrite i64_ok by lia. f_equal. lia.
Qed.
Theorem gcd_inv_ok a m : Z.abs a < 2 ^ 63 -> 0 < m < 2 ^ 63 ->
  exists x, gcd_inv a m = Ok (x, Z.gcd a m) /\ 0 <= x < m /\ (a * x) mod m = Z.gcd a m mod m.
Proof.
  intros Ha Hm. unfold gcd_inv. destruct (ext_gcd_full a m) as (x & y & E & I & B1 & B2); [lia|lia|].
  rewrite E. cbn [bind]. rewrite safe_mod_ok by lia. cbn [bind]. exists (x mod m). split; auto.
  split; [apply Z.mod_pos_bound; lia|]. rewrite mod_mul_r. rewrite <- I. now rewrite (Z.mul_comm m y), Z_mod_plus_full.
Qed.
Theorem inv_mod_ok a m : Z.abs a < 2 ^ 63 -> 0 < m < 2 ^ 63 ->
  if Z.gcd a m =? 1 then exists x, inv_mod a m = Ok x /\ 0 <= x < m /\ (a * x) mod m = 1 mod m
  else inv_mod a m = Abort.
Proof.
  intros Ha Hm. unfold inv_mod. destruct (ext_gcd_full a m) as (x & y & E & I & B1 & B2); [lia|lia|].
  rewrite E. cbn [bind]. destruct (Z.eqb_spec (Z.gcd a m) 1) as [G|G]; cbn [assert_ bind].
  - rewrite safe_mod_ok by lia. exists (x mod m). split; auto.
    split; [apply Z.mod_pos_bound; lia|]. rewrite mod_mul_r. rewrite <- G, <- I. now rewrite (Z.mul_comm m y), Z_mod_plus_full.
  - reflexivity.
Qed.
