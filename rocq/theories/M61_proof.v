From Verif Require Import Base BaseLemmas ZMod NumTheory Lucas Montgomery_model.
From Coq Require Import Znumtheory.

Lemma land_mod v k : 0 <= k -> Z.land v (2 ^ k - 1) = v mod 2 ^ k.
Proof. intro H. rewrite <- Z.land_ones by lia. f_equal. rewrite Z.ones_equiv. lia. Qed.
Lemma u64_small x : 0 <= x < 2 ^ 64 -> u64 x = x. Proof. intro H. now apply Z.mod_small. Qed.
Lemma fast_mod_ok v : 0 <= v < 2 ^ 64 -> fast_mod v = v mod m61.
Proof.
  intro H. unfold fast_mod. cbv zeta. rewrite land_mod by lia.
  pose proof (Z.div_mod v (2 ^ 61) ltac:(lia)) as E. pose proof (Z.mod_pos_bound v (2 ^ 61) ltac:(lia)) as B.
  assert (Bu : 0 <= v / 2 ^ 61 < 8) by (split; [apply Z.div_pos; lia|apply Z.div_lt_upper_bound; lia]).
  rewrite (u64_small (v / 2 ^ 61 + v mod 2 ^ 61)) by lia. symmetry. unfold m61 in *.
  destruct (Z.leb_spec (2 ^ 61 - 1) (v / 2 ^ 61 + v mod 2 ^ 61)).
  - rewrite u64_small by lia. apply mod_uniq' with (v / 2 ^ 61 + 1); lia.
  - apply mod_uniq' with (v / 2 ^ 61); lia.
Qed.
Lemma m61_add_ok x y : 0 <= x < m61 -> 0 <= y < m61 -> m61_add x y = (x + y) mod m61.
Proof.
  unfold m61_add, m61. intros Hx Hy. rewrite u64_small by lia. cbv zeta. destruct (Z.leb_spec (2 ^ 61 - 1) (x + y)).
  - rewrite u64_small by lia. symmetry. apply mod_uniq' with 1; lia.
  - symmetry. apply Z.mod_small. lia.
Qed.
Lemma m61_sub_ok x y : 0 <= x < m61 -> 0 <= y < m61 -> m61_sub x y = (x - y) mod m61.
Proof.
  unfold m61_sub, m61. intros Hx Hy. cbv zeta. destruct (Z.ltb_spec x y).
  - rewrite (u64_small (x + _)) by lia. rewrite u64_small by lia. symmetry. apply mod_uniq' with (-1); lia.
  - rewrite u64_small by lia. symmetry. apply Z.mod_small. lia.
Qed.
Lemma m61_mul_ok x y : 0 <= x < m61 -> 0 <= y < m61 -> m61_mul x y = (x * y) mod m61.
Proof.
  intros Hx Hy. unfold m61_mul. cbv zeta. rewrite !land_mod by lia.
  pose proof (Z.div_mod x (2 ^ 31) ltac:(lia)) as Ex. pose proof (Z.mod_pos_bound x (2 ^ 31) ltac:(lia)) as Bx.
  pose proof (Z.div_mod y (2 ^ 31) ltac:(lia)) as Ey. pose proof (Z.mod_pos_bound y (2 ^ 31) ltac:(lia)) as By.
  assert (Ux : 0 <= x / 2 ^ 31 < 2 ^ 30) by (unfold m61 in *; split; [apply Z.div_pos; lia|apply Z.div_lt_upper_bound; lia]).
  assert (Uy : 0 <= y / 2 ^ 31 < 2 ^ 30) by (unfold m61 in *; split; [apply Z.div_pos; lia|apply Z.div_lt_upper_bound; lia]).
  set (au := x / 2 ^ 31) in *. set (ad := x mod 2 ^ 31) in *. set (bu := y / 2 ^ 31) in *. set (bd := y mod 2 ^ 31) in *.
  clearbody au ad bu bd.
  pose proof (mul_bound au bd _ _ Ux By) as B1. pose proof (mul_bound ad bu _ _ Bx Uy) as B2.
  pose proof (mul_bound au bu _ _ Ux Uy) as B3. pose proof (mul_bound ad bd _ _ Bx By) as B4.
  rewrite (u64_small (au * bd)) by lia. rewrite (u64_small (ad * bu)) by lia. rewrite (u64_small (au * bd + ad * bu)) by lia.
  rewrite (u64_small (au * bu)) by lia. rewrite (u64_small (ad * bd)) by lia.
  set (m := au * bd + ad * bu) in *.
  pose proof (Z.div_mod m (2 ^ 30) ltac:(lia)) as Em. pose proof (Z.mod_pos_bound m (2 ^ 30) ltac:(lia)) as Bm.
  assert (Um : 0 <= m / 2 ^ 30 < 2 ^ 32) by (split; [apply Z.div_pos; lia|apply Z.div_lt_upper_bound; lia]).
  set (mu := m / 2 ^ 30) in *. set (md := m mod 2 ^ 30) in *. clearbody mu md.
  rewrite (u64_small (md * 2 ^ 31)) by lia. rewrite (u64_small (au * bu * 2)) by lia.
  rewrite (u64_small (au * bu * 2 + mu)) by lia. rewrite (u64_small (au * bu * 2 + mu + md * 2 ^ 31)) by lia.
  rewrite u64_small by lia. rewrite fast_mod_ok by lia. apply mod_eq_divide; [unfold m61; lia|].
  exists (- (2 * (au * bu) + mu)). unfold m61.
  replace (x * y) with ((au * bu) * 2 ^ 62 + m * 2 ^ 31 + ad * bd) by (unfold m; rewrite Ex, Ey; ring).
  rewrite Em. ring.
Qed.
Lemma m61_pos : 0 < m61. Proof. reflexivity. Qed.
Lemma m61_bound x : 0 <= x mod m61 < m61. Proof. apply Z.mod_pos_bound. reflexivity. Qed.
Lemma m61_pow_ok x b : 0 <= x < m61 -> 0 <= b < 2 ^ 63 -> m61_pow x b = Ok (x ^ b mod m61).
Proof.
  intros Hx Hb. unfold m61_pow. destruct (Z.leb_spec 0 b); [|lia]. cbn [assert_ bind].
  unfold m61_of. rewrite fast_mod_ok by lia.
  match goal with |- context [loop ?fu ?bo ?st] =>
    destruct (loop_inv (fun '(r, p, k) => 0 <= r < m61 /\ 0 <= p < m61 /\ 0 <= k < 2 ^ 63 /\ (r * p ^ k) mod m61 = x ^ b mod m61)
      (fun '(P, A, k) => Z.to_nat (if k =? 0 then 0 else Z.log2 k + 1)) (fun r => r = x ^ b mod m61) bo fu st) as (r & E & ->) end.
  - split; [apply m61_bound|]. split; [lia|]. split; [lia|]. rewrite mod_mul_l. f_equal. lia.
  - cbn beta iota. destruct (Z.eqb_spec b 0); [lia|]. assert (Z.log2 b < 63) by (apply Z.log2_lt_pow2; lia). lia.
  - intros ((r & p) & k) (Br & Bp & Bk & Ek). destruct (Z.eqb_spec k 0) as [->|Hk].
    + eexists; split; [reflexivity|]. cbn beta iota. rewrite <- Ek. rewrite Z.pow_0_r, Z.mul_1_r. symmetry. now apply Z.mod_small.
    + eexists; split; [reflexivity|]. cbn beta iota. rewrite !m61_mul_ok by auto. split.
      * pose proof (Z.div_mod k 2). pose proof (Z.mod_pos_bound k 2).
        split; [destruct (Z.odd k); [apply m61_bound|auto]|]. split; [apply m61_bound|]. split; [lia|].
        rewrite <- Ek. rewrite (pow_half p k) by lia.
        rewrite <- mod_mul_r, mod_pow_l, mod_mul_r by (try apply m61_pos; lia).
        destruct (Z.odd k); [rewrite mod_mul_l|]; f_equal; ring.
      * destruct (Z.eqb_spec (k / 2) 0); [pose proof (Z.log2_nonneg k); lia|].
        assert (Z.log2 (k / 2) < Z.log2 k).
        { rewrite <- Z.div2_div. pose proof (Z.log2_shiftr k 1 ltac:(lia)). rewrite Z.div2_spec. 
          assert (0 < Z.log2 k). { apply Z.log2_pos. destruct (Z.eq_dec k 1); [subst; cbn in n; lia|lia]. } lia. }
        pose proof (Z.log2_nonneg (k / 2)). lia.
  - exact E.
Qed.
Lemma m61_pow_neg x b : b < 0 -> m61_pow x b = Abort.
Proof. intro H. unfold m61_pow. destruct (Z.leb_spec 0 b); [lia|reflexivity]. Qed.
Lemma m61_inv_val x : 0 <= x < m61 -> m61_inv x = Ok (x ^ (m61 - 2) mod m61).
Proof.
  intro Hx. unfold m61_inv. rewrite m61_mul_ok by auto.
  match goal with |- context [for_ ?lo ?hi ?bo ?st] =>
    destruct (for_inv (fun i '(r, p) => 0 <= r < m61 /\ 0 <= p < m61 /\ r = x ^ (2 ^ i - 3) mod m61 /\ p = x ^ (2 ^ (i - 1)) mod m61) lo hi bo st) as ((r & p) & E & Br & Bp & Er & Ep) end.
  - lia.
  - split; [auto|]. split; [apply m61_bound|]. split; [change (2 ^ 2 - 3) with 1; rewrite Z.pow_1_r; symmetry; now apply Z.mod_small|].
    change (2 ^ (2 - 1)) with 2. f_equal. ring.
  - intros i (r & p) Hi (Br & Bp & Er & Ep). cbv zeta. eexists; split; [reflexivity|]. cbn beta iota.
    assert (B1 : 0 <= m61_mul p p < m61) by (rewrite m61_mul_ok by auto; apply m61_bound).
    assert (Q : m61_mul p p = x ^ (2 ^ i) mod m61).
    { rewrite m61_mul_ok by auto. rewrite Ep, mod_mul_l, mod_mul_r, <- Z.pow_add_r by (apply Z.pow_nonneg; lia).
      replace (2 ^ (i - 1) + 2 ^ (i - 1)) with (2 ^ i); auto. replace i with (Z.succ (i - 1)) at 1 by lia.
      rewrite Z.pow_succ_r by lia. ring. }
    split; [rewrite m61_mul_ok by auto; apply m61_bound|]. split; auto. split.
    + rewrite (m61_mul_ok r) by auto. rewrite Q, Er, mod_mul_l, mod_mul_r.
      assert (4 <= 2 ^ i) by (change 4 with (2 ^ 2); apply Z.pow_le_mono_r; lia).
      rewrite <- Z.pow_add_r by lia. replace (i + 1) with (Z.succ i) by lia. rewrite Z.pow_succ_r by lia. f_equal. f_equal. lia.
    + rewrite Q. f_equal. f_equal. f_equal. lia.
  - rewrite E. cbn [bind fst]. rewrite Er. reflexivity.
Qed.
Lemma m61_inv_ok x : 0 < x < m61 -> exists y, m61_inv x = Ok y /\ 0 <= y < m61 /\ (x * y) mod m61 = 1.
Proof.
  intro Hx. exists (x ^ (m61 - 2) mod m61). split; [apply m61_inv_val; lia|]. split; [apply m61_bound|].
  rewrite mod_mul_r. replace (x * x ^ (m61 - 2)) with (x ^ (m61 - 1)).
  - apply fermat; [exact prime_m61|]. intro D. apply Z.divide_pos_le in D; lia.
  - rewrite <- Z.pow_succ_r by (unfold m61; lia). f_equal.
Qed.
