From Coq Require Import Znumtheory.
From Verif Require Import Base BaseLemmas ZMod NumTheory Modint_model Modint_spec Modint_run Modint_proof.

Lemma safe_mod_ok x m : 0 < m < 2 ^ 63 -> safe_mod x m = Ok (x mod m).
Proof.
  intros Hm. unfold safe_mod. destruct (Z.eqb_spec m 0); [lia|].
  pose proof (rem_mod_pos x m ltac:(lia)). pose proof (Z.mod_pos_bound x m ltac:(lia)).
  destruct (Z.ltb_spec (Z.rem x m) 0).
  - rewrite i64_ok by lia. f_equal; lia.
  - f_equal; lia.
Qed.

Lemma pow_mod_loop_ok m : 1 <= m < 2 ^ 32 -> forall fuel n r y,
  0 <= n < 2 ^ (Z.of_nat fuel - 1) -> (0 < fuel)%nat -> 0 <= r < m -> 0 <= y < m ->
  pow_mod_loop fuel m n r y = Ok ((r * y ^ n) mod m).
Proof.
  intros Hm. induction fuel as [|k IH]; intros n r y Hn Hf Hr Hy; [lia|].
  cbn [pow_mod_loop]. destruct (Z.eqb_spec n 0) as [->|Hn0].
  - rewrite Z.pow_0_r, Z.mul_1_r, Z.mod_small by lia. reflexivity.
  - destruct k as [|k'].
    + change (Z.of_nat 1 - 1) with 0 in Hn. rewrite Z.pow_0_r in Hn. lia.
    + assert (Hn2 : 0 <= n / 2 < 2 ^ (Z.of_nat (S k') - 1)).
      { split; [apply Z.div_pos; lia|]. apply Z.div_lt_upper_bound; [lia|].
        rewrite <- Z.pow_succ_r by lia. replace (Z.succ (Z.of_nat (S k') - 1)) with (Z.of_nat (S (S k')) - 1) by lia. lia. }
      pose proof (mul_bound r y m m Hr Hy). pose proof (mul_bound y y m m Hy Hy).
      assert (m * m <= 2 ^ 32 * 2 ^ 32) by (apply Z.mul_le_mono_nonneg; lia).
      rewrite (u64_small (r * y)) by lia. rewrite (u64_small (y * y)) by lia.
      assert (B1 : 0 <= (y * y) mod m < m) by (apply Z.mod_pos_bound; lia).
      assert (B2 : 0 <= (r * y) mod m < m) by (apply Z.mod_pos_bound; lia).
      rewrite (pow_half y n) by lia.
      destruct (Z.odd n).
      * rewrite IH by (auto; lia). f_equal.
        rewrite mod_mul_l, <- mod_mul_r, mod_pow_l, mod_mul_r by lia. f_equal. ring.
      * rewrite IH by (auto; lia). f_equal.
        rewrite <- mod_mul_r, mod_pow_l, mod_mul_r by lia. f_equal. ring.
Qed.

Lemma pow_mod_ok x n m : 1 <= m < 2 ^ 31 -> 0 <= n < 2 ^ 63 -> pow_mod x n m = Ok (x ^ n mod m).
Proof.
  intros Hm Hn. unfold pow_mod. destruct (Z.eqb_spec m 1) as [->|H1].
  - rewrite Z.mod_1_r. reflexivity.
  - rewrite safe_mod_ok by lia. cbn [bind]. rewrite u32_small by lia.
    pose proof (Z.mod_pos_bound x m ltac:(lia)).
    rewrite pow_mod_loop_ok; try lia. rewrite Z.mul_1_l, mod_pow_l by lia. reflexivity.
Qed.

(* ---- inv_gcd ------------------------------------------------------------ *)
Lemma inv_gcd_loop_ok a b : 0 < b < 2 ^ 63 -> forall fuel s t m0 m1,
  0 <= t < s -> s <= b -> s * t < 2 ^ (Z.of_nat fuel - 1) -> (0 < fuel)%nat ->
  (b | s - m0 * a) -> (b | t - m1 * a) ->
  s * Z.abs m1 + t * Z.abs m0 <= b -> Z.abs m0 * s < b -> Z.gcd s t = Z.gcd a b ->
  exists m0', inv_gcd_loop fuel s t m0 m1 = Ok (Z.gcd a b, m0') /\
    (b | Z.gcd a b - m0' * a) /\ Z.abs m0' * Z.gcd a b < b.
Proof.
  intros Hb. induction fuel as [|k IH]; intros s t m0 m1 Hst Hsb Hf Hk D0 D1 Hs Hm0 Hg; [lia|].
  cbn [inv_gcd_loop]. destruct (Z.eqb_spec t 0) as [->|Ht].
  - rewrite Z.gcd_0_r, Z.abs_eq in Hg by lia. subst s. exists m0. auto.
  - rewrite (Z.quot_div_nonneg s t) by lia.
    pose proof (Z.div_mod s t Ht) as E. pose proof (Z.mod_pos_bound s t ltac:(lia)) as B.
    assert (Hgr : Z.gcd t (s mod t) = Z.gcd a b).
    { rewrite <- Hg. rewrite (Z.gcd_comm t), Z.gcd_mod by lia. apply Z.gcd_comm. }
    assert (Hu : 1 <= s / t) by (apply Z.div_le_lower_bound; lia).
    set (u := s / t) in *. set (r := s mod t) in *. clearbody u r.
    assert (Htu : 0 <= t * u <= s) by lia.
    rewrite (i64_ok (t * u)) by lia. cbn [bind].
    replace (s - t * u) with r by lia.
    rewrite (i64_ok r) by lia. cbn [bind].
    assert (Hm1u : Z.abs (m1 * u) * t <= Z.abs m1 * s).
    { rewrite Z.abs_mul, (Z.abs_eq u) by lia.
      replace (Z.abs m1 * u * t) with (Z.abs m1 * (t * u)) by ring.
      apply Z.mul_le_mono_nonneg_l; lia. }
    assert (Ht0 : 0 <= t * Z.abs m0) by (apply Z.mul_nonneg_nonneg; lia).
    assert (Habs : Z.abs (m1 * u) <= b).
    { apply Z.le_trans with (Z.abs (m1 * u) * t); [|lia].
      rewrite <- (Z.mul_1_r (Z.abs (m1 * u))) at 1. apply Z.mul_le_mono_nonneg_l; lia. }
    rewrite (i64_ok (m1 * u)) by lia. cbn [bind].
    assert (Hnew : Z.abs (m0 - m1 * u) * t <= t * Z.abs m0 + (t * u) * Z.abs m1).
    { apply Z.le_trans with ((Z.abs m0 + Z.abs (m1 * u)) * t).
      - apply Z.mul_le_mono_nonneg_r; lia.
      - rewrite Z.abs_mul, (Z.abs_eq u) by lia. apply Z.eq_le_incl. ring. }
    assert (Hsum : t * Z.abs (m0 - m1 * u) + r * Z.abs m1 <= b).
    { apply Z.le_trans with (t * Z.abs m0 + (t * u) * Z.abs m1 + r * Z.abs m1); [lia|].
      replace (t * Z.abs m0 + t * u * Z.abs m1 + r * Z.abs m1) with ((t * u + r) * Z.abs m1 + t * Z.abs m0) by ring.
      rewrite <- E. lia. }
    assert (Hr0 : 0 <= r * Z.abs m1) by (apply Z.mul_nonneg_nonneg; lia).
    assert (Habs2 : Z.abs (m0 - m1 * u) <= b).
    { apply Z.le_trans with (t * Z.abs (m0 - m1 * u)); [|lia].
      rewrite <- (Z.mul_1_l (Z.abs _)) at 1. apply Z.mul_le_mono_nonneg_r; lia. }
    rewrite (i64_ok (m0 - m1 * u)) by lia. cbn [bind].
    assert (Hmeas : 2 * (t * r) <= s * t).
    { assert (t * 1 <= t * u) by (apply Z.mul_le_mono_nonneg_l; lia).
      assert (t * (2 * r) <= t * s) by (apply Z.mul_le_mono_nonneg_l; lia). lia. }
    assert (Hk' : (0 < k)%nat).
    { destruct k; [|lia]. exfalso. change (Z.of_nat 1 - 1) with 0 in Hf. rewrite Z.pow_0_r in Hf.
      assert (0 < s * t) by (apply Z.mul_pos_pos; lia). lia. }
    apply IH; try lia.
    + assert (Ek : Z.of_nat (S k) - 1 = Z.succ (Z.of_nat k - 1)) by lia.
      rewrite Ek, Z.pow_succ_r in Hf by lia. lia.
    + exact D1.
    + replace (r - (m0 - m1 * u) * a) with ((s - m0 * a) - u * (t - m1 * a)) by (rewrite E; ring).
      apply Z.divide_sub_r; auto. apply Z.divide_mul_r; auto.
    + destruct (Z.eq_dec (Z.abs m1) 0) as [E0|E0]; [rewrite E0; lia|].
      assert (Z.abs m1 * t < Z.abs m1 * s) by (apply Z.mul_lt_mono_pos_l; lia). lia.
Qed.

Lemma inv_gcd_ok a b : 0 < b < 2 ^ 63 -> exists x, inv_gcd a b = Ok (Z.gcd a b, x) /\
  0 <= x < b / Z.gcd a b /\ (b | x * a - Z.gcd a b).
Proof.
  intros Hb. unfold inv_gcd. rewrite safe_mod_ok by lia. cbn [bind].
  pose proof (Z.mod_pos_bound a b ltac:(lia)) as Ba.
  assert (Hg : Z.gcd (a mod b) b = Z.gcd a b) by (rewrite Z.gcd_mod by lia; apply Z.gcd_comm).
  assert (Hgb : (Z.gcd a b | b)) by apply Z.gcd_divide_r.
  assert (Hg0 : 0 < Z.gcd a b).
  { assert (0 <= Z.gcd a b) by apply Z.gcd_nonneg.
    assert (Z.gcd a b <> 0) by (intros E; apply Z.gcd_eq_0_r in E; lia). lia. }
  assert (Hdiv : b = Z.gcd a b * (b / Z.gcd a b)).
  { apply Z.div_exact; [lia|]. apply Z.mod_divide; [lia|auto]. }
  destruct (Z.eqb_spec (a mod b) 0) as [E|E].
  - rewrite E, Z.gcd_0_l, Z.abs_eq in Hg by lia. exists 0. rewrite <- Hg. split; [reflexivity|].
    rewrite Z.div_same by lia. split; [lia|]. exists (-1). lia.
  - destruct (inv_gcd_loop_ok (a mod b) b Hb 200 b (a mod b) 0 1) as (m0 & R & D & M); try lia.
    + change (Z.of_nat 200 - 1) with 199.
      pose proof (mul_bound b (a mod b) (2 ^ 63) (2 ^ 63) ltac:(lia) ltac:(lia)). lia.
    + exists 1. lia.
    + exists 0. lia.
    + rewrite Z.gcd_comm. reflexivity.
    + rewrite R. cbn [bind]. rewrite Hg in *.
      set (g := Z.gcd a b) in *. clearbody g.
      assert (Hk : Z.abs m0 < b / g).
      { apply Z.mul_lt_mono_pos_r with g; lia. }
      assert (D' : (b | m0 * a - g)).
      { destruct D as [k Hk']. exists (m0 * (a / b) - k).
        pose proof (Z.div_mod a b ltac:(lia)).
        replace (m0 * a) with (m0 * (b * (a / b)) + m0 * (a mod b)) by (rewrite H at 3; ring). lia. }
      destruct (Z.ltb_spec m0 0).
      * rewrite Z.quot_div_nonneg by lia.
        assert (b / g <= b) by (apply Z.div_le_upper_bound; nia).
        rewrite i64_ok by lia. cbn [bind]. eexists; split; [reflexivity|]. split; [lia|].
        replace ((m0 + b / g) * a - g) with ((m0 * a - g) + (b / g) * a) by ring.
        apply Z.divide_add_r; auto.
        assert (Dga : (g | a)).
        { assert (g | b). { exact Hgb. }
          assert ((g | a mod b)). { rewrite <- Hg. apply Z.gcd_divide_l. }
          rewrite (Z.div_mod a b) by lia. apply Z.divide_add_r; auto. apply Z.divide_mul_l; auto. }
        destruct Dga as [j Hj]. exists j. rewrite Hj. rewrite Hdiv at 2. ring.
      * eexists; split; [reflexivity|]. split; [lia|auto].
Qed.

(* ---- is_prime ------------------------------------------------------------ *)
Lemma strip2_ok fuel : forall n, 0 < n < 2 ^ Z.of_nat fuel -> 
  exists d i, strip2 fuel n = Ok d /\ 0 <= i /\ n = d * 2 ^ i /\ Z.odd d = true /\ 0 < d.
Proof.
  induction fuel as [|k IH]; intros n Hn; [change (2 ^ Z.of_nat 0) with 1 in Hn; lia|].
  cbn [strip2]. rewrite Z.rem_mod_nonneg by lia.
  destruct (Z.eqb_spec (n mod 2) 0) as [E|E].
  - rewrite Z.quot_div_nonneg by lia.
    pose proof (Z.div_mod n 2 ltac:(lia)).
    assert (Hn2 : 0 < n / 2 < 2 ^ Z.of_nat k).
    { rewrite Nat2Z.inj_succ, Z.pow_succ_r in Hn by lia. lia. }
    destruct (IH _ Hn2) as (d & i & R & Hi & En & Hd & Hd0).
    exists d, (i + 1). split; [auto|]. split; [lia|]. split; [|auto].
    rewrite Z.pow_add_r, Z.pow_1_r by lia. lia.
  - exists n, 0. split; [reflexivity|]. split; [lia|]. split; [rewrite Z.pow_0_r; lia|]. split; [|lia].
    rewrite Zmod_odd in E. destruct (Z.odd n); auto.
Qed.

Lemma sqr_one_prime p y : prime p -> (y * y) mod p = 1 -> y mod p = 1 \/ y mod p = p - 1.
Proof.
  intros Hp H. assert (1 < p) by (destruct Hp; auto).
  assert (D : (p | (y - 1) * (y + 1))).
  { replace ((y - 1) * (y + 1)) with (y * y - 1) by ring. apply mod_eq_divide; [lia|].
    rewrite H. symmetry. apply Z.mod_small; lia. }
  apply prime_mult in D; auto. destruct D as [D|D].
  - left. apply mod_uniq; auto; lia.
  - right. apply mod_uniq; [lia|]. replace (y - (p - 1)) with (y + 1 - p) by ring.
    apply Z.divide_sub_r; auto. apply Z.divide_refl.
Qed.

Lemma mr_loop_ok n a d : 2 < n < 2 ^ 31 -> Z.odd d = true -> 0 < d ->
  forall fuel i t, 0 <= i -> t * 2 ^ i = n - 1 -> (Z.to_nat i < fuel)%nat -> 0 < t ->
  (t = d \/ (Z.even t = true /\ (prime n -> a ^ t mod n <> 1))) ->
  exists t', mr_loop fuel n t (a ^ t mod n) = Ok (t', a ^ t' mod n) /\ 0 < t' /\
   (t' = n - 1 \/ a ^ t' mod n = 1 \/ a ^ t' mod n = n - 1) /\
   (t' = d \/ (Z.even t' = true /\ (prime n -> a ^ t' mod n <> 1))).
Proof.
  intros Hn Hd Hd0. induction fuel as [|k IH]; intros i t Hi Et Hf Ht Hinv; [lia|].
  cbn [mr_loop].
  destruct (Z.eqb_spec t (n - 1)); [simpl; exists t; auto 6|].
  destruct (Z.eqb_spec (a ^ t mod n) 1); [simpl; exists t; auto 6|].
  destruct (Z.eqb_spec (a ^ t mod n) (n - 1)); [simpl; exists t; auto 6|].
  cbn [negb andb].
  pose proof (Z.mod_pos_bound (a ^ t) n ltac:(lia)) as B.
  assert (Hyy : 0 <= a ^ t mod n * (a ^ t mod n) < 2 ^ 62).
  { apply (mul_bound _ _ (2 ^ 31) (2 ^ 31)); lia. }
  rewrite i64_ok by lia. cbn [bind].
  rewrite Z.rem_mod_nonneg by lia. clear Hyy.
  assert (E : (a ^ t mod n * (a ^ t mod n)) mod n = a ^ (t * 2) mod n).
  { rewrite mod_mul_l, mod_mul_r, <- Z.pow_add_r by lia. f_equal. f_equal. lia. }
  rewrite E.
  clear B.
  assert (i <> 0). { intros ->. rewrite Z.pow_0_r in Et. apply n0. clear - Et. lia. }
  apply (IH (i - 1)); [clear - H Hi; lia| |clear - H Hi Hf; lia|clear - Ht; lia|].
  - rewrite <- Et. replace i with (1 + (i - 1)) at 2 by (clear; lia). rewrite Z.pow_add_r by (clear - H Hi; lia). ring.
  - right. split; [rewrite Z.even_mul; apply orb_true_r|].
    intros Hp H1. rewrite <- E in H1. apply sqr_one_prime in H1; auto.
    rewrite Z.mod_mod in H1 by lia. tauto.
Qed.

Lemma mr_base_ok n d i a : 2 < n < 2 ^ 31 -> Z.odd n = true -> Z.odd d = true -> 0 < d -> 0 <= i ->
  n - 1 = d * 2 ^ i ->
  exists v, mr_base n d a = Ok v /\ (prime n -> 0 <= a -> ~ (n | a) -> v = true).
Proof.
  intros Hn On Od Hd Hi E. unfold mr_base.
  assert (Hdn : d <= n - 1). { rewrite E. assert (0 < 2 ^ i) by (apply Z.pow_pos_nonneg; lia). nia. }
  rewrite pow_mod_ok by lia. cbn [bind].
  assert (Hi32 : (Z.to_nat i < 32)%nat).
  { assert (i < 31); [|lia]. apply (Z.pow_lt_mono_r_iff 2); try lia. }
  destruct (mr_loop_ok n a d Hn Od Hd 32 i d Hi ltac:(lia) Hi32 Hd ltac:(auto)) as (t & R & Ht & Hex & Hinv).
  rewrite R. cbn [bind]. eexists; split; [reflexivity|].
  intros Hp Ha Hna.
  rewrite Z.rem_mod_nonneg by lia.
  destruct (Z.eqb_spec (a ^ t mod n) (n - 1)); [reflexivity|]. cbn [negb andb].
  destruct (Z.eqb_spec (t mod 2) 0) as [Hev|]; [exfalso|reflexivity].
  rewrite Zmod_odd in Hev. assert (Ot : Z.odd t = false) by (destruct (Z.odd t); auto; lia).
  destruct Hinv as [->|[_ H1]]; [congruence|]. specialize (H1 Hp).
  destruct Hex as [->|[H2|H2]]; auto.
  apply H1. apply fermat_coprime; auto. apply rel_prime_sym, prime_rel_prime; auto.
Qed.

Lemma is_prime_ok n : n < 2 ^ 31 -> exists v, is_prime n = Ok v /\ (prime n -> v = true).
Proof.
  intros Hn. unfold is_prime.
  destruct (Z.leb_spec n 1).
  - eexists; split; [reflexivity|]. intros Hp. destruct Hp; lia.
  - destruct (Z.eqb_spec n 2); [eexists; split; [reflexivity|auto]|].
    destruct (Z.eqb_spec n 7); [eexists; split; [reflexivity|auto]|].
    destruct (Z.eqb_spec n 61); [eexists; split; [reflexivity|auto]|].
    cbn [orb]. rewrite Z.rem_mod_nonneg by lia.
    destruct (Z.eqb_spec (n mod 2) 0) as [E|E].
    + eexists; split; [reflexivity|]. intros Hp. exfalso.
      apply Z.mod_divide in E; [|lia].
      destruct (prime_divisors n Hp 2 E) as [|[|[|]]]; lia.
    + assert (On : Z.odd n = true) by (rewrite Zmod_odd in E; destruct (Z.odd n); auto; lia).
      destruct (strip2_ok 32 (n - 1) ltac:(change (2 ^ Z.of_nat 32) with (2 ^ 32); lia)) as (d & i & R & Hi & En & Od & Hd).
      rewrite R. cbn [bind].
      assert (Hnd : forall q, 1 < q -> n <> q -> prime q -> prime n -> ~ (n | q)).
      { intros q H1 H2 Hq Hp D. destruct (prime_divisors q Hq n D) as [|[|[|]]]; lia. }
      assert (P2 : prime 2) by apply prime_2.
      assert (P7 : prime 7).
      { apply prime_intro; [lia|]. intros m Hm. apply Zgcd_1_rel_prime.
        assert (C : m = 1 \/ m = 2 \/ m = 3 \/ m = 4 \/ m = 5 \/ m = 6) by lia.
        repeat destruct C as [->|C]; try reflexivity. subst; reflexivity. }
      assert (P61 : prime 61).
      { apply prime_intro; [lia|]. intros m Hm. apply Zgcd_1_rel_prime.
        assert (H' : forallb (fun k => Z.gcd k 61 =? 1) (map (fun k => k + 1) (zrange 60)) = true) by (vm_compute; reflexivity).
        rewrite forallb_forall in H'. specialize (H' m). apply Z.eqb_eq, H'.
        apply in_map_iff. exists (m - 1). split; [lia|]. apply In_zrange. lia. }
      destruct (mr_base_ok n d i 2 ltac:(lia) On Od Hd Hi En) as (v1 & -> & H1). cbn [bind].
      destruct v1; cbn [negb].
      2:{ eexists; split; [reflexivity|]. intros Hp. apply H1; auto; try lia. apply Hnd; auto; lia. }
      destruct (mr_base_ok n d i 7 ltac:(lia) On Od Hd Hi En) as (v2 & -> & H2). cbn [bind].
      destruct v2; cbn [negb].
      2:{ eexists; split; [reflexivity|]. intros Hp. apply H2; auto; try lia. apply Hnd; auto; lia. }
      destruct (mr_base_ok n d i 61 ltac:(lia) On Od Hd Hi En) as (v3 & -> & H3). cbn [bind].
      eexists; split; [reflexivity|]. intros Hp. apply H3; auto; try lia. apply Hnd; auto; lia.
Qed.

(* ---- inv / division ------------------------------------------------------- *)
Definition inverts (m x r : Z) : Prop := 0 <= r < m /\ (r * x) mod m = 1 mod m.

Lemma sm_inv_ok m x : 1 <= m < 2 ^ 31 -> 0 <= x < m -> prime m \/ is_prime m = Ok false ->
  (Z.gcd x m = 1 -> exists r, sm_inv m x = Ok r /\ inverts m x r) /\
  (Z.gcd x m <> 1 -> sm_inv m x = Abort).
Proof.
  intros Hm Hx Hpr. unfold sm_inv.
  destruct (is_prime_ok m ltac:(lia)) as (v & Rv & Hv). rewrite Rv in *. cbn [bind].
  assert (Hcase : (v = true /\ prime m) \/ v = false).
  { destruct Hpr as [Hp|Hp]; [left; auto|right; congruence]. }
  destruct Hcase as [[-> Hp]| ->].
  - assert (1 < m) by (destruct Hp; auto).
    assert (Hg : x = 0 \/ Z.gcd x m = 1).
    { destruct (Z.eq_dec x 0); [auto|right]. apply Zgcd_1_rel_prime. apply rel_prime_sym.
      apply prime_rel_prime; auto. intros D. apply Z.divide_pos_le in D; lia. }
    unfold assert_. destruct (Z.eqb_spec x 0) as [->|Hx0]; cbn [negb bind].
    + rewrite Z.gcd_0_l. split; intros; [lia|reflexivity].
    + destruct Hg as [|Hg]; [lia|]. split; [intros _|congruence].
      rewrite u32_small by lia. rewrite <- (Z.mod_small x m) by lia.
      rewrite sm_pow_ok by lia. eexists; split; [reflexivity|]. split; [apply Z.mod_pos_bound; lia|].
      rewrite mod_mul_l, mod_mul_r. rewrite Z.mul_comm, <- Z.pow_succ_r by lia.
      replace (Z.succ (m - 2)) with (m - 1) by lia.
      rewrite fermat_coprime; auto; try lia.
      * rewrite Z.mod_small; lia.
      * apply Zgcd_1_rel_prime; auto.
  - destruct (inv_gcd_ok x m ltac:(lia)) as (r & -> & Hr & D). cbn [bind]. unfold assert_.
    destruct (Z.eqb_spec (Z.gcd x m) 1) as [E|E]; cbn [bind].
    + split; [intros _|congruence]. rewrite E, Z.div_1_r in *.
      rewrite sm_of_signed_ok by lia. rewrite Z.mod_small by lia.
      eexists; split; [reflexivity|]. split; [lia|]. apply mod_eq_divide; [lia|auto].
    + split; [congruence|auto].
Qed.

Lemma dm_inv_ok m b x : 1 <= m < 2 ^ 31 -> barrett128_new m = Ok b -> 0 <= x < m ->
  (Z.gcd x m = 1 -> exists r, dm_inv b x = Ok r /\ inverts m x r) /\
  (Z.gcd x m <> 1 -> dm_inv b x = Abort).
Proof.
  intros Hm Hb Hx. unfold dm_inv. rewrite (k_M_b m b Hb).
  destruct (inv_gcd_ok x m ltac:(lia)) as (r & -> & Hr & D). cbn [bind]. unfold assert_.
  destruct (Z.eqb_spec (Z.gcd x m) 1) as [E|E]; cbn [bind].
  - split; [intros _|congruence]. rewrite E, Z.div_1_r in *.
    rewrite dm_of_signed_ok with (m := m) by (auto; lia). rewrite Z.mod_small by lia.
    eexists; split; [reflexivity|]. split; [lia|]. apply mod_eq_divide; [lia|auto].
  - split; [congruence|auto].
Qed.

Lemma sm_div_ok m x y : 1 <= m < 2 ^ 31 -> 0 <= x < m -> 0 <= y < m -> prime m \/ is_prime m = Ok false ->
  (Z.gcd y m = 1 -> exists z, sm_div m x y = Ok z /\ 0 <= z < m /\ (z * y) mod m = x) /\
  (Z.gcd y m <> 1 -> sm_div m x y = Abort).
Proof.
  intros Hm Hx Hy Hp. destruct (sm_inv_ok m y Hm Hy Hp) as [H1 H2]. unfold sm_div. split; intros Hg.
  - destruct (H1 Hg) as (r & -> & Hr & E). cbn [bind].
    replace (sm_mul m x r) with (sm_mul m (x mod m) (r mod m)) by (rewrite !Z.mod_small by lia; reflexivity).
    rewrite sm_mul_ok by lia. eexists; split; [reflexivity|]. split; [apply Z.mod_pos_bound; lia|].
    rewrite mod_mul_l. rewrite <- Z.mul_assoc, <- mod_mul_r, E, mod_mul_r, Z.mul_1_r. apply Z.mod_small; lia.
  - rewrite (H2 Hg). reflexivity.
Qed.

Lemma dm_div_ok m b x y : 1 <= m < 2 ^ 31 -> barrett128_new m = Ok b -> 0 <= x < m -> 0 <= y < m ->
  (Z.gcd y m = 1 -> exists z, dm_div b x y = Ok z /\ 0 <= z < m /\ (z * y) mod m = x) /\
  (Z.gcd y m <> 1 -> dm_div b x y = Abort).
Proof.
  intros Hm Hb Hx Hy. destruct (dm_inv_ok m b y Hm Hb Hy) as [H1 H2]. unfold dm_div. split; intros Hg.
  - destruct (H1 Hg) as (r & -> & Hr & E). cbn [bind].
    replace (dm_mul b x r) with (dm_mul b (x mod m) (r mod m)) by (rewrite !Z.mod_small by lia; reflexivity).
    rewrite dm_mul_ok with (m := m) by (auto; lia). eexists; split; [reflexivity|]. split; [apply Z.mod_pos_bound; lia|].
    rewrite mod_mul_l. rewrite <- Z.mul_assoc, <- mod_mul_r, E, mod_mul_r, Z.mul_1_r. apply Z.mod_small; lia.
  - rewrite (H2 Hg). reflexivity.
Qed.

(* ---- statements used by Modint_props.v ------------------------------------ *)
Lemma barrett_new_some M : 1 <= M -> exists b, barrett_new M = Ok b.
Proof. intros H. unfold barrett_new. destruct (Z.eqb_spec M 0); [lia|]. eauto. Qed.
Lemma barrett128_new_some M : 1 <= M -> exists b, barrett128_new M = Ok b.
Proof. intros H. unfold barrett128_new. destruct (Z.eqb_spec M 0); [lia|]. eauto. Qed.

Lemma barrett_quorem_exact_ : forall M x, 1 <= M <= 2 ^ 31 -> 0 <= x < 2 ^ 64 ->
  exists b, barrett_new M = Ok b /\
    barrett_quorem true b x = (x / M, x mod M) /\
    barrett_quo true b x = x / M /\ barrett_rem true b x = x mod M /\
    (2 <= M -> barrett_quorem false b x = (x / M, x mod M)).
Proof.
  intros M x HM Hx. destruct (barrett_new_some M ltac:(lia)) as (b & Hb). exists b. split; auto.
  assert (E : barrett_quorem true b x = (x / M, x mod M)) by (apply barrett_quorem_ok; auto).
  unfold barrett_quo, barrett_rem. rewrite E. repeat split; auto.
  intros. apply barrett_quorem_ok; auto.
Qed.

Lemma barrett_mul_exact_ : forall M x y, 1 <= M <= 2 ^ 31 -> 0 <= x < 2 ^ 32 -> 0 <= y < 2 ^ 32 ->
  exists b, barrett_new M = Ok b /\ barrett_mul true b x y = (x * y) mod M.
Proof.
  intros M x y HM Hx Hy. destruct (barrett_new_some M ltac:(lia)) as (b & Hb). exists b. split; auto.
  unfold barrett_mul, barrett_rem. pose proof (mul_bound x y _ _ Hx Hy). rewrite u64_small by lia.
  rewrite barrett_quorem_ok with (M := M); auto; lia.
Qed.

Lemma barrett_large_modulus_refuted_ :
  exists M x b, 1 <= M < 2 ^ 32 /\ 0 <= x < 2 ^ 64 /\ barrett_new M = Ok b /\
    barrett_quorem true b x <> (x / M, x mod M).
Proof.
  exists (2 ^ 31 + 1), (2 ^ 31), (mkBarrett (2 ^ 31 + 1) 8589934589).
  split; [lia|]. split; [lia|]. split; [vm_compute; reflexivity|]. vm_compute. discriminate.
Qed.

Lemma dynamic_modint_arithmetic_ :
  forall m e, 1 <= m < 2 ^ 31 -> mexpr_ok e -> no_neg e ->
  exists b, barrett128_new m = Ok b /\ dm_eval b e = Ok (ieval e mod m).
Proof.
  intros m e Hm He Hn. destruct (barrett128_new_some m ltac:(lia)) as (b & Hb). exists b. split; auto.
  apply dm_eval_ok; auto.
Qed.

Lemma barrett128_exact_ : forall M c, 1 <= M < 2 ^ 32 -> 0 <= c < 2 ^ 64 ->
  exists b, barrett128_new M = Ok b /\ barrett128_rem true b c = c mod M.
Proof.
  intros m e Hm He. destruct (barrett128_new_some m ltac:(lia)) as (b & Hb). exists b. split; auto.
  apply barrett128_rem_ok; auto.
Qed.

Lemma dynamic_modint_division_ :
  forall m x y, 1 <= m < 2 ^ 31 -> 0 <= x < m -> 0 <= y < m ->
  exists b, barrett128_new m = Ok b /\
  (Z.gcd y m = 1 -> exists z, dm_div b x y = Ok z /\ 0 <= z < m /\ (z * y) mod m = x) /\
  (Z.gcd y m <> 1 -> dm_div b x y = Abort).
Proof.
  intros m x y Hm Hx Hy. destruct (barrett128_new_some m ltac:(lia)) as (b & Hb). exists b. split; auto.
  apply dm_div_ok; auto.
Qed.

Lemma is_prime_complete_ :
  forall n, - 2 ^ 31 <= n < 2 ^ 31 -> exists v, is_prime n = Ok v /\ (prime n -> v = true).
Proof. intros n Hn. apply is_prime_ok. lia. Qed.

Lemma inv_gcd_exact_ : forall a b, - 2 ^ 63 <= a < 2 ^ 63 -> 0 < b < 2 ^ 63 ->
  exists x, inv_gcd a b = Ok (Z.gcd a b, x) /\
    0 <= x < b / Z.gcd a b /\ (x * a) mod b = Z.gcd a b mod b.
Proof.
  intros a b Ha Hb. destruct (inv_gcd_ok a b Hb) as (x & R & H & D). exists x. repeat split; auto; try lia.
  apply mod_eq_divide; [lia|auto].
Qed.
