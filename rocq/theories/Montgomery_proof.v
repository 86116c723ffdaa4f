From Verif Require Import Base BaseLemmas ZMod NumTheory Lucas Montgomery_model.
From Coq Require Import Znumtheory Zpow_facts.

Section Mont.
  Variable w : Z.
  Hypothesis Hw : w = 32 \/ w = 64.
  Let R := 2 ^ w.
  Lemma R_pos : 0 < R. Proof. apply Z.pow_pos_nonneg; lia. Qed.
  Lemma R_sq : 2 ^ (2 * w) = R * R.
  Proof. unfold R. rewrite <- Z.pow_add_r by lia. f_equal. lia. Qed.
  Lemma R_half : R = 2 * 2 ^ (w - 1).
  Proof. unfold R. rewrite <- Z.pow_succ_r by lia. f_equal. lia. Qed.
  Lemma modR_dint x : modR w (dint w x) = x mod R.
  Proof.
    unfold modR, dint. rewrite R_sq. fold R. pose proof R_pos. apply mod_eq_divide; [lia|].
    apply Z.divide_trans with (R * R); [apply Z.divide_factor_l|]. apply mod_eq_divide; [lia|]. apply Z.mod_mod. lia.
  Qed.
  Lemma dint_small x : 0 <= x < R * R -> dint w x = x.
  Proof. intro H. unfold dint. rewrite R_sq. now apply Z.mod_small. Qed.

  Lemma newton N x P Q : (P | N * x - 1) -> (Q | P * P) -> (Q | N * (x * (2 - N * x)) - 1).
  Proof.
    intros (k & Hk) D. apply Z.divide_trans with (P * P); auto. exists (- (k * k)).
    replace (N * (x * (2 - N * x)) - 1) with (- ((N * x - 1) * (N * x - 1))) by ring. rewrite Hk. ring.
  Qed.
  Definition curs := [2; 4; 8; 16; 32; 64].
  Lemma pow2_dvd a b : 0 <= a <= b -> (2 ^ a | 2 ^ b).
  Proof. intro H. exists (2 ^ (b - a)). rewrite <- Z.pow_add_r by lia. f_equal. lia. Qed.
  Lemma inv_step N inv : modR w (dint w (inv * modR w (dint w (2 - dint w (N * inv))))) = (inv * (2 - N * inv)) mod R.
  Proof.
    pose proof R_pos. rewrite !modR_dint. rewrite mod_mul_r.
    apply mod_eq_divide; [lia|]. replace (inv * (2 - dint w (N * inv)) - inv * (2 - N * inv)) with (- inv * (dint w (N * inv) - N * inv)) by ring.
    apply Z.divide_mul_r. apply Z.divide_trans with (R * R); [apply Z.divide_factor_l|].
    apply mod_eq_divide; [lia|]. unfold dint. rewrite R_sq. apply Z.mod_mod. lia.
  Qed.
  Lemma calcN2_odd N : 0 < N < R -> Z.odd N = true -> exists N2, calcN2 w N = Ok N2 /\ 0 <= N2 < R /\ (R | N * N2 + 1).
  Proof.
    intros HN Ho. unfold calcN2. pose proof R_pos as HR.
    match goal with |- context [loop ?fu ?bo ?st] =>
      destruct (loop_inv (fun '(cur, inv) => In cur curs /\ cur <= w /\ (2 ^ cur | N * inv - 1))
        (fun '(cur, inv) => Z.to_nat (6 - Z.log2 cur)) (fun inv => (R | N * inv - 1)) bo fu st) as (inv & E & D) end.
    - split; [cbn; auto|]. split; [lia|]. change (2 ^ 2) with 4.
      apply Z.odd_spec in Ho. destruct Ho as (k & ->). exists (k * k + k). ring.
    - cbn. lia.
    - intros (cur & inv) (I & L & D). destruct (Z.ltb_spec cur w) as [H|H].
      + eexists; split; [reflexivity|]. cbn beta iota. rewrite inv_step.
        assert (C : In (cur * 2) curs /\ cur * 2 <= w /\ (Z.to_nat (6 - Z.log2 (cur * 2)) < Z.to_nat (6 - Z.log2 cur))%nat).
        { unfold curs in *. cbn in I. repeat destruct I as [<-|I]; try tauto; cbn; try lia; repeat split; try tauto; try lia. }
        destruct C as (C1 & C2 & C3). split; [split; [auto|split; [auto|]]|auto].
        assert (0 < cur) by (clear -I; cbn in I; lia).
        assert (D1 : (2 ^ (cur * 2) | N * (inv * (2 - N * inv)) - 1)).
        { apply newton with (2 ^ cur); auto. rewrite <- Z.pow_add_r by lia. apply pow2_dvd. lia. }
        assert (D2 : (2 ^ (cur * 2) | (inv * (2 - N * inv)) mod R - inv * (2 - N * inv))).
        { apply Z.divide_trans with R; [apply pow2_dvd; lia|]. apply mod_eq_divide; [lia|]. apply Z.mod_mod. lia. }
        replace (N * ((inv * (2 - N * inv)) mod R) - 1) with
          (N * ((inv * (2 - N * inv)) mod R - inv * (2 - N * inv)) + (N * (inv * (2 - N * inv)) - 1)) by ring.
        apply Z.divide_add_r; auto. now apply Z.divide_mul_r.
      + eexists; split; [reflexivity|]. cbn beta iota. replace cur with w in D by lia. exact D.
    - rewrite E. cbn [bind]. rewrite !modR_dint.
      assert (E1 : (N * inv) mod R = 1).
      { apply mod_uniq; auto. split; [lia|]. unfold R. change 1 with (2 ^ 0). apply Z.pow_lt_mono_r; lia. }
      rewrite E1. cbn [Z.eqb assert_ bind Pos.eqb]. exists ((- inv) mod R). split; auto.
      split; [apply Z.mod_pos_bound; lia|].
      assert (D2 : (R | (- inv) mod R - - inv)) by (apply mod_eq_divide; [lia|]; apply Z.mod_mod; lia).
      replace (N * ((- inv) mod R) + 1) with (N * ((- inv) mod R - - inv) - (N * inv - 1)) by ring.
      apply Z.divide_sub_r; auto. now apply Z.divide_mul_r.
  Qed.
  Lemma calcN2_even N : 0 <= N < R -> Z.odd N = false -> calcN2 w N = Abort.
  Proof.
    intros HN Ho. unfold calcN2.
    match goal with |- context [loop ?fu ?bo ?st] =>
      destruct (loop_inv (fun '(cur, inv) => In cur curs /\ cur <= w)
        (fun '(cur, inv) => Z.to_nat (6 - Z.log2 cur)) (fun inv => True) bo fu st) as (inv & E & D) end.
    - split; [cbn; auto|]. lia.
    - cbn. lia.
    - intros (cur & inv) (I & L). destruct (Z.ltb_spec cur w) as [H|H].
      + eexists; split; [reflexivity|]. cbn beta iota.
        unfold curs in *. cbn in I. repeat destruct I as [<-|I]; try tauto; cbn; try lia; repeat split; try tauto; try lia.
      + eexists; split; [reflexivity|]. exact Logic.I.
    - rewrite E. cbn [bind]. rewrite !modR_dint. destruct (Z.eqb_spec ((N * inv) mod R) 1) as [F|F]; [|reflexivity].
      exfalso. pose proof R_pos. pose proof R_half as RH. pose proof (Z.div_mod (N * inv) R ltac:(lia)) as DM. rewrite F in DM.
      assert (Z.odd (N * inv) = true). { rewrite DM, RH. rewrite <- Z.mul_assoc. 
        rewrite Z.add_comm, Z.odd_add_mul_2. reflexivity. }
      rewrite Z.odd_mul, Ho in H0. discriminate.
  Qed.

  Section Fixed.
    Variable N : Z.
    Hypothesis HN : 0 < N < 2 ^ (w - 1).
    Hypothesis Ho : Z.odd N = true.
    Lemma N_R : 2 * N < R. Proof. rewrite R_half. lia. Qed.
    Lemma N_R_coprime : rel_prime R N.
    Proof.
      apply rel_prime_sym. unfold R. apply rel_prime_Zpower_r; [lia|]. apply rel_prime_sym.
      apply prime_rel_prime; [exact prime_2|]. intro D. apply Z.mod_divide in D; [|lia]. rewrite Zmod_odd, Ho in D. discriminate.
    Qed.
    Lemma cancel_R a b : (a * R) mod N = (b * R) mod N -> a mod N = b mod N.
    Proof.
      rewrite !mod_eq_divide by lia. intro D. replace (a * R - b * R) with (R * (a - b)) in D by ring.
      apply Gauss with R; auto. apply rel_prime_sym, N_R_coprime.
    Qed.
    Variable M : mont.
    Hypothesis M_N : mo_N M = N.
    Hypothesis M_N2 : 0 <= mo_N2 M < R /\ (R | N * mo_N2 M + 1).
    Hypothesis M_RR : mo_RR M = (R * R) mod N.
    Lemma reduce_ok T : 0 <= T < R * N -> 0 <= mont_reduce w M T < N /\ (mont_reduce w M T * R) mod N = T mod N.
    Proof.
      intro HT. pose proof R_pos as HR. pose proof N_R as HNR. unfold mont_reduce. cbv zeta. rewrite modR_dint. unfold modR. fold R. rewrite M_N.
      rewrite mod_mul_l. set (m := (T * mo_N2 M) mod R).
      assert (Bm : 0 <= m < R) by (apply Z.mod_pos_bound; lia).
      assert (BmN : 0 <= m * N < R * N) by (split; nia).
      assert (B2 : R * N + R * N <= R * R) by (clear -HNR HR; nia).
      assert (B3 : R * N <= R * R) by (clear -HNR HR HN; nia).
      rewrite (dint_small (m * N)) by lia.
      rewrite (dint_small (T + m * N)) by lia.
      assert (D : (R | T + m * N)).
      { destruct M_N2 as (_ & D). assert (D2 : (R | m - T * mo_N2 M)) by (apply mod_eq_divide; [lia|]; apply Z.mod_mod; lia).
        replace (T + m * N) with (T * (N * mo_N2 M + 1) + (m - T * mo_N2 M) * N) by ring.
        apply Z.divide_add_r; [now apply Z.divide_mul_r|now apply Z.divide_mul_l]. }
      destruct D as (t & Et). rewrite Et. unfold divR. fold R. rewrite Z.div_mul by lia.
      assert (Bt : 0 <= t < 2 * N) by (clear -Et HT BmN HR; nia).
      assert (St : forall x, 0 <= x < R -> sint w x = x) by (intros; apply Z.mod_small; auto).
      rewrite (St t) by lia.
      assert (Q : (t * R) mod N = T mod N) by (rewrite <- Et; apply Z_mod_plus_full).
      destruct (Z.leb_spec N t).
      - rewrite dint_small by (clear -Bt H HNR HR; nia). rewrite St by lia. split; [lia|].
        rewrite <- Q. replace ((t - N) * R) with (t * R + (- R) * N) by ring. apply Z_mod_plus_full.
      - rewrite St by lia. split; [lia|auto].
    Qed.
    Definition enc x := (x * R) mod N.
    Lemma enc_bound x : 0 <= enc x < N. Proof. apply Z.mod_pos_bound. lia. Qed.
    Lemma make_ok t : 0 <= t < R -> mont_make w M t = enc t.
    Proof.
      intro Ht. pose proof R_pos as HR. pose proof N_R as HNR. unfold mont_make. rewrite M_RR.
      pose proof (Z.mod_pos_bound (R * R) N ltac:(lia)) as B.
      assert (B2 : 0 <= t * ((R * R) mod N) < R * N) by (apply mul_bound; lia).
      assert (B3 : R * N <= R * R) by (clear -HNR HR HN; nia).
      rewrite dint_small by lia. destruct (reduce_ok _ B2) as (C1 & C2).
      unfold enc. rewrite <- (Z.mod_small _ _ C1). apply cancel_R. rewrite C2.
      rewrite mod_mul_r. now rewrite <- Z.mul_assoc.
    Qed.
    Lemma decode_ok x : mont_reduce w M (enc x) = x mod N.
    Proof.
      pose proof R_pos as HR. pose proof (enc_bound x) as B. destruct (reduce_ok (enc x)) as (C1 & C2); [nia|].
      rewrite <- (Z.mod_small _ _ C1). apply cancel_R. rewrite C2. unfold enc. apply Z.mod_mod. lia.
    Qed.
    Lemma mul_ok x y : mont_mul w M (enc x) (enc y) = enc (x * y).
    Proof.
      pose proof R_pos as HR. pose proof N_R as HNR. pose proof (enc_bound x) as Bx. pose proof (enc_bound y) as By.
      assert (B2 : 0 <= enc x * enc y < R * N) by (apply mul_bound; lia).
      assert (B3 : R * N <= R * R) by (clear -HNR HR HN; nia).
      unfold mont_mul. rewrite dint_small by lia. destruct (reduce_ok _ B2) as (C1 & C2).
      unfold enc at 3. rewrite <- (Z.mod_small _ _ C1). apply cancel_R. rewrite C2. unfold enc.
      rewrite mod_mul_l, mod_mul_r. f_equal. ring.
    Qed.
    Lemma add_ok x y : mont_add w M (enc x) (enc y) = enc (x + y).
    Proof.
      pose proof N_R as HNR. pose proof (enc_bound x) as Bx. pose proof (enc_bound y) as By. unfold mont_add. rewrite M_N.
      assert (St : forall x, 0 <= x < R -> sint w x = x) by (intros; apply Z.mod_small; auto).
      rewrite (St (enc x + enc y)) by lia.
      assert (E : enc (x + y) = (enc x + enc y) mod N). { unfold enc. rewrite mod_add_l, mod_add_r. f_equal. ring. }
      rewrite E. destruct (Z.leb_spec N (enc x + enc y)).
      - rewrite St by lia. symmetry. apply mod_uniq' with 1; lia.
      - symmetry. apply Z.mod_small. lia.
    Qed.
    Lemma pow_ok x b : 0 <= b < 2 ^ 63 -> mont_pow w M (enc x) b = Ok (enc (x ^ b)).
    Proof.
      intro Hb. pose proof R_pos as HR. assert (R1 : 1 < R) by (unfold R; change 1 with (2 ^ 0); apply Z.pow_lt_mono_r; lia).
      unfold mont_pow. rewrite make_ok by lia.
      match goal with |- context [loop ?fu ?bo ?st] =>
        destruct (loop_inv (fun '(P, A, k) => exists p a, P = enc p /\ A = enc a /\ 0 <= k < 2 ^ 63 /\ enc (p * a ^ k) = enc (x ^ b))
          (fun '(P, A, k) => Z.to_nat (if k =? 0 then 0 else Z.log2 k + 1)) (fun r => r = enc (x ^ b)) bo fu st) as (r & E & ->) end.
      - exists 1, x. repeat split; auto; try lia. f_equal. lia.
      - cbn beta iota. destruct (Z.eqb_spec b 0); [lia|]. assert (Z.log2 b < 63) by (apply Z.log2_lt_pow2; lia). lia.
      - intros ((P & A) & k) (p & a & -> & -> & Bk & Ek). destruct (Z.eqb_spec k 0) as [->|Hk].
        + eexists; split; [reflexivity|]. cbn beta iota. rewrite <- Ek. f_equal. cbn. lia.
        + eexists; split; [reflexivity|]. cbn beta iota. split.
          * exists (if Z.odd k then p * a else p), (a * a). rewrite !mul_ok. split; [destruct (Z.odd k); auto|]. split; auto.
            pose proof (Z.div_mod k 2). pose proof (Z.mod_pos_bound k 2).
            split; [lia|]. rewrite <- Ek. rewrite (pow_half a k) by lia. f_equal. destruct (Z.odd k); ring.
          * destruct (Z.eqb_spec (k / 2) 0); [pose proof (Z.log2_nonneg k); lia|].
            assert (Z.log2 (k / 2) < Z.log2 k).
            { rewrite <- Z.div2_div. pose proof (Z.log2_shiftr k 1 ltac:(lia)). rewrite Z.div2_spec. 
              assert (0 < Z.log2 k). { apply Z.log2_pos. destruct (Z.eq_dec k 1); [subst; cbn in n; lia|lia]. } lia. }
            pose proof (Z.log2_nonneg (k / 2)). lia.
      - exact E.
    Qed.
    Lemma sub_ok A B : 0 <= A < N -> 0 <= B < N -> mont_sub w M A B = if B <=? A then A - B else A - B + R.
    Proof.
      intros HA HB. pose proof N_R as HNR. unfold mont_sub. cbv zeta. unfold sint at 1. fold R.
      destruct (Z.ltb_spec ((A - B) mod R) 0); [pose proof (Z.mod_pos_bound (A - B) R R_pos); lia|].
      unfold sint. fold R. destruct (Z.leb_spec B A); [apply Z.mod_small; lia|]. apply mod_uniq' with (-1); lia.
    Qed.
  End Fixed.
  Lemma mont_new_odd N : 0 < N < 2 ^ (w - 1) -> Z.odd N = true ->
    exists M, mont_new w N = Ok M /\ mo_N M = N /\ (0 <= mo_N2 M < R /\ (R | N * mo_N2 M + 1)) /\ mo_RR M = (R * R) mod N.
  Proof.
    intros HN Ho. pose proof R_pos as HR. pose proof R_half as RH. unfold mont_new.
    destruct (calcN2_odd N ltac:(lia) Ho) as (N2 & E & B & D). rewrite E. cbn [bind]. unfold calcRR.
    destruct (Z.eqb_spec N 0); [lia|]. cbn [bind]. rewrite Ho. cbn [assert_ bind]. eexists; split; [reflexivity|].
    cbn [mo_N mo_N2 mo_RR]. split; auto. split; auto.
    assert (Q : dint w (- N) = R * R - N). { unfold dint. rewrite R_sq. apply mod_uniq' with (-1); nia. }
    rewrite Q. unfold sint. fold R. pose proof (Z.mod_pos_bound (R * R - N) N ltac:(lia)).
    rewrite Z.mod_small by lia. replace (R * R - N) with (R * R + (-1) * N) by ring. apply Z_mod_plus_full.
  Qed.
  Lemma mont_new_even N : 0 <= N < R -> Z.odd N = false -> mont_new w N = Abort.
  Proof. intros H1 H2. unfold mont_new. now rewrite calcN2_even. Qed.
End Mont.

Lemma montgomery_all w N : w = 32 \/ w = 64 -> 0 < N < 2 ^ (w - 1) -> Z.odd N = true ->
  exists M, mont_new w N = Ok M /\
    (forall t, 0 <= t < 2 ^ w -> mont_make w M t = (t * 2 ^ w) mod N) /\
    (forall T, 0 <= T < 2 ^ w * N -> 0 <= mont_reduce w M T < N /\ (mont_reduce w M T * 2 ^ w) mod N = T mod N) /\
    (forall x, mont_reduce w M ((x * 2 ^ w) mod N) = x mod N) /\
    (forall x y, mont_add w M ((x * 2 ^ w) mod N) ((y * 2 ^ w) mod N) = ((x + y) * 2 ^ w) mod N) /\
    (forall x y, mont_mul w M ((x * 2 ^ w) mod N) ((y * 2 ^ w) mod N) = ((x * y) * 2 ^ w) mod N) /\
    (forall x b, 0 <= b < 2 ^ 63 -> mont_pow w M ((x * 2 ^ w) mod N) b = Ok ((x ^ b * 2 ^ w) mod N)).
Proof.
  intros Hw HN Ho. destruct (mont_new_odd w Hw N HN Ho) as (M & E & M1 & M2 & M3). exists M. split; [exact E|].
  repeat apply conj; intros.
  - eapply make_ok; eauto.
  - eapply reduce_ok; eauto.
  - eapply decode_ok; eauto.
  - eapply add_ok; eauto.
  - eapply mul_ok; eauto.
  - eapply pow_ok; eauto.
Qed.
Lemma montgomery_sub_all w N : w = 32 \/ w = 64 -> 0 < N < 2 ^ (w - 1) -> Z.odd N = true ->
  exists M, mont_new w N = Ok M /\
    (forall A B, 0 <= B <= A -> A < N -> mont_sub w M A B = A - B) /\
    (forall A B, 0 <= A < B -> B < N -> N <= mont_sub w M A B /\ mont_sub w M A B <> (A - B) mod N).
Proof.
  intros Hw HN Ho. destruct (mont_new_odd w Hw N HN Ho) as (M & E & M1 & M2 & M3). exists M. split; [exact E|]. split.
  - intros A B H1 H2. rewrite (sub_ok w Hw N HN Ho M M1) by lia. destruct (Z.leb_spec B A); lia.
  - intros A B H1 H2. rewrite (sub_ok w Hw N HN Ho M M1) by lia. destruct (Z.leb_spec B A); [lia|].
    pose proof (N_R w Hw N HN Ho). pose proof (Z.mod_pos_bound (A - B) N). lia.
Qed.
