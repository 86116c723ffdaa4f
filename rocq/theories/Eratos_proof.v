(* sieve_of_eratosthenes.hpp, class Sieve *)
From Verif Require Import Base BaseLemmas ZMod NumTheory Lucas Seq ListZ RingSum Smooth Sieve_model Sieve_spec Sieve_proof Eratos_model Wheel.
From Coq Require Import Znumtheory Sorted.

Section Es.
  Variable N : Z.
  Hypothesis HN : 0 <= N.
  Let bm := es_base_max N.
  Definition valid (x : Z) : bool := 8 * (x / 8) <=? es_base_max N.
  Lemma bm_nonneg : 0 <= bm.
  Proof. unfold bm, es_base_max, K, PROD. rewrite Z.quot_div_nonneg by lia. apply Z.div_pos; lia. Qed.
  Lemma es_inner_loop kp mp pf g : 0 <= kp -> 0 <= mp < 8 -> 1 <= 8 * kp + mp -> valid (8 * kp + mp) = true -> rep pf (bm + 8) g -> g (8 * kp + mp) = 0 ->
    exists pf', es_inner bm kp mp pf = Ok pf' /\
      rep pf' (bm + 8) (fun x => if valid x && ((w x mod w (8 * kp + mp) =? 0) && (w (8 * kp + mp) * w (8 * kp + mp) <=? w x)) then w (8 * kp + mp) else g x).
  Proof.
    intros Hk Hm Hi HV R G0. set (i := 8 * kp + mp) in *. pose proof bm_nonneg as HB.
    assert (Ei : i / 8 = kp /\ i mod 8 = mp) by (unfold i; rewrite (Z.add_comm (8 * kp)), (Z.mul_comm 8), Z.div_add, Z.mod_add by lia; rewrite Z.div_small, Z.mod_small by lia; lia). destruct Ei as (Ei1 & Ei2).
    unfold valid in HV. fold bm in HV. apply Z.leb_le in HV. rewrite Ei1 in HV.
    unfold es_inner, K, PROD. rewrite rm_get by auto. cbn [bind]. replace (kp * 8 + mp) with i by (unfold i; lia). rewrite (rep_get _ _ _ _ R) by lia. cbn [bind]. rewrite G0. cbn [Z.eqb].
    rewrite kr_start by auto. fold i. assert (Ew : kp * 30 + rmf mp = w i) by (unfold i; rewrite w_block by auto; lia). rewrite Ew.
    match goal with |- context [loop ?fu ?bo ?st] => destruct (loop_inv (fun '(mq, bk, pf) => exists J, i <= J /\ mq = J mod 8 /\ bk = 8 * (w i * w J / 30) /\
        rep pf (bm + 8) (fun x => if valid x && pmark i J x then w i else g x))
      (fun '(mq, bk, pf) => Z.to_nat (bm + 8 - (bk + t2 OFFSET mp mq)))
      (fun pf => rep pf (bm + 8) (fun x => if valid x && ((w x mod w i =? 0) && (w i * w i <=? w x)) then w i else g x)) bo fu st) as (pf' & E & Q) end.
    - exists i. split; [lia|]. split; [auto|]. split; [lia|]. eapply rep_ext; [exact R|]. intros x Hx. cbn beta. rewrite pmark_start by lia. now rewrite Bool.andb_false_r.
    - destruct (off_get mp mp Hm Hm) as (_ & B & _). pose proof (w_pos i ltac:(lia)). assert (0 <= w i * w i / 30) by (apply Z.div_pos; nia). lia.
    - intros ((mq, bk), pf1) (J & HJ & -> & -> & R1). destruct (Z.leb_spec (8 * (w i * w J / 30)) bm) as [L|L].
      + destruct (off_get mp (J mod 8) Hm (jmod J)) as (E1 & B1 & _ & _). rewrite E1. cbn [bind].
        assert (EP : 8 * (w i * w J / 30) + t2 OFFSET mp (J mod 8) = pidx i J) by (unfold pidx; rewrite Ei2; reflexivity). rewrite EP.
        assert (P0 : 0 <= w i * w J / 30) by (pose proof (w_pos i ltac:(lia)); pose proof (w_pos J ltac:(lia)); apply Z.div_pos; nia).
        rewrite (rep_set _ _ _ _ _ R1) by lia. cbn [bind]. rewrite drp_get by apply jmod. cbn [bind]. rewrite dfp_get by (auto; apply jmod). cbn [bind].
        eexists; split; [reflexivity|]. cbn beta iota. rewrite next_mod by lia.
        assert (EK : 8 * (w i * w J / 30) + (kp * (8 * drf (J mod 8)) + 8 * t2 DF mp (J mod 8)) = 8 * (w i * w (J + 1) / 30)) by (rewrite kr_step, Ei1, Ei2; ring). rewrite EK. split.
        * exists (J + 1). split; [lia|]. split; auto. split; auto. eapply rep_ext; [apply rep_upd; [exact R1|lia]|]. intros x Hx. cbn beta. unfold fupd. rewrite pmark_step by lia.
          destruct (Z.eqb_spec x (pidx i J)) as [->|NE]; [|now rewrite Bool.orb_false_r]. rewrite Bool.orb_true_r, Bool.andb_true_r.
          unfold valid. fold bm. rewrite (proj1 (pidx_block i J)). now rewrite (proj2 (Z.leb_le _ _) L).
        * assert (EP' : 8 * (w i * w (J + 1) / 30) + t2 OFFSET mp ((J + 1) mod 8) = pidx i (J + 1)) by (unfold pidx; rewrite Ei2; reflexivity). rewrite EP'.
          assert (pidx i J < pidx i (J + 1)). { apply Z.nle_gt. rewrite <- w_le_iff, !pidx_ok. pose proof (w_lt J (J + 1) ltac:(lia)). pose proof (w_pos i ltac:(lia)). nia. } lia.
      + eexists; split; [reflexivity|]. cbn beta iota. eapply rep_ext; [exact R1|]. intros x Hx. cbn beta. destruct (valid x) eqn:V; auto. cbn [andb].
        rewrite pmark_end; auto. unfold valid in V. fold bm in V. apply Z.leb_le in V. assert (x / 8 < w i * w J / 30) by lia.
        pose proof (rmf_range (x mod 8) (jmod x)). pose proof (Z.mul_div_le (w i * w J) 30 ltac:(lia)). unfold w at 1. lia.
    - exists pf'. split; [|exact Q]. rewrite <- E. repeat f_equal; lia.
  Qed.
  Definition einv (i : Z) (pf : list Z) : Prop := exists g, rep pf (bm + 8) g /\
    forall x, 0 <= x < bm + 8 -> valid x = true -> (g x = 0 <-> cmark i x = false) /\ (g x <> 0 -> x <> 0 -> prime (g x) /\ (g x | w x)).
  Lemma es_inner_ok kp mp pf : 0 <= kp -> 0 <= mp < 8 -> valid (8 * kp + mp) = true -> einv (8 * kp + mp) pf ->
    exists pf', es_inner bm kp mp pf = Ok pf' /\ einv (8 * kp + mp + 1) pf'.
  Proof.
    intros Hk Hm HV (g & R & I). pose proof bm_nonneg as HB. set (i := 8 * kp + mp) in *.
    assert (Ei : i / 8 = kp) by (unfold i; rewrite (Z.add_comm (8 * kp)), (Z.mul_comm 8), Z.div_add by lia; rewrite Z.div_small by lia; lia).
    assert (Hi : 0 <= i < bm + 8) by (unfold valid in HV; fold bm in HV; apply Z.leb_le in HV; lia). destruct (I i Hi HV) as (I1 & I2).
    destruct (Z.eq_dec (g i) 0) as [G0|G0].
    - assert (i <> 0) by (intros Z; apply I1 in G0; rewrite Z in G0; cbn in G0; discriminate).
      destruct (es_inner_loop kp mp pf g Hk Hm ltac:(fold i; lia) HV R G0) as (pf' & E & R'). fold i in R'. exists pf'. split; auto.
      eexists. split; [exact R'|]. intros x Hx V. cbn beta. rewrite V. cbn [andb]. destruct (I x Hx V) as (J1 & J2).
      apply I1 in G0. rewrite cmark_self, Bool.negb_false_iff, primeb_spec in G0 by lia. rewrite cmark_S by lia. rewrite (proj2 (primeb_spec (w i)) G0). cbn [andb].
      pose proof (prime_ge_2 _ G0). destruct (Z.eqb_spec (w x mod w i) 0) as [D|D]; cbn [andb].
      + destruct (w i * w i <=? w x); cbn [andb]; [|now rewrite Bool.orb_false_r]. rewrite Bool.orb_true_r. split; [split; [lia|discriminate]|]. intros _ _. split; auto. apply Z.mod_divide; auto; lia.
      + now rewrite Bool.orb_false_r.
    - unfold es_inner. rewrite rm_get by auto. cbn [bind]. unfold K. replace (kp * 8 + mp) with i by (unfold i; lia). rewrite (rep_get _ _ _ _ R) by lia. cbn [bind]. rewrite (proj2 (Z.eqb_neq _ _) G0).
      exists pf. split; auto. exists g. split; auto. intros x Hx V. destruct (I x Hx V) as (J1 & J2). split; auto.
      destruct (Z.eq_dec i 0) as [Z0|].
      + rewrite J1. rewrite Z0. reflexivity.
      + rewrite cmark_S by lia. assert (C : cmark i i <> false) by tauto. apply Bool.not_false_is_true in C. rewrite cmark_self in C by lia. apply Bool.negb_true_iff in C. rewrite C. cbn [andb]. now rewrite Bool.orb_false_r.
  Qed.
  Lemma es_make_ok : exists pf, es_make N = Ok pf /\ exists g, rep pf (bm + 8) g /\
    forall x, 0 <= x -> w x <= N -> 0 <= x < bm + 8 /\ (g x = 0 <-> prime (w x)) /\ (g x <> 0 -> x <> 0 -> prime (g x) /\ (g x | w x)).
  Proof.
    pose proof bm_nonneg as HB. unfold es_make. fold bm. unfold K, PROD.
    pose proof (rep_vrep (bm + 8) 0 ltac:(lia)) as R0. rewrite (rep_set _ _ _ _ _ R0) by lia. cbn [bind].
    pose proof (Z.sqrt_spec (N + 1) ltac:(lia)) as SQ. pose proof (Z.sqrt_nonneg (N + 1)) as SQ0. cbn zeta. set (s := Z.sqrt (N + 1)) in *. clearbody s. cbn zeta in SQ. unfold Z.succ in SQ. assert (Hs : 1 <= s) by nia. rewrite Z.quot_div_nonneg by lia.
    pose proof (Z.div_pos (s - 1) 30 ltac:(lia) ltac:(lia)) as HK0. pose proof (Z.mul_div_le (s - 1) 30 ltac:(lia)) as HK1. set (km := (s - 1) / 30) in *.
    assert (BMK : 8 * km <= bm). { unfold bm, es_base_max, K, PROD. rewrite Z.quot_div_nonneg by lia. apply Z.div_le_lower_bound; [lia|]. nia. }
    destruct (for_inv (fun kp pf => einv (8 * kp) pf) 0 (km + 1) (fun kp pf => for_ 0 8 (fun mp pf => es_inner bm kp mp pf) pf) (zupd (vrep (bm + 8) 0) 0 1)) as (pf & E & I).
    - lia.
    - eexists. split; [apply rep_upd; [exact R0|lia]|]. intros x Hx V. unfold fupd. unfold cmark. rewrite (span_nil 1 (8 * 0)) by lia. cbn [existsb]. destruct (Z.eqb_spec x 0); cbn [orb]; split; try tauto; split; (discriminate || tauto).
    - intros kp pf Hkp I. destruct (for_inv (fun mp pf => einv (8 * kp + mp) pf) 0 8 (fun mp pf => es_inner bm kp mp pf) pf) as (pf' & E & I').
      + lia.
      + now rewrite Z.add_0_r.
      + intros mp pf1 Hmp I1. destruct (es_inner_ok kp mp pf1 ltac:(lia) ltac:(lia)) as (pf' & E & I'); auto.
        * unfold valid. fold bm. apply Z.leb_le. rewrite (Z.add_comm (8 * kp)), (Z.mul_comm 8 kp), Z.div_add by lia. rewrite Z.div_small by lia. lia.
        * exists pf'. split; auto. now rewrite Z.add_assoc.
      + exists pf'. split; auto. now replace (8 * (kp + 1)) with (8 * kp + 8) by ring.
    - exists pf. split; auto. destruct I as (g & R & I). exists g. split; auto. intros x Hx Wx.
      assert (V : valid x = true). { unfold valid, es_base_max, K, PROD. apply Z.leb_le. rewrite Z.quot_div_nonneg by lia. apply Z.div_le_lower_bound; [lia|]. unfold w in Wx. pose proof (rmf_range (x mod 8) (jmod x)). lia. }
      assert (Hx' : 0 <= x < bm + 8). { unfold valid in V. fold bm in V. apply Z.leb_le in V. pose proof (Z.div_mod x 8 ltac:(lia)). pose proof (jmod x). lia. }
      split; auto. destruct (I x Hx' V) as (I1 & I2). split; auto. rewrite I1. rewrite cmark_prime; auto; [rewrite Bool.negb_false_iff; apply primeb_spec|].
      intros p P D L. pose proof (prime_ge_2 p P). assert (p <= s) by nia. replace (8 * (km + 1)) with (8 * (km + 1) + 0) by ring. rewrite w_block by lia. change (rmf 0) with 1.
      assert (Gp : Z.gcd p 30 = 1) by (apply (gcd_div_1 p (w x)); auto; apply w_gcd). unfold km. pose proof (Z.div_mod (s - 1) 30 ltac:(lia)) as DM. pose proof (Z.mod_pos_bound (s - 1) 30 ltac:(lia)). nia.
  Qed.
  (* the residue switch *)
  Lemma quot_rem30 p : 0 <= p -> Z.quot p 30 = p / 30 /\ Z.rem p 30 = p mod 30.
  Proof. intro H. rewrite Z.quot_div_nonneg, Z.rem_mod_nonneg by lia. auto. Qed.
  Lemma idx_eq x : 0 <= x -> w x / 30 * 8 + x mod 8 = x.
  Proof. intro H. rewrite (proj1 (w_split x)). pose proof (Z.div_mod x 8). lia. Qed.
  Lemma not_wheel p : 0 <= p -> Z.gcd p 30 <> 1 -> p <> 2 -> p <> 3 -> p <> 5 -> ~ prime p.
  Proof. intros Hp G A B C P. apply G. now apply prime_gcd30. Qed.
  Lemma prime_5 : prime 5.
  Proof. apply prime_intro; [lia|]. intros n Hn. apply Zgcd_1_rel_prime. assert (n = 1 \/ n = 2 \/ n = 3 \/ n = 4) as [->|[->|[->| ->]]] by lia; reflexivity. Qed.
  Lemma es_is_prime_ok pf : es_make N = Ok pf -> forall p, 0 <= p <= N -> exists b, es_is_prime pf p = Ok b /\ (b = true <-> prime p).
  Proof.
    intros E p Hp. destruct es_make_ok as (pf' & E' & g & R & I). rewrite E in E'. injection E' as <-. unfold es_is_prime, PROD, K.
    destruct (Z.eqb_spec p 2) as [->|]; [exists true; split; auto; split; auto using prime_2|].
    destruct (Z.eqb_spec p 3) as [->|]; [exists true; split; auto; split; auto using prime_3|].
    destruct (Z.eqb_spec p 5) as [->|]; [exists true; split; auto; split; auto using prime_5|].
    cbn [orb]. rewrite (proj1 (quot_rem30 p ltac:(lia))), (proj2 (quot_rem30 p ltac:(lia))).
    destruct (Z.eq_dec (Z.gcd p 30) 1) as [G|G].
    - destruct (w_surj p ltac:(lia) G) as (x & Hx & Ex). subst p. rewrite (proj2 (w_split x)), rm_index_ok by apply jmod. rewrite idx_eq by auto.
      destruct (I x Hx ltac:(lia)) as (Hr & I1 & _). rewrite (rep_get _ _ _ _ R) by lia. cbn [bind]. eexists; split; [reflexivity|]. now rewrite Z.eqb_eq.
    - rewrite rm_index_none; [|apply Z.mod_pos_bound; lia|now rewrite <- gcd30_mod]. exists false. split; auto. split; [discriminate|]. intro P. exfalso. revert P. apply not_wheel; auto; lia.
  Qed.
  Lemma es_prime_factor_ok pf : es_make N = Ok pf -> forall p, 2 <= p <= N -> exists q, es_prime_factor pf p = Ok q /\ prime q /\ (q | p).
  Proof.
    intros E p Hp. destruct es_make_ok as (pf' & E' & g & R & I). rewrite E in E'. injection E' as <-. unfold es_prime_factor, PROD, K. cbn zeta.
    rewrite (proj1 (quot_rem30 p ltac:(lia))), (proj2 (quot_rem30 p ltac:(lia))). set (r := p mod 30). assert (Br : 0 <= r < 30) by (apply Z.mod_pos_bound; lia).
    assert (DV : forall q, (q | 30) -> (q | r) -> (q | p)). { intros q D1 D2. rewrite (Z.div_mod p 30) by lia. apply Z.divide_add_r; auto. now apply Z.divide_mul_l. }
    destruct (existsb (Z.eqb r) [0; 2; 4; 6; 8; 10; 12; 14; 16; 18; 20; 22; 24; 26; 28]) eqn:X2.
    { exists 2. split; auto. split; [apply prime_2|]. apply DV; [now exists 15|]. apply Z.mod_divide; [lia|]. apply Z.eqb_eq.
      pose proof (allb (fun r => negb (existsb (Z.eqb r) [0; 2; 4; 6; 8; 10; 12; 14; 16; 18; 20; 22; 24; 26; 28]) || (r mod 2 =? 0)) 30 eq_refl r Br) as T. cbn beta in T. rewrite X2 in T. exact T. }
    destruct (existsb (Z.eqb r) [3; 9; 15; 21; 27]) eqn:X3.
    { exists 3. split; auto. split; [apply prime_3|]. apply DV; [now exists 10|]. apply Z.mod_divide; [lia|]. apply Z.eqb_eq.
      pose proof (allb (fun r => negb (existsb (Z.eqb r) [3; 9; 15; 21; 27]) || (r mod 3 =? 0)) 30 eq_refl r Br) as T. cbn beta in T. rewrite X3 in T. exact T. }
    destruct (existsb (Z.eqb r) [5; 25]) eqn:X5.
    { exists 5. split; auto. split; [apply prime_5|]. apply DV; [now exists 6|]. apply Z.mod_divide; [lia|]. apply Z.eqb_eq.
      pose proof (allb (fun r => negb (existsb (Z.eqb r) [5; 25]) || (r mod 5 =? 0)) 30 eq_refl r Br) as T. cbn beta in T. rewrite X5 in T. exact T. }
    assert (G : Z.gcd p 30 = 1). { rewrite gcd30_mod. fold r. apply Z.eqb_eq.
      pose proof (allb (fun r => existsb (Z.eqb r) [0; 2; 4; 6; 8; 10; 12; 14; 16; 18; 20; 22; 24; 26; 28] || existsb (Z.eqb r) [3; 9; 15; 21; 27] || existsb (Z.eqb r) [5; 25] || (Z.gcd r 30 =? 1)) 30 eq_refl r Br) as T.
      cbn beta in T. rewrite X2, X3, X5 in T. exact T. }
    destruct (w_surj p ltac:(lia) G) as (x & Hx & Ex). subst r p. rewrite (proj2 (w_split x)), rm_index_ok by apply jmod. rewrite idx_eq by auto.
    destruct (I x Hx ltac:(lia)) as (Hr & I1 & I2). rewrite (rep_get _ _ _ _ R) by lia. cbn [bind]. eexists; split; [reflexivity|].
    destruct (Z.eqb_spec (g x) 0) as [G0|G0]; [split; [tauto|apply Z.divide_refl]|]. apply I2; auto. intros ->. change (w 0) with 1 in Hp. lia.
  Qed.
End Es.
