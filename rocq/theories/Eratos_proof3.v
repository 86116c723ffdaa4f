(* sieve_of_eratosthenes.hpp, class SimpleSieve *)
From Verif Require Import Base BaseLemmas ZMod NumTheory Lucas Seq ListZ ListMore RingSum Smooth Sieve_model Sieve_spec Sieve_proof Eratos_model Eratos_spec Wheel Eratos_proof.
From Coq Require Import Znumtheory Sorted.

(* bytes *)
Definition low (b : Z) : Z := match find (Z.testbit b) (zrange 8) with Some t => t | None => 0 end.
Lemma low_ok b : 0 < b < 256 -> 0 <= low b < 8 /\ mask_to_index (u8 (Z.land b (- b))) = Ok (low b) /\ Z.testbit b (low b) = true /\
  (forall t, 0 <= t < low b -> Z.testbit b t = false) /\ (forall t, 0 <= t < 8 -> Z.testbit (u8 (Z.land b (b - 1))) t = Z.testbit b t && negb (t =? low b)) /\
  0 <= u8 (Z.land b (b - 1)) < 256 /\ Z.lxor b (u8 (Z.land b (- b))) = u8 (Z.land b (b - 1)).
Proof.
  intro Hb.
  pose proof (allb (fun b => (b =? 0) || ((0 <=? low b) && (low b <? 8) && res_is (mask_to_index (u8 (Z.land b (- b)))) (low b) && Z.testbit b (low b) &&
     forallb (fun t => (low b <=? t) || negb (Z.testbit b t)) (zrange 8) && forallb (fun t => Bool.eqb (Z.testbit (u8 (Z.land b (b - 1))) t) (Z.testbit b t && negb (t =? low b))) (zrange 8) &&
     (0 <=? u8 (Z.land b (b - 1))) && (u8 (Z.land b (b - 1)) <? 256) && (Z.lxor b (u8 (Z.land b (- b))) =? u8 (Z.land b (b - 1))))) 256 ltac:(vm_compute; reflexivity) b ltac:(lia)) as E. cbn beta in E.
  rewrite (proj2 (Z.eqb_neq b 0)) in E by lia. cbn [orb] in E. rewrite !Bool.andb_true_iff in E. destruct E as ((((((((E1 & E2) & E3) & E4) & E5) & E6) & E7) & E8) & E9).
  apply Z.leb_le in E1, E7. apply Z.ltb_lt in E2, E8. apply Z.eqb_eq in E9. split; [lia|]. split; [now apply res_is_ok|]. split; auto. rewrite forallb_forall in E5, E6. split; [|split; [|split; [lia|auto]]].
  - intros t Ht. specialize (E5 t ltac:(apply In_zrange; lia)). rewrite (proj2 (Z.leb_gt (low b) t)) in E5 by lia. cbn [orb] in E5. now apply Bool.negb_true_iff in E5.
  - intros t Ht. specialize (E6 t ltac:(apply In_zrange; lia)). now apply Bool.eqb_prop in E6.
Qed.
Lemma byte_zero b : 0 <= b < 256 -> (forall t, 0 <= t < 8 -> Z.testbit b t = false) -> b = 0.
Proof. intros Hb H. destruct (Z.eq_dec b 0); auto. destruct (low_ok b ltac:(lia)) as (L & _ & T & _). rewrite H in T by auto. discriminate. Qed.
Lemma u8_range x : 0 <= u8 x < 256. Proof. apply Z.mod_pos_bound. lia. Qed.
Lemma u8_bit x t : 0 <= t < 8 -> Z.testbit (u8 x) t = Z.testbit x t.
Proof. intro Ht. unfold u8. change 256 with (2 ^ 8). now rewrite Z.mod_pow2_bits_low by lia. Qed.
Lemma lor_bit f o t : 0 <= o < 8 -> 0 <= t < 8 -> Z.testbit (u8 (Z.lor f (2 ^ o))) t = Z.testbit f t || (t =? o).
Proof. intros Ho Ht. rewrite u8_bit by auto. rewrite Z.lor_spec. rewrite Z.pow2_bits_eqb by lia. now rewrite (Z.eqb_sym o t). Qed.

Lemma xsplit x : 8 * (x / 8) + x mod 8 = x. Proof. symmetry. apply Z.div_mod. lia. Qed.
Section Ss.
  Variable N : Z.
  Hypothesis HN : 0 <= N.
  Let siz := ss_siz N.
  Lemma siz_eq : siz = N / 30 + 1. Proof. unfold siz, ss_siz, PROD. now rewrite Z.quot_div_nonneg by lia. Qed.
  Lemma siz_pos : 1 <= siz. Proof. rewrite siz_eq. pose proof (Z.div_pos N 30). lia. Qed.
  (* the bit array as a function of the index x *)
  Definition bits (flag : list Z) (B : Z -> bool) : Prop :=
    exists f, rep flag siz f /\ (forall b, 0 <= b < siz -> 0 <= f b < 256) /\ forall x, 0 <= x < 8 * siz -> Z.testbit (f (x / 8)) (x mod 8) = B x.
  Lemma bits_ext flag B B' : bits flag B -> (forall x, 0 <= x < 8 * siz -> B x = B' x) -> bits flag B'.
  Proof. intros (f & R & F & H) E. exists f. split; auto. split; auto. intros x Hx. rewrite H; auto. Qed.
  Lemma bits_set flag B b o f : bits flag B -> 0 <= b < siz -> 0 <= o < 8 -> vget flag b = Ok f ->
    exists flag', vset flag b (u8 (Z.lor f (2 ^ o))) = Ok flag' /\ bits flag' (fun x => B x || (x =? 8 * b + o)).
  Proof.
    intros (g & R & F & H) Hb Ho Ef. rewrite (rep_get _ _ _ _ R) in Ef by lia. injection Ef as <-. rewrite (rep_set _ _ _ _ _ R) by lia. eexists; split; [reflexivity|].
    exists (fupd g b (u8 (Z.lor (g b) (2 ^ o)))). split; [apply rep_upd; auto|]. split.
    - intros b' Hb'. unfold fupd. destruct (b' =? b); auto. apply u8_range.
    - intros x Hx. pose proof (jmod x). pose proof (xsplit x). unfold fupd. destruct (Z.eqb_spec (x / 8) b) as [E|E].
      + rewrite lor_bit by auto. rewrite <- E, H by lia. f_equal. destruct (Z.eqb_spec (x mod 8) o); destruct (Z.eqb_spec x (8 * (x / 8) + o)); auto; lia.
      + rewrite H by auto. replace (x =? 8 * b + o) with false; [now rewrite Bool.orb_false_r|]. symmetry. apply Z.eqb_neq. intros ->. apply E. rewrite (Z.add_comm (8 * b)), (Z.mul_comm 8), Z.div_add by lia. rewrite Z.div_small by lia. lia.
  Qed.
  Lemma bits_get flag B x : bits flag B -> 0 <= x < 8 * siz -> exists f, vget flag (x / 8) = Ok f /\ Z.testbit f (x mod 8) = B x /\ 0 <= f < 256.
  Proof.
    intros (g & R & F & H) Hx. pose proof (xsplit x). pose proof (jmod x). assert (0 <= x / 8 < siz) by lia. exists (g (x / 8)). split; [now apply (rep_get _ _ _ _ R)|]. auto.
  Qed.
  Lemma ss_inner_ok kp mp flag B : 0 <= kp -> 0 <= mp < 8 -> 1 <= 8 * kp + mp -> bits flag B ->
    exists flag', ss_inner siz kp mp flag = Ok flag' /\ bits flag' (fun x => B x || ((w x mod w (8 * kp + mp) =? 0) && (w (8 * kp + mp) * w (8 * kp + mp) <=? w x))).
  Proof.
    intros Hk Hm Hi R. set (i := 8 * kp + mp) in *. pose proof siz_pos as HS.
    assert (Ei : i / 8 = kp /\ i mod 8 = mp) by (unfold i; rewrite (Z.add_comm (8 * kp)), (Z.mul_comm 8), Z.div_add, Z.mod_add by lia; rewrite Z.div_small, Z.mod_small by lia; lia). destruct Ei as (Ei1 & Ei2).
    unfold ss_inner, PROD. rewrite rm_get by auto. cbn [bind]. rewrite kr_start by auto. fold i.
    match goal with |- context [loop ?fu ?bo ?st] => apply (loop_inv (fun '(mq, kr, flag) => exists J, i <= J /\ mq = J mod 8 /\ kr = w i * w J / 30 /\ bits flag (fun x => B x || pmark i J x))
      (fun '(mq, kr, flag) => Z.to_nat (8 * siz - (8 * kr + t2 OFFSET mp mq)))
      (fun flag => bits flag (fun x => B x || ((w x mod w i =? 0) && (w i * w i <=? w x)))) bo fu st) end.
    - exists i. split; [lia|]. split; [auto|]. split; [lia|]. eapply bits_ext; [exact R|]. intros x Hx. rewrite pmark_start by lia. now rewrite Bool.orb_false_r.
    - destruct (off_get mp mp Hm Hm) as (_ & Bd & _). pose proof (w_pos i ltac:(lia)). assert (0 <= w i * w i / 30) by (apply Z.div_pos; nia). lia.
    - intros ((mq, kr), flag1) (J & HJ & -> & -> & R1). destruct (Z.ltb_spec (w i * w J / 30) siz) as [L|L].
      + assert (P0 : 0 <= w i * w J / 30) by (pose proof (w_pos i ltac:(lia)); pose proof (w_pos J ltac:(lia)); apply Z.div_pos; nia).
        destruct (off_get mp (J mod 8) Hm (jmod J)) as (_ & B1 & E1 & _).
        destruct (pidx_block i J) as (PB1 & PB2). destruct (bits_get _ _ (pidx i J) R1) as (f & Ef & _ & _); [unfold pidx; rewrite Ei2; lia|]. rewrite PB1 in Ef. rewrite Ef. cbn [bind]. rewrite E1. cbn [bind].
        destruct (bits_set _ _ _ _ _ R1 (conj P0 L) B1 Ef) as (flag2 & E2 & R2). rewrite E2. cbn [bind]. rewrite dr_get by apply jmod. cbn [bind]. rewrite df_get by (auto; apply jmod). cbn [bind].
        eexists; split; [reflexivity|]. cbn beta iota. rewrite next_mod by lia.
        assert (EP : forall j, 8 * (w i * w j / 30) + t2 OFFSET mp (j mod 8) = pidx i j) by (intro j; unfold pidx; rewrite Ei2; reflexivity).
        assert (EK : w i * w J / 30 + (kp * drf (J mod 8) + t2 DF mp (J mod 8)) = w i * w (J + 1) / 30) by (rewrite kr_step, Ei1, Ei2; ring). rewrite EK. split.
        * exists (J + 1). split; [lia|]. split; auto. split; auto. eapply bits_ext; [exact R2|]. intros x Hx. cbn beta. rewrite pmark_step by lia. rewrite EP. now rewrite Bool.orb_assoc.
        * rewrite !EP. assert (pidx i J < pidx i (J + 1)). { apply Z.nle_gt. rewrite <- w_le_iff, !pidx_ok. pose proof (w_lt J (J + 1) ltac:(lia)). pose proof (w_pos i ltac:(lia)). nia. }
          assert (pidx i J < 8 * siz) by (rewrite <- EP; lia). lia.
      + eexists; split; [reflexivity|]. cbn beta iota. eapply bits_ext; [exact R1|]. intros x Hx. cbn beta. rewrite pmark_end; auto.
        pose proof (rmf_range (x mod 8) (jmod x)). pose proof (Z.mul_div_le (w i * w J) 30 ltac:(lia)). pose proof (xsplit x). pose proof (jmod x). unfold w at 1. lia.
  Qed.
  Definition sinv (i : Z) (flag : list Z) : Prop := bits flag (cmark i).
  Lemma sinv_skip1 i flag : 0 <= i -> sinv i flag -> cmark i i = true -> sinv (i + 1) flag.
  Proof.
    intros Hi I C. eapply bits_ext; [exact I|]. intros x Hx. destruct (Z.eq_dec i 0) as [->|]; [reflexivity|]. rewrite cmark_S by lia.
    rewrite cmark_self in C by lia. apply Bool.negb_true_iff in C. rewrite C. cbn [andb]. now rewrite Bool.orb_false_r.
  Qed.
  (* inside one block nothing changes *)
  Lemma cmark_block kp t t' : 0 <= kp -> 0 <= t' < 8 -> 0 <= t <= 8 -> cmark (8 * kp + t) (8 * kp + t') = cmark (8 * kp) (8 * kp + t').
  Proof.
    intros Hk Ht' Ht. assert (G : forall t, 0 <= t -> t <= 8 -> cmark (8 * kp + t) (8 * kp + t') = cmark (8 * kp) (8 * kp + t')); [|apply G; lia].
    refine (natlike_ind _ _ _); [intros _; now rewrite Z.add_0_r|]. intros u Hu IH Hu8. rewrite <- IH by lia. replace (8 * kp + Z.succ u) with (8 * kp + u + 1) by lia.
    destruct (Z.eq_dec (8 * kp + u) 0) as [->|]; [reflexivity|]. rewrite cmark_S by lia.
    replace (w (8 * kp + u) * w (8 * kp + u) <=? w (8 * kp + t')) with false; [now rewrite Bool.andb_false_r, Bool.orb_false_r|]. symmetry. apply Z.leb_gt.
    pose proof (w_ge7 (8 * kp + u) ltac:(lia)) as G7. rewrite (w_block kp u) in * by lia. rewrite (w_block kp t') by lia. pose proof (rmf_range u ltac:(lia)). pose proof (rmf_range t' Ht'). nia.
  Qed.
  Lemma sinv_skip kp flag u v : 0 <= kp -> 0 <= u <= v -> v <= 8 -> sinv (8 * kp + u) flag -> (forall t, u <= t < v -> cmark (8 * kp) (8 * kp + t) = true) -> sinv (8 * kp + v) flag.
  Proof.
    intros Hk Hu Hv I H. replace v with (u + (v - u)) in * by lia. assert (K : 0 <= v - u) by lia. revert K Hv H. generalize (v - u). refine (natlike_ind _ _ _).
    - intros _ _. now rewrite Z.add_0_r.
    - intros d Hd IH Hd8 H. replace (8 * kp + (u + Z.succ d)) with (8 * kp + (u + d) + 1) by lia. apply sinv_skip1; [lia| |].
      + apply IH; [lia|]. intros t Ht. apply H. lia.
      + rewrite cmark_block by lia. apply H. lia.
  Qed.
  Lemma ss_block_ok kp flag : 0 <= kp < siz -> sinv (8 * kp) flag -> exists flag', (let* f := vget flag kp in
    loop 9 (fun '(bits, flag) =>
      if negb (bits =? 0) then
        let* mp := mask_to_index (u8 (Z.land bits (- bits))) in
        let* flag := ss_inner siz kp mp flag in
        Ok (inl (u8 (Z.land bits (bits - 1)), flag))
      else Ok (inr flag)) (u8 (Z.lnot f), flag)) = Ok flag' /\ sinv (8 * (kp + 1)) flag'.
  Proof.
    intros Hk I. destruct I as (g & R & F & H) eqn:EI. rewrite (rep_get _ _ _ _ R) by lia. cbn [bind].
    assert (Hb : forall t, 0 <= t < 8 -> Z.testbit (u8 (Z.lnot (g kp))) t = negb (cmark (8 * kp) (8 * kp + t))).
    { intros t Ht. rewrite u8_bit by auto. rewrite Z.lnot_spec by lia. rewrite <- H by lia. rewrite (Z.add_comm (8 * kp)), (Z.mul_comm 8 kp), Z.div_add, Z.mod_add by lia. now rewrite Z.div_small, Z.mod_small by lia. }
    apply (loop_inv (fun '(b, flag) => 0 <= b < 256 /\ exists T, 0 <= T <= 8 /\ sinv (8 * kp + T) flag /\ forall t, 0 <= t < 8 -> Z.testbit b t = (T <=? t) && negb (cmark (8 * kp) (8 * kp + t)))
      (fun '(b, flag) => if b =? 0 then 0%nat else (8 - Z.to_nat (low b))%nat) (sinv (8 * (kp + 1)))).
    - split; [apply u8_range|]. exists 0. split; [lia|]. rewrite Z.add_0_r. split; [exact I|]. intros t Ht. rewrite Hb by auto. rewrite (proj2 (Z.leb_le 0 t)) by lia. reflexivity.
    - destruct (_ =? 0); lia.
    - intros (b, flag1) (Br & T & HT & I1 & Tb). destruct (Z.eqb_spec b 0) as [->|Nb]; cbn [negb].
      + eexists; split; [reflexivity|]. cbn beta iota. replace (8 * (kp + 1)) with (8 * kp + 8) by ring. apply (sinv_skip kp flag1 T 8); auto; try lia.
        intros t Ht. specialize (Tb t ltac:(lia)). rewrite Z.testbit_0_l, (proj2 (Z.leb_le T t)) in Tb by lia. cbn [andb] in Tb. symmetry in Tb. now apply Bool.negb_false_iff in Tb.
      + destruct (low_ok b ltac:(lia)) as (L1 & L2 & L3 & L4 & L5 & L6 & _). rewrite L2. cbn [bind]. set (mp := low b) in *.
        assert (Tm : T <= mp /\ cmark (8 * kp) (8 * kp + mp) = false). { rewrite Tb in L3 by auto. apply Bool.andb_true_iff in L3. destruct L3 as (A & B). apply Z.leb_le in A. now apply Bool.negb_true_iff in B. }
        assert (I2 : sinv (8 * kp + mp) flag1). { apply (sinv_skip kp flag1 T mp); auto; try lia. intros t Ht. specialize (L4 t ltac:(lia)). rewrite Tb in L4 by lia. rewrite (proj2 (Z.leb_le T t)) in L4 by lia. now apply Bool.negb_false_iff in L4. }
        assert (Ni : 1 <= 8 * kp + mp). { destruct (Z.eq_dec (8 * kp + mp) 0) as [Z0|]; [|lia]. destruct Tm as (_ & C). rewrite Z0 in C. unfold cmark in C. cbn [Z.eqb orb] in C. discriminate. }
        destruct (ss_inner_ok kp mp flag1 _ ltac:(lia) L1 Ni I2) as (flag2 & E2 & I3). rewrite E2. cbn [bind]. eexists; split; [reflexivity|]. cbn beta iota. split; [split; [auto|]|].
        * exists (mp + 1). split; [lia|]. split.
          -- rewrite Z.add_assoc. eapply bits_ext; [exact I3|]. intros x Hx. cbn beta. rewrite cmark_S by lia. f_equal.
             assert (P : primeb (w (8 * kp + mp)) = true). { destruct Tm as (_ & C). rewrite <- (cmark_block kp mp mp) in C by lia. rewrite cmark_self in C by lia. now apply Bool.negb_false_iff in C. }
             now rewrite P.
          -- intros t Ht. rewrite L5, Tb by auto. destruct (Z.leb_spec (mp + 1) t).
             ++ rewrite (proj2 (Z.eqb_neq t mp)), (proj2 (Z.leb_le T t)) by lia. cbn [negb]. apply Bool.andb_true_r.
             ++ cbn [andb]. destruct (Z.eqb_spec t mp) as [->|]; [apply Bool.andb_false_r|]. specialize (L4 t ltac:(lia)). rewrite Tb in L4 by auto. rewrite L4. reflexivity.
        * set (b' := u8 (Z.land b (b - 1))) in *. destruct (Z.eqb_spec b' 0) as [|Nb']; [lia|]. destruct (low_ok b' ltac:(lia)) as (L1' & _ & L3' & _).
          rewrite L5 in L3' by auto. apply Bool.andb_true_iff in L3'. destruct L3' as (A & B). apply Bool.negb_true_iff, Z.eqb_neq in B. assert (~ low b' < mp) by (intro; rewrite L4 in A by lia; discriminate). lia.
  Qed.
  Lemma ss_make_ok : exists flag, ss_make N = Ok flag /\ bits flag (fun x => negb (primeb (w x))).
  Proof.
    pose proof siz_pos as HS. unfold ss_make. fold siz. unfold PROD. cbn zeta. rewrite vget_vrep by lia. cbn [bind].
    assert (B0 : bits (vrep siz 0) (fun _ => false)). { exists (fun _ => 0). split; [apply rep_vrep; lia|]. split; [intros; lia|]. intros; apply Z.testbit_0_l. }
    destruct (bits_set (vrep siz 0) _ 0 0 0 B0 ltac:(lia) ltac:(lia) (vget_vrep siz 0 0 ltac:(lia))) as (flag0 & E0 & B1). change (u8 (Z.lor 0 (2 ^ 0))) with 1 in E0. change (Z.lor 0 1) with 1. rewrite E0. cbn [bind].
    pose proof (Z.sqrt_spec (N + 2) ltac:(lia)) as SQ. pose proof (Z.sqrt_nonneg (N + 2)) as SQ0. set (s := Z.sqrt (N + 2)) in *. clearbody s. cbn zeta in SQ. unfold Z.succ in SQ. rewrite Z.quot_div_nonneg by lia.
    pose proof (Z.div_mod s 30 ltac:(lia)) as DS. pose proof (Z.mod_pos_bound s 30 ltac:(lia)) as DB. pose proof (Z.div_pos s 30 ltac:(lia) ltac:(lia)) as DP. set (km := s / 30) in *.
    assert (Hkm : km < siz). { rewrite siz_eq. assert (km <= N / 30); [|lia]. apply Z.div_le_lower_bound; [lia|]. destruct (Z.eq_dec km 0); nia. }
    destruct (for_inv (fun kp flag => sinv (8 * kp) flag) 0 (km + 1) (fun kp flag => let* f := vget flag kp in
      loop 9 (fun '(bits, flag) => if negb (bits =? 0) then let* mp := mask_to_index (u8 (Z.land bits (- bits))) in let* flag := ss_inner siz kp mp flag in Ok (inl (u8 (Z.land bits (bits - 1)), flag)) else Ok (inr flag)) (u8 (Z.lnot f), flag)) flag0) as (flag & E & I).
    - lia.
    - eapply bits_ext; [exact B1|]. intros x Hx. cbn beta. unfold cmark. rewrite (span_nil 1 (8 * 0)) by lia. cbn [existsb orb]. now rewrite Bool.orb_false_r.
    - intros kp flag Hkp I. apply ss_block_ok; auto. lia.
    - exists flag. split; [exact E|]. eapply bits_ext; [exact I|]. intros x Hx. cbn beta. apply cmark_prime; [lia|].
      intros p P D L. pose proof (prime_ge_2 p P). replace (8 * (km + 1)) with (8 * (km + 1) + 0) by ring. rewrite w_block by lia. change (rmf 0) with 1.
      assert (Wx : w x < N + 30). { pose proof siz_eq. unfold w. pose proof (rmf_range (x mod 8) (jmod x)). pose proof (xsplit x). pose proof (jmod x). pose proof (Z.mul_div_le N 30 ltac:(lia)). lia. }
      assert (s < 30 * (km + 1)) by lia. assert (N + 2 < (30 * (km + 1)) * (30 * (km + 1))) by nia. nia.
  Qed.
  Lemma ss_is_prime_ok flag : ss_make N = Ok flag -> forall p, 0 <= p < 30 * siz -> exists b, ss_is_prime flag p = Ok b /\ (b = true <-> prime p).
  Proof.
    intros E p Hp. destruct ss_make_ok as (flag' & E' & Bt). rewrite E in E'. injection E' as <-. unfold ss_is_prime, PROD.
    destruct (Z.eqb_spec p 2) as [->|]; [exists true; split; auto; split; auto using prime_2|].
    destruct (Z.eqb_spec p 3) as [->|]; [exists true; split; auto; split; auto using prime_3|].
    destruct (Z.eqb_spec p 5) as [->|]; [exists true; split; auto; split; auto using prime_5|].
    cbn [orb]. rewrite Z.quot_div_nonneg, Z.rem_mod_nonneg by lia.
    destruct (Z.eq_dec (Z.gcd p 30) 1) as [G|G].
    - destruct (w_surj p ltac:(lia) G) as (x & Hx & Ex). subst p. rewrite (proj2 (w_split x)), rm_index_ok by apply jmod. rewrite (proj1 (w_split x)).
      destruct (bits_get _ _ x Bt) as (f & Ef & T & _). { unfold w in Hp. pose proof (rmf_range (x mod 8) (jmod x)). pose proof (xsplit x). pose proof (jmod x). lia. }
      rewrite Ef. cbn [bind]. eexists; split; [reflexivity|]. rewrite Z.eqb_eq. rewrite <- primeb_spec. change 1 with (Z.ones 1). rewrite Z.land_ones by lia. change (2 ^ 1) with 2. rewrite <- Z.bit0_mod. rewrite Z.shiftr_spec by lia. rewrite Z.add_0_l, T.
      destruct (primeb (w x)); cbn; split; congruence.
    - rewrite rm_index_none; [|apply Z.mod_pos_bound; lia|now rewrite <- gcd30_mod]. exists false. split; auto. split; [discriminate|]. intro P. exfalso. revert P. apply not_wheel; auto; lia.
  Qed.
  (* prime_list *)
  Definition wprimes (X : Z) : list Z := filter primeb (map w (zrange X)).
  Lemma wprimes_S X : 0 <= X -> wprimes (X + 1) = wprimes X ++ (if primeb (w X) then [w X] else []).
  Proof. intro H. unfold wprimes. rewrite zrange_S, map_app, filter_app by auto. reflexivity. Qed.
  Lemma wprimes_skip a u v : 0 <= a -> 0 <= u <= v -> (forall t, u <= t < v -> primeb (w (a + t)) = false) -> wprimes (a + v) = wprimes (a + u).
  Proof.
    intros Ha Hu H. replace v with (u + (v - u)) in * by lia. assert (K : 0 <= v - u) by lia. revert K H. generalize (v - u). refine (natlike_ind _ _ _).
    - intros _. now rewrite Z.add_0_r.
    - intros d Hd IH H. replace (a + (u + Z.succ d)) with (a + (u + d) + 1) by lia. rewrite wprimes_S by lia. rewrite H by lia. rewrite app_nil_r. apply IH. intros; apply H; lia.
  Qed.
  Lemma ss_list_block flag i out : bits flag (fun x => negb (primeb (w x))) -> 0 <= i < siz -> exists fl, vget flag i = Ok fl /\
    loop 9 (fun '(f, out) =>
        if negb (f =? 0) then
          let g := u8 (Z.land f (- f)) in
          let* t := mask_to_index g in
          let* r := vget RM t in
          Ok (inl (Z.lxor f g, out ++ [30 * i + r]))
        else Ok (inr out)) (u8 (Z.lnot fl), out ++ wprimes (8 * i)) = Ok (out ++ wprimes (8 * (i + 1))).
  Proof.
    intros Bt Hi. destruct Bt as (g & R & F & H). exists (g i). split; [apply (rep_get _ _ _ _ R); lia|].
    assert (Hb : forall t, 0 <= t < 8 -> Z.testbit (u8 (Z.lnot (g i))) t = primeb (w (8 * i + t))).
    { intros t Ht. rewrite u8_bit by auto. rewrite Z.lnot_spec by lia. rewrite <- (Bool.negb_involutive (primeb _)). rewrite <- H by lia. rewrite (Z.add_comm (8 * i)), (Z.mul_comm 8 i), Z.div_add, Z.mod_add by lia. now rewrite Z.div_small, Z.mod_small by lia. }
    match goal with |- loop ?fu ?bo ?st = _ => destruct (loop_inv (fun '(b, o) => 0 <= b < 256 /\ exists T, 0 <= T <= 8 /\ o = out ++ wprimes (8 * i + T) /\ forall t, 0 <= t < 8 -> Z.testbit b t = (T <=? t) && primeb (w (8 * i + t)))
      (fun '(b, o) => if b =? 0 then 0%nat else (8 - Z.to_nat (low b))%nat) (fun o => o = out ++ wprimes (8 * (i + 1))) bo fu st) as (o & E & Q) end.
    - split; [apply u8_range|]. exists 0. split; [lia|]. rewrite Z.add_0_r. split; auto. intros t Ht. rewrite Hb by auto. now rewrite (proj2 (Z.leb_le 0 t)) by lia.
    - destruct (_ =? 0); lia.
    - intros (b, o) (Br & T & HT & -> & Tb). destruct (Z.eqb_spec b 0) as [->|Nb]; cbn [negb].
      + eexists; split; [reflexivity|]. cbn beta iota. replace (8 * (i + 1)) with (8 * i + 8) by ring. rewrite (wprimes_skip (8 * i) T 8); auto; try lia.
        intros t Ht. specialize (Tb t ltac:(lia)). rewrite Z.testbit_0_l, (proj2 (Z.leb_le T t)) in Tb by lia. now symmetry.
      + destruct (low_ok b ltac:(lia)) as (L1 & L2 & L3 & L4 & L5 & L6 & L7). cbn zeta. rewrite L2. cbn [bind]. set (mp := low b) in *.
        assert (Tm : T <= mp /\ primeb (w (8 * i + mp)) = true). { rewrite Tb in L3 by auto. apply Bool.andb_true_iff in L3. destruct L3 as (A & B). apply Z.leb_le in A. auto. }
        rewrite rm_get by auto. cbn [bind]. eexists; split; [reflexivity|]. cbn beta iota. rewrite L7. split; [split; [auto|]|].
        * exists (mp + 1). split; [lia|]. split.
          -- rewrite <- app_assoc. f_equal. rewrite Z.add_assoc, wprimes_S by lia. rewrite (proj2 Tm). rewrite (wprimes_skip (8 * i) T mp); try lia; [now rewrite w_block by lia|].
             intros t Ht. specialize (L4 t ltac:(lia)). rewrite Tb in L4 by lia. now rewrite (proj2 (Z.leb_le T t)) in L4 by lia.
          -- intros t Ht. rewrite L5, Tb by auto. destruct (Z.leb_spec (mp + 1) t).
             ++ rewrite (proj2 (Z.eqb_neq t mp)), (proj2 (Z.leb_le T t)) by lia. cbn [negb]. apply Bool.andb_true_r.
             ++ cbn [andb]. destruct (Z.eqb_spec t mp) as [->|]; [apply Bool.andb_false_r|]. specialize (L4 t ltac:(lia)). rewrite Tb in L4 by auto. rewrite L4. reflexivity.
        * set (b' := u8 (Z.land b (b - 1))) in *. destruct (Z.eqb_spec b' 0) as [|Nb']; [lia|]. destruct (low_ok b' ltac:(lia)) as (L1' & _ & L3' & _).
          rewrite L5 in L3' by auto. apply Bool.andb_true_iff in L3'. destruct L3' as (A & B). apply Bool.negb_true_iff, Z.eqb_neq in B. assert (~ low b' < mp) by (intro; rewrite L4 in A by lia; discriminate). lia.
    - rewrite <- Q. exact E.
  Qed.
  Lemma pop_sorted m : forall out, StronglySorted Z.lt out -> loop (S (length out)) (fun out =>
    if negb (zlen out =? 0) then
      let* b := vget out (zlen out - 1) in
      if m <? b then Ok (inl (removelast out)) else Ok (inr out)
    else Ok (inr out)) out = Ok (filter (fun x => x <=? m) out).
  Proof.
    intro out. induction out as [|b out IH] using rev_ind; intro S; [reflexivity|]. rewrite app_length. cbn [length]. rewrite Nat.add_1_r.
    remember (Datatypes.S (length out)) as fu. cbn [loop]. rewrite zlen_app, zlen_one. pose proof (zlen_nonneg out). rewrite (proj2 (Z.eqb_neq _ 0)) by lia. cbn [negb]. rewrite vget_mid by lia. cbn [bind].
    assert (S' : StronglySorted Z.lt out /\ forall x, In x out -> x < b).
    { clear - S. induction out as [|a out IH]; [split; [constructor|contradiction]|]. cbn [app] in S. inversion S as [|? ? S1 F]; subst. destruct (IH S1) as (A & B). rewrite Forall_forall in F. split.
      - constructor; auto. rewrite Forall_forall. intros; apply F; apply in_app_iff; auto.
      - intros x [<-|I]; auto. apply F. apply in_app_iff. right. now left. }
    rewrite filter_app. cbn [filter]. destruct (Z.ltb_spec m b) as [L|L]; cbn [bind].
    - rewrite removelast_last. rewrite (proj2 (Z.leb_gt b m)) by lia. rewrite app_nil_r. subst fu. apply IH. tauto.
    - rewrite (proj2 (Z.leb_le b m)) by lia. f_equal. f_equal. symmetry. apply filter_all. intros x Hx. apply Z.leb_le. destruct S' as (_ & B). specialize (B x Hx). lia.
  Qed.
  Lemma wprimes_in X p : In p (wprimes X) <-> prime p /\ exists x, 0 <= x < X /\ w x = p.
  Proof. unfold wprimes. rewrite filter_In, in_map_iff, primeb_spec. split; [intros ((x & E & I) & P)|intros (P & x & I & E)]; (split; [|eauto]); auto; [exists x; split; auto; now apply In_zrange|exists x; split; auto; now apply In_zrange]. Qed.
  Lemma sorted_filter (f : Z -> bool) l : StronglySorted Z.lt l -> StronglySorted Z.lt (filter f l).
  Proof. induction 1 as [|x l S IH F]; cbn [filter]; [constructor|]. destruct (f x); auto. constructor; auto. rewrite Forall_forall in *. intros y Hy. apply filter_In in Hy. apply F. tauto. Qed.
  Lemma w_sorted X : StronglySorted Z.lt (map w (zrange X)).
  Proof.
    destruct (Z.le_gt_cases X 0) as [L|L]; [destruct X; cbn; constructor || lia|]. replace X with (Z.max X 0) by lia. assert (K : 0 <= Z.max X 0) by lia. revert K. generalize (Z.max X 0). refine (natlike_ind _ _ _); [constructor|].
    intros n Hn IH. replace (Z.succ n) with (n + 1) by lia. rewrite zrange_S, map_app by auto. apply sorted_snoc; auto. intros y Hy. apply in_map_iff in Hy. destruct Hy as (x & <- & I). apply In_zrange in I. apply w_lt. lia.
  Qed.
  Lemma out_sorted X : StronglySorted Z.lt ([2; 3; 5] ++ wprimes X).
  Proof.
    assert (G : forall y, In y (wprimes X) -> 5 < y). { intros y Hy. apply wprimes_in in Hy. destruct Hy as (P & x & I & <-). destruct (Z.eq_dec x 0) as [->|]; [exfalso; revert P; apply not_prime_1|]. pose proof (w_ge7 x ltac:(lia)). lia. }
    cbn [app]. repeat constructor; try lia; try (apply sorted_filter, w_sorted); rewrite Forall_forall; intros y Hy; specialize (G y Hy); lia.
  Qed.
  Lemma ss_prime_list_ok flag : ss_make N = Ok flag -> forall m, m <= N -> exists l, ss_prime_list siz flag m = Ok l /\ primes_upto m l.
  Proof.
    intros E m Hm. destruct ss_make_ok as (flag' & E' & Bt). rewrite E in E'. injection E' as <-. pose proof siz_pos as HS. unfold ss_prime_list, PROD.
    match goal with |- context [loop ?fu ?bo ?st] => destruct (loop_inv (fun '(i, off, out) => 0 <= i <= siz /\ off = 30 * i /\ out = [2; 3; 5] ++ wprimes (8 * i)) (fun '(i, off, out) => Z.to_nat (siz - i))
      (fun out => exists i, 0 <= i /\ m <= 30 * i /\ out = [2; 3; 5] ++ wprimes (8 * i)) bo fu st) as (out & Eo & (i & Hi & HiN & ->)) end.
    - split; [lia|]. split; auto.
    - lia.
    - intros ((i, off), out) (Hi & -> & ->). destruct (Z.ltb_spec i siz); destruct (Z.ltb_spec (30 * i) m); cbn [andb].
      2-4: eexists; split; [reflexivity|]; cbn beta iota; exists i; split; [lia|]; split; auto; pose proof siz_eq; pose proof (Z.div_mod N 30 ltac:(lia)); pose proof (Z.mod_pos_bound N 30 ltac:(lia)); lia.
      destruct (ss_list_block flag i [2; 3; 5] Bt ltac:(lia)) as (fl & Ef & El). rewrite Ef. cbn [bind]. cbn zeta in El |- *. rewrite El. cbn [bind]. eexists; split; [reflexivity|]. cbn beta iota. split; [|lia]. split; [lia|]. split; [ring|reflexivity].
    - cbn zeta in Eo |- *. rewrite Eo. cbn [bind]. rewrite pop_sorted by apply out_sorted. eexists; split; [reflexivity|]. split; [apply sorted_filter, out_sorted|].
      intro p. rewrite filter_In, in_app_iff, wprimes_in, Z.leb_le. split.
      + intros ([I|(P & _)] & L); split; auto. cbn [In] in I. destruct I as [<-|[<-|[<-|[]]]]; auto using prime_2, prime_3, prime_5.
      + intros (P & L). split; auto. destruct (Z.eq_dec p 2) as [->|]; [left; cbn; auto|]. destruct (Z.eq_dec p 3) as [->|]; [left; cbn; auto|]. destruct (Z.eq_dec p 5) as [->|]; [left; cbn; auto|].
        right. split; auto. destruct (prime_index p P (prime_gcd30 p P ltac:(auto) ltac:(auto) ltac:(auto))) as (x & Hx & Ex). exists x. split; auto. split; [lia|]. subst p. unfold w in L. pose proof (rmf_range (x mod 8) (jmod x)). pose proof (xsplit x). pose proof (jmod x). lia.
  Qed.
End Ss.
Lemma simple_sieve_ok N : 0 <= N -> exists flag, ss_make N = Ok flag /\
  (forall p, 0 <= p <= N -> exists b, ss_is_prime flag p = Ok b /\ (b = true <-> prime p)) /\
  (forall m, m <= N -> exists l, ss_prime_list (ss_siz N) flag m = Ok l /\ primes_upto m l).
Proof.
  intro HN. destruct (ss_make_ok N HN) as (flag & E & _). exists flag. split; auto. split; [|now apply ss_prime_list_ok].
  intros p Hp. apply (ss_is_prime_ok N HN flag E). rewrite siz_eq by auto. pose proof (Z.div_mod N 30 ltac:(lia)). pose proof (Z.mod_pos_bound N 30 ltac:(lia)). lia.
Qed.
Lemma sieve_query_ok N : 0 <= N -> exists pf, es_make N = Ok pf /\
  (forall p, 0 <= p <= N -> exists b, es_is_prime pf p = Ok b /\ (b = true <-> prime p)) /\
  (forall p, 2 <= p <= N -> exists q, es_prime_factor pf p = Ok q /\ prime q /\ (q | p)).
Proof. intro HN. destruct (es_make_ok N HN) as (pf & E & _). exists pf. split; auto. split; [now apply es_is_prime_ok|now apply es_prime_factor_ok]. Qed.
