(* The numbers prime to 30 in increasing order, and the tables of
   internal_eratosthenes.hpp. *)
From Verif Require Import Base BaseLemmas ZMod NumTheory Lucas ListZ RingSum Smooth Sieve_proof Eratos_model.
From Coq Require Import Znumtheory.

Definition nthz (l : list Z) (t : Z) : Z := nth (Z.to_nat t) l 0.
Definition rmf t := nthz RM t.
Definition drf t := nthz DR t.
Definition t2 (t : list (list Z)) i j := nthz (nth (Z.to_nat i) t []) j.
Lemma allb (P : Z -> bool) n : forallb P (zrange n) = true -> forall t, 0 <= t < n -> P t = true.
Proof. intros H t Ht. rewrite forallb_forall in H. apply H. now apply In_zrange. Qed.
Lemma allb2 (P : Z -> Z -> bool) n m : forallb (fun i => forallb (P i) (zrange m)) (zrange n) = true -> forall i j, 0 <= i < n -> 0 <= j < m -> P i j = true.
Proof. intros H i j Hi Hj. apply (allb (P i) m); auto. now apply (allb (fun i => forallb (P i) (zrange m)) n). Qed.
Definition res_is (r : res Z) (v : Z) := match r with Ok x => x =? v | _ => false end.
Lemma res_is_ok r v : res_is r v = true -> r = Ok v.
Proof. destruct r; try discriminate. cbn. intro H. apply Z.eqb_eq in H. now subst. Qed.
Lemma rm_get t : 0 <= t < 8 -> vget RM t = Ok (rmf t).
Proof. intro H. apply res_is_ok. now apply (allb (fun t => res_is (vget RM t) (rmf t)) 8 eq_refl). Qed.
Lemma dr_get t : 0 <= t < 8 -> vget DR t = Ok (drf t).
Proof. intro H. apply res_is_ok. now apply (allb (fun t => res_is (vget DR t) (drf t)) 8 eq_refl). Qed.
Lemma drp_get t : 0 <= t < 8 -> vget DRP t = Ok (8 * drf t).
Proof. intro H. apply res_is_ok. now apply (allb (fun t => res_is (vget DRP t) (8 * drf t)) 8 eq_refl). Qed.
Lemma df_get i j : 0 <= i < 8 -> 0 <= j < 8 -> tab2 DF i j = Ok (t2 DF i j).
Proof. intros H H'. apply res_is_ok. now apply (allb2 (fun i j => res_is (tab2 DF i j) (t2 DF i j)) 8 8 eq_refl). Qed.
Lemma dfp_get i j : 0 <= i < 8 -> 0 <= j < 8 -> tab2 DFP i j = Ok (8 * t2 DF i j).
Proof. intros H H'. apply res_is_ok. now apply (allb2 (fun i j => res_is (tab2 DFP i j) (8 * t2 DF i j)) 8 8 eq_refl). Qed.
Lemma off_get i j : 0 <= i < 8 -> 0 <= j < 8 -> tab2 OFFSET i j = Ok (t2 OFFSET i j) /\ 0 <= t2 OFFSET i j < 8 /\
  tab2 MASK i j = Ok (2 ^ t2 OFFSET i j) /\ (rmf i * rmf j) mod 30 = rmf (t2 OFFSET i j).
Proof.
  intros H H'.
  pose proof (allb2 (fun i j => res_is (tab2 OFFSET i j) (t2 OFFSET i j) && ((0 <=? t2 OFFSET i j) && (t2 OFFSET i j <? 8) && (res_is (tab2 MASK i j) (2 ^ t2 OFFSET i j)
     && ((rmf i * rmf j) mod 30 =? rmf (t2 OFFSET i j))))) 8 8 eq_refl i j H H') as E.
  apply Bool.andb_true_iff in E. destruct E as (E1 & E2). apply Bool.andb_true_iff in E2. destruct E2 as (E2 & E3). apply Bool.andb_true_iff in E2, E3.
  destruct E2 as (E4 & E5), E3 as (E6 & E7). apply Z.leb_le in E4. apply Z.ltb_lt in E5. apply Z.eqb_eq in E7. split; [now apply res_is_ok|]. split; [lia|]. split; [now apply res_is_ok|exact E7].
Qed.
Lemma df_val i j : 0 <= i < 8 -> 0 <= j < 8 -> t2 DF i j = ((rmf i * rmf j) mod 30 + rmf i * drf j) / 30.
Proof. intros H H'. apply Z.eqb_eq. now apply (allb2 (fun i j => t2 DF i j =? ((rmf i * rmf j) mod 30 + rmf i * drf j) / 30) 8 8 eq_refl). Qed.
Lemma rmf_range t : 0 <= t < 8 -> 1 <= rmf t <= 29.
Proof. intro H. pose proof (allb (fun t => (1 <=? rmf t) && (rmf t <=? 29)) 8 eq_refl t H) as E. apply Bool.andb_true_iff in E. lia. Qed.
Lemma rmf_gcd t : 0 <= t < 8 -> Z.gcd (rmf t) 30 = 1.
Proof. intro H. apply Z.eqb_eq. now apply (allb (fun t => Z.gcd (rmf t) 30 =? 1) 8 eq_refl). Qed.
Lemma rm_index_ok t : 0 <= t < 8 -> rm_index (rmf t) = Some t.
Proof.
  intro H. assert (E : match rm_index (rmf t) with Some x => x =? t | None => false end = true) by now apply (allb (fun t => match rm_index (rmf t) with Some x => x =? t | None => false end) 8 eq_refl).
  destruct (rm_index (rmf t)); [|discriminate]. apply Z.eqb_eq in E. now subst.
Qed.
Lemma rm_index_none r : 0 <= r < 30 -> Z.gcd r 30 <> 1 -> rm_index r = None.
Proof.
  intros H G. pose proof (allb (fun r => (Z.gcd r 30 =? 1) || match rm_index r with Some _ => false | None => true end) 30 eq_refl r H) as E. cbn beta in E.
  apply Bool.orb_true_iff in E. destruct E as [E|E]; [apply Z.eqb_eq in E; contradiction|]. now destruct (rm_index r).
Qed.
Lemma rmf_surj r : 0 <= r < 30 -> Z.gcd r 30 = 1 -> exists t, 0 <= t < 8 /\ rmf t = r.
Proof.
  intros H G. pose proof (allb (fun r => negb (Z.gcd r 30 =? 1) || existsb (fun t => rmf t =? r) (zrange 8)) 30 eq_refl r H) as E. cbn beta in E. rewrite G in E.
  cbn [negb orb Z.eqb] in E. change (Pos.eqb 1 1) with true in E. cbn [negb orb] in E. apply existsb_exists in E. destruct E as (t & I & E). apply In_zrange in I. apply Z.eqb_eq in E. eauto.
Qed.

(* the j-th number prime to 30 *)
Definition w (j : Z) : Z := 30 * (j / 8) + rmf (j mod 8).
Lemma jmod j : 0 <= j mod 8 < 8. Proof. apply Z.mod_pos_bound. lia. Qed.
Lemma w_block a t : 0 <= t < 8 -> w (8 * a + t) = 30 * a + rmf t.
Proof. intro H. unfold w. rewrite (Z.add_comm (8 * a)), (Z.mul_comm 8). rewrite Z.div_add, Z.mod_add by lia. rewrite Z.div_small, Z.mod_small by lia. reflexivity. Qed.
Lemma w_split j : w j / 30 = j / 8 /\ w j mod 30 = rmf (j mod 8).
Proof. unfold w. pose proof (rmf_range (j mod 8) (jmod j)). rewrite (Z.add_comm (30 * _)), (Z.mul_comm 30). rewrite Z.div_add, Z.mod_add by lia. rewrite Z.div_small, Z.mod_small by lia. lia. Qed.
Lemma step_tab t : 0 <= t < 7 -> rmf (t + 1) = rmf t + drf t.
Proof. intro H. apply Z.eqb_eq. now apply (allb (fun t => rmf (t + 1) =? rmf t + drf t) 7 eq_refl). Qed.
Lemma drf_pos t : 0 <= t < 8 -> 2 <= drf t <= 6.
Proof. intro H. pose proof (allb (fun t => (2 <=? drf t) && (drf t <=? 6)) 8 eq_refl t H) as E. apply Bool.andb_true_iff in E. lia. Qed.
Lemma next_mod j : 0 <= j -> Z.land (j mod 8 + 1) 7 = (j + 1) mod 8.
Proof.
  intro H. change 7 with (Z.ones 3). rewrite Z.land_ones by lia. change (2 ^ 3) with 8. now rewrite Z.add_mod_idemp_l by lia.
Qed.
Lemma w_step j : w (j + 1) = w j + drf (j mod 8).
Proof.
  pose proof (Z.div_mod j 8 ltac:(lia)) as E. pose proof (jmod j) as B. set (a := j / 8) in *. set (t := j mod 8) in *. rewrite E at 1. destruct (Z.eq_dec t 7) as [->|N].
  - replace (8 * a + 7 + 1) with (8 * (a + 1) + 0) by ring. rewrite w_block by lia. rewrite E, w_block by lia. change (rmf 0) with 1. change (rmf 7) with 29. change (drf 7) with 2. ring.
  - replace (8 * a + t + 1) with (8 * a + (t + 1)) by ring. rewrite w_block by lia. rewrite step_tab by lia. rewrite E, w_block by lia. ring.
Qed.
Lemma w_lt i j : i < j -> w i < w j.
Proof.
  intro H. replace j with (i + (1 + (j - i - 1))) by lia. assert (K : 0 <= j - i - 1) by lia. revert K. generalize (j - i - 1). refine (natlike_ind _ _ _).
  - rewrite Z.add_0_r, w_step. pose proof (drf_pos _ (jmod i)). lia.
  - intros k Hk IH. replace (i + (1 + Z.succ k)) with (i + (1 + k) + 1) by lia. rewrite w_step. pose proof (drf_pos _ (jmod (i + (1 + k)))). lia.
Qed.
Lemma w_le_iff i j : w i <= w j <-> i <= j.
Proof. destruct (Z.lt_trichotomy i j) as [H|[->|H]]; [apply w_lt in H as H'|lia|apply w_lt in H as H']; lia. Qed.
Lemma w_inj i j : w i = w j -> i = j. Proof. intro H. apply Z.le_antisymm; apply w_le_iff; lia. Qed.
Lemma w_pos j : 0 <= j -> 1 <= w j. Proof. intro H. change 1 with (w 0). now apply w_le_iff. Qed.
Lemma w_ge7 j : 1 <= j -> 7 <= w j. Proof. intro H. change 7 with (w 1). now apply w_le_iff. Qed.
Lemma gcd30_mod x : Z.gcd x 30 = Z.gcd (x mod 30) 30.
Proof. rewrite (Z.gcd_comm x), (Z.gcd_comm (x mod 30)). symmetry. rewrite Z.gcd_comm, Z.gcd_mod by lia. reflexivity. Qed.
Lemma w_gcd j : Z.gcd (w j) 30 = 1.
Proof. rewrite gcd30_mod. rewrite (proj2 (w_split j)). apply rmf_gcd, jmod. Qed.
Lemma w_surj x : 0 <= x -> Z.gcd x 30 = 1 -> exists j, 0 <= j /\ w j = x.
Proof.
  intros Hx G. rewrite gcd30_mod in G. destruct (rmf_surj (x mod 30) ltac:(apply Z.mod_pos_bound; lia) G) as (t & Ht & E).
  exists (8 * (x / 30) + t). split; [pose proof (Z.div_pos x 30); lia|]. rewrite w_block by auto. rewrite E. symmetry. apply Z.div_mod. lia.
Qed.
Lemma gcd_mul_1 a b : Z.gcd a 30 = 1 -> Z.gcd b 30 = 1 -> Z.gcd (a * b) 30 = 1.
Proof. intros A B. apply Zgcd_1_rel_prime. apply rel_prime_sym. apply rel_prime_mult; apply rel_prime_sym; now apply Zgcd_1_rel_prime. Qed.
Lemma gcd_div_1 a b : (a | b) -> Z.gcd b 30 = 1 -> Z.gcd a 30 = 1.
Proof. intros D G. apply Zgcd_1_rel_prime. eapply rel_prime_div; [|exact D]. now apply Zgcd_1_rel_prime. Qed.
(* products *)
Definition pidx (i j : Z) : Z := 8 * (w i * w j / 30) + t2 OFFSET (i mod 8) (j mod 8).
Lemma prod_mod i j : (w i * w j) mod 30 = (rmf (i mod 8) * rmf (j mod 8)) mod 30.
Proof. rewrite Z.mul_mod by lia. now rewrite (proj2 (w_split i)), (proj2 (w_split j)). Qed.
Lemma pidx_ok i j : w (pidx i j) = w i * w j.
Proof.
  destruct (off_get (i mod 8) (j mod 8) (jmod i) (jmod j)) as (_ & B & _ & E). unfold pidx. rewrite w_block by auto. rewrite <- E, <- prod_mod. symmetry. apply Z.div_mod. lia.
Qed.
Lemma pidx_block i j : pidx i j / 8 = w i * w j / 30 /\ pidx i j mod 8 = t2 OFFSET (i mod 8) (j mod 8).
Proof.
  destruct (off_get (i mod 8) (j mod 8) (jmod i) (jmod j)) as (_ & B & _). unfold pidx. rewrite (Z.add_comm (8 * _)), (Z.mul_comm 8). rewrite Z.div_add, Z.mod_add by lia. rewrite Z.div_small, Z.mod_small by lia. lia.
Qed.
Lemma kr_step i j : w i * w (j + 1) / 30 = w i * w j / 30 + (i / 8 * drf (j mod 8) + t2 DF (i mod 8) (j mod 8)).
Proof.
  rewrite w_step. rewrite df_val by apply jmod. rewrite <- prod_mod. set (d := drf (j mod 8)).
  pose proof (Z.div_mod (w i * w j) 30 ltac:(lia)) as E. set (q := w i * w j / 30) in *. set (r := (w i * w j) mod 30) in *.
  replace (w i * (w j + d)) with (r + rmf (i mod 8) * d + (q + i / 8 * d) * 30).
  - rewrite Z.div_add by lia. ring.
  - clearbody q r d. assert (Wi : w i = 30 * (i / 8) + rmf (i mod 8)) by reflexivity. rewrite Z.mul_add_distr_l, E, Wi. ring.
Qed.
Lemma kr_start kp mp : 0 <= mp < 8 -> kp * (30 * kp + 2 * rmf mp) + Z.quot (rmf mp * rmf mp) 30 = w (8 * kp + mp) * w (8 * kp + mp) / 30.
Proof.
  intro H. rewrite w_block by auto. pose proof (rmf_range mp H). rewrite Z.quot_div_nonneg by nia.
  replace ((30 * kp + rmf mp) * (30 * kp + rmf mp)) with (rmf mp * rmf mp + kp * (30 * kp + 2 * rmf mp) * 30) by ring. rewrite Z.div_add by lia. lia.
Qed.
(* primes and the wheel *)
Lemma prime_gcd30 p : prime p -> p <> 2 -> p <> 3 -> p <> 5 -> Z.gcd p 30 = 1.
Proof.
  intros P N2 N3 N5. apply Zgcd_1_rel_prime. apply prime_rel_prime; auto. intro D.
  change 30 with (2 * (3 * 5)) in D. pose proof (prime_ge_2 p P).
  apply prime_mult in D; auto. destruct D as [D|D]; [apply (prime_div_prime p 2 P prime_2) in D; lia|].
  apply prime_mult in D; auto. destruct D as [D|D].
  - apply (prime_div_prime p 3 P prime_3) in D. lia.
  - assert (p <= 5) by (apply Z.divide_pos_le; auto; lia). assert (p = 4) by lia. subst p. destruct D as (z & D). lia.
Qed.
Lemma prime_index p : prime p -> Z.gcd p 30 = 1 -> exists t, 1 <= t /\ w t = p.
Proof.
  intros P G. pose proof (prime_ge_2 p P). destruct (w_surj p ltac:(lia) G) as (t & Ht & E). exists t. split; auto. destruct (Z.eq_dec t 0) as [->|]; [|lia]. change (w 0) with 1 in E. lia.
Qed.
Definition cmark (i x : Z) : bool := (x =? 0) || existsb (fun t => primeb (w t) && (w x mod w t =? 0) && (w t * w t <=? w x)) (span 1 i).
Lemma cmark_prime lim x : 0 <= x -> (forall p, prime p -> (p | w x) -> p * p <= w x -> p < w lim) -> cmark lim x = negb (primeb (w x)).
Proof.
  intros Hx HL. apply Bool.eq_true_iff_eq. unfold cmark. rewrite Bool.orb_true_iff, Bool.negb_true_iff, primeb_false, Z.eqb_eq, existsb_exists. split.
  - intros [->|(t & I & E)]; [change (w 0) with 1; apply not_prime_1|]. apply span_in in I. rewrite !Bool.andb_true_iff, primeb_spec, Z.eqb_eq, Z.leb_le in E. destruct E as ((P & D) & L).
    pose proof (w_ge7 t ltac:(lia)). intro Q. assert (D' : (w t | w x)) by (apply Z.mod_divide; auto; lia). apply (prime_div_prime _ _ P Q) in D'. rewrite D' in *. nia.
  - intro NP. destruct (Z.eq_dec x 0) as [|Nx]; [now left|right]. pose proof (w_ge7 x ltac:(lia)). destruct (lpf_ok (w x) ltac:(lia)) as (A & B & C & D).
    destruct (prime_index (lpf (w x)) D) as (t & Ht & Et); [apply (gcd_div_1 _ (w x)); auto; apply w_gcd|].
    assert (M : w x mod lpf (w x) = 0) by (apply Z.mod_divide; auto; lia). pose proof (div_exact_ (lpf (w x)) (w x) ltac:(lia) M) as E. set (q := w x / lpf (w x)) in *.
    assert (L : lpf (w x) * lpf (w x) <= w x).
    { destruct (Z.eq_dec q 1) as [->|Nq]; [exfalso; apply NP; rewrite E, Z.mul_1_r; exact D|]. assert (2 <= q) by nia. assert (lpf (w x) <= q) by (apply C; auto; exists (lpf (w x)); lia). nia. }
    exists t. split; [apply span_in; split; auto; specialize (HL _ D B L); rewrite <- Et in HL; destruct (Z.le_gt_cases lim t) as [G|]; [apply w_le_iff in G; lia|lia]|].
    rewrite !Bool.andb_true_iff, primeb_spec, Z.eqb_eq, Z.leb_le, Et. auto.
Qed.
Lemma cmark_self i : 1 <= i -> cmark i i = negb (primeb (w i)).
Proof. intro Hi. apply cmark_prime; [lia|]. intros p P D L. pose proof (prime_ge_2 p P). nia. Qed.
Lemma cmark_S i x : 1 <= i -> cmark (i + 1) x = cmark i x || (primeb (w i) && (w x mod w i =? 0) && (w i * w i <=? w x)).
Proof. intro Hi. unfold cmark. rewrite (span_app 1 i (i + 1)) by lia. rewrite span_one, existsb_app. cbn [existsb]. rewrite Bool.orb_false_r. apply Bool.orb_assoc. Qed.
(* what one pass over q = w i, w (i+1), ..., w (J-1) marks *)
Definition pmark (i J x : Z) : bool := (w x mod w i =? 0) && (w i * w i <=? w x) && (w x <? w i * w J).
Lemma pmark_start i x : 0 <= i -> pmark i i x = false.
Proof. intro Hi. unfold pmark. destruct (Z.leb_spec (w i * w i) (w x)); destruct (Z.ltb_spec (w x) (w i * w i)); rewrite ?Bool.andb_false_r; auto; lia. Qed.
Lemma pmark_step i J x : 0 <= i <= J -> 0 <= x -> pmark i (J + 1) x = pmark i J x || (x =? pidx i J).
Proof.
  intros Hi Hx. pose proof (w_pos i ltac:(lia)). apply Bool.eq_true_iff_eq. unfold pmark. rewrite Bool.orb_true_iff, !Bool.andb_true_iff, !Z.eqb_eq, !Z.leb_le, !Z.ltb_lt. split.
  - intros ((D & L) & U). destruct (Z.lt_ge_cases (w x) (w i * w J)); [left; auto|right]. apply w_inj. rewrite pidx_ok.
    pose proof (div_exact_ (w i) (w x) ltac:(lia) D) as E. set (q := w x / w i) in *.
    destruct (w_surj q) as (j & Hj & Ej); [nia|apply (gcd_div_1 q (w x)); [exists (w i); lia|apply w_gcd]|]. rewrite <- Ej in E. rewrite E in *.
    assert (w J <= w j) by nia. assert (w j < w (J + 1)) by nia. apply (proj1 (w_le_iff J j)) in H1. assert (~ J + 1 <= j) by (rewrite <- w_le_iff; lia). now replace j with J by lia.
  - intros [((D & L) & U)|E].
    + split; auto. pose proof (w_lt J (J + 1) ltac:(lia)). nia.
    + subst x. rewrite pidx_ok. pose proof (w_lt J (J + 1) ltac:(lia)). assert (w i <= w J) by (apply w_le_iff; lia). split; [split|]; [|nia|nia]. rewrite Z.mul_comm. apply Z.mod_mul. lia.
Qed.
Lemma pmark_end i J x : w x < w i * w J -> pmark i J x = (w x mod w i =? 0) && (w i * w i <=? w x).
Proof. intro H. unfold pmark. rewrite (proj2 (Z.ltb_lt _ _) H). apply Bool.andb_true_r. Qed.
