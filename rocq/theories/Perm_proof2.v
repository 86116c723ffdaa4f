(* PermutationHash *)
From Verif Require Import Base BaseLemmas ListZ ListMore BFS_proof Perm_spec Perm_model Perm_proof.
From Coq Require Import Permutation Factorial.

Definition agree (k : Z) (p p' : list Z) : Prop := forall j, 0 <= j < k -> dv p j = dv p' j.
Lemma fact_simpl n : fact (S n) = (S n * fact n)%nat. Proof. reflexivity. Qed.
Ltac upds := rewrite ?dv_zupd by (rewrite ?zlen_zupd; lia).
Ltac cases := repeat match goal with |- context [?a =? ?b] => destruct (Z.eqb_spec a b) end.

Section Hash.
  Variable n : Z.
  Definition hp (i : Z) (p q : list Z) := zupd p (dv q i) (dv p i).
  Definition hq (i : Z) (p q : list Z) := zupd q (dv p i) (dv q i).
  Lemma hash_step_ok h i p q : zlen p = n -> zlen q = n -> 0 <= i < n -> pq (i + 1) p q ->
    hash_step i (h, p, q) = Ok (h * (i + 1) + dv p i, hp i p q, hq i p q) /\ pq i (hp i p q) (hq i p q).
  Proof.
    intros Zp Zq Hi H. destruct (H i ltac:(lia)) as (A & B & C & D). split.
    - unfold hash_step. rewrite (vget_dv p) by lia. cbn [bind]. rewrite (vget_dv q) by lia. cbn [bind]. rewrite vset_ok by lia. cbn [bind]. rewrite vget_dv by (rewrite zlen_zupd; lia). cbn [bind].
      assert (E : dv (zupd p (dv q i) (dv p i)) i = dv p i) by (rewrite dv_zupd by lia; destruct (_ =? _); auto). rewrite E. rewrite vset_ok by lia. reflexivity.
    - intros j Hj. destruct (H j ltac:(lia)) as (A1 & B1 & C1 & D1). unfold hp, hq. rewrite !(dv_zupd _ _ _ j) by lia.
      assert (J : dv p j <> i \/ dv q i = j) by (destruct (Z.eq_dec (dv p j) i) as [E|]; [right; rewrite <- E; auto|auto]).
      assert (K : dv q j <> i \/ dv p i = j) by (destruct (Z.eq_dec (dv q j) i) as [E|]; [right; rewrite <- E; auto|auto]).
      assert (L : dv q i = i -> dv p i = i) by (intros E; rewrite E in D; auto).
      assert (M : dv p i = i -> dv q i = i) by (intros E; rewrite E in B; auto).
      assert (IP : dv p i <> dv p j) by (intros E; rewrite <- E, B in B1; lia).
      assert (IQ : dv q i <> dv q j) by (intros E; rewrite <- E, D in D1; lia).
      destruct (Z.eqb_spec (dv q i) j) as [Ej|Nj]; destruct (Z.eqb_spec (dv p i) j) as [Ek|Nk]; (repeat split); upds; cases; try lia; try congruence; try (exfalso; congruence).
  Qed.
  Definition up (i d : Z) (P Q : list Z) := zupd (zupd P i d) (dv Q d) i.
  Definition uq (i d : Z) (P Q : list Z) := zupd (zupd Q i (dv Q d)) d i.
  (* the arrays while unhashing: a permutation and its inverse up to i, then the identity *)
  Definition ust (i : Z) (P Q : list Z) : Prop := zlen P = n /\ zlen Q = n /\ pq i P Q /\ forall j, i <= j < n -> dv Q j = j.
  Lemma dlt i d P Q : ust i P Q -> 0 <= i < n -> 0 <= d <= i -> (d < i -> 0 <= dv Q d < i /\ dv P (dv Q d) = d) /\ (d = i -> dv Q d = i).
  Proof. intros (_ & _ & H & Id) Hi Hd. split; [intros; split; apply H; lia|]. intros ->. apply Id. lia. Qed.
  Lemma unhash_step_ok h i P Q : ust i P Q -> 0 <= i < n ->
    let d := h mod (i + 1) in unhash_step i (h, P, Q) = Ok (h / (i + 1), up i d P Q, uq i d P Q) /\ ust (i + 1) (up i d P Q) (uq i d P Q).
  Proof.
    intros U Hi d. assert (Hd : 0 <= d <= i) by (unfold d; pose proof (Z.mod_pos_bound h (i + 1)); lia). destruct (dlt i d P Q U Hi Hd) as (L & M). destruct U as (ZP & ZQ & H & Id).
    assert (Rx : 0 <= dv Q d <= i) by (destruct (Z.eq_dec d i) as [E|]; [rewrite (M E); lia|specialize (L ltac:(lia)); lia]). split.
    - unfold unhash_step. fold d. rewrite vset_ok by lia. cbn [bind]. rewrite vget_dv by (rewrite zlen_zupd; lia). cbn [bind]. rewrite dv_zupd, Z.eqb_refl by lia.
      rewrite vget_dv by lia. cbn [bind]. rewrite vset_ok by lia. cbn [bind]. rewrite vget_dv by (rewrite zlen_zupd; lia). cbn [bind]. rewrite dv_zupd, Z.eqb_refl by lia.
      rewrite vset_ok by (rewrite zlen_zupd; lia). cbn [bind]. rewrite vget_dv by (rewrite !zlen_zupd; lia). cbn [bind].
      assert (E : dv (zupd (zupd P i d) (dv Q d) i) i = d). { upds. rewrite Z.eqb_refl. destruct (Z.eqb_spec (dv Q d) i) as [E|]; auto. destruct (Z.eq_dec d i); auto. specialize (L ltac:(lia)). lia. }
      rewrite E. rewrite vset_ok by (rewrite zlen_zupd; lia). reflexivity.
    - split; [unfold up; now rewrite !zlen_zupd|]. split; [unfold uq; now rewrite !zlen_zupd|]. split.
      + intros j Hj. unfold up, uq. rewrite !(dv_zupd _ _ _ j) by (rewrite ?zlen_zupd; lia).
        destruct (Z.eq_dec d i) as [Ed|Nd].
        * rewrite (M Ed) in *. destruct (Z.eqb_spec i j) as [Ej|Nj].
          -- subst j. rewrite Ed, Z.eqb_refl. repeat split; upds; rewrite ?Z.eqb_refl; lia.
          -- destruct (H j ltac:(lia)) as (A1 & B1 & C1 & D1). rewrite (proj2 (Z.eqb_neq d j)) by lia. repeat split; upds; cases; try lia; congruence.
        * destruct (L ltac:(lia)) as (L1 & L2). destruct (Z.eq_dec j i) as [->|Nj].
          -- rewrite Z.eqb_refl. rewrite (proj2 (Z.eqb_neq (dv Q d) i)), (proj2 (Z.eqb_neq d i)) by lia. repeat split; upds; cases; try lia; congruence.
          -- rewrite (proj2 (Z.eqb_neq i j)) by lia. destruct (H j ltac:(lia)) as (A1 & B1 & C1 & D1).
             assert (J : dv P j = d -> dv Q d = j) by (intros <-; auto). destruct (H d ltac:(lia)) as (A2 & B2 & C2 & D2). assert (K : dv Q j = dv Q d -> j = d) by congruence.
             destruct (Z.eqb_spec (dv Q d) j) as [E1|N1]; destruct (Z.eqb_spec d j) as [E2|N2]; (repeat split); upds; cases; try lia; try congruence; exfalso; try (apply N1, J; congruence); try (apply N2; symmetry; apply K; congruence).
      + intros j Hj. unfold uq. upds. cases; try lia. apply Id. lia.
  Qed.
  Lemma round1 i p q P Q : zlen p = n -> zlen q = n -> 0 <= i < n -> pq (i + 1) p q -> ust i P Q -> agree i P (hp i p q) -> agree i Q (hq i p q) ->
    agree (i + 1) (up i (dv p i) P Q) p /\ agree (i + 1) (uq i (dv p i) P Q) q.
  Proof.
    intros Zp Zq Hi H U AP AQ. pose proof U as (ZP & ZQ & HU & Id). destruct (H i ltac:(lia)) as (A & B & C & D). destruct (dlt i (dv p i) P Q U Hi ltac:(lia)) as (L & M).
    assert (X : dv Q (dv p i) = dv q i). { destruct (Z.eq_dec (dv p i) i) as [E|]; [rewrite M by auto; rewrite E in B; auto|]. rewrite AQ by lia. unfold hq. rewrite dv_zupd, Z.eqb_refl by lia. auto. }
    split; intros j Hj.
    - unfold up. rewrite X. upds. destruct (Z.eqb_spec (dv q i) j) as [<-|N1]; [auto|]. destruct (Z.eqb_spec i j) as [<-|N2]; auto. rewrite AP by lia. unfold hp. upds. rewrite (proj2 (Z.eqb_neq _ _)) by auto. auto.
    - unfold uq. rewrite X. upds. destruct (Z.eqb_spec (dv p i) j) as [<-|N1]; [auto|]. destruct (Z.eqb_spec i j) as [<-|N2]; auto. rewrite AQ by lia. unfold hq. upds. rewrite (proj2 (Z.eqb_neq _ _)) by auto. auto.
  Qed.
  Lemma round2 i d p q P Q : zlen p = n -> zlen q = n -> 0 <= i < n -> ust i P Q -> 0 <= d <= i -> agree (i + 1) p (up i d P Q) -> agree (i + 1) q (uq i d P Q) ->
    dv p i = d /\ agree i (hp i p q) P /\ agree i (hq i p q) Q.
  Proof.
    intros Zp Zq Hi U Hd AP AQ. pose proof U as (ZP & ZQ & HU & Id). destruct (dlt i d P Q U Hi Hd) as (L & M).
    assert (Rx : 0 <= dv Q d <= i) by (destruct (Z.eq_dec d i) as [E|]; [rewrite (M E); lia|specialize (L ltac:(lia)); lia]).
    assert (X : dv p i = d). { rewrite AP by lia. unfold up. upds. rewrite Z.eqb_refl. destruct (Z.eqb_spec (dv Q d) i); auto. destruct (Z.eq_dec d i); auto. specialize (L ltac:(lia)). lia. }
    assert (Y : dv q i = dv Q d). { rewrite AQ by lia. unfold uq. upds. rewrite Z.eqb_refl. destruct (Z.eqb_spec d i) as [E|]; auto. now rewrite (M E). }
    split; auto. split; intros j Hj.
    - unfold hp. rewrite X, Y. upds. destruct (Z.eqb_spec (dv Q d) j) as [<-|N]; [symmetry; apply L; destruct (Z.eq_dec d i) as [E|]; [rewrite (M E) in Hj; lia|lia]|]. rewrite AP by lia. unfold up. upds. rewrite !(proj2 (Z.eqb_neq _ _)) by lia. auto.
    - unfold hq. rewrite X, Y. upds. destruct (Z.eqb_spec d j) as [<-|N]; [auto|]. rewrite AQ by lia. unfold uq. upds. rewrite !(proj2 (Z.eqb_neq _ _)) by lia. auto.
  Qed.
  Lemma agree_trans k a b c : agree k a b -> agree k b c -> agree k a c.
  Proof. intros H1 H2 j Hj. rewrite H1 by auto. auto. Qed.
  Lemma pq_agree k p q p' q' : agree k p p' -> agree k q q' -> pq k p' q' -> pq k p q.
  Proof.
    intros A B H j Hj. destruct (H j Hj) as (X & Y & Z & W). rewrite (A j Hj), (B j Hj). split; auto. split; [rewrite B; auto|]. split; auto. rewrite A; auto.
  Qed.
  Lemma ust0 : 0 <= n -> ust 0 (perm_id n) (perm_id n).
  Proof.
    intros N0. unfold perm_id. split; [now apply zlen_zrange|]. split; [now apply zlen_zrange|]. split; [intros j Hj; lia|]. intros j Hj.
    assert (E : vget (zrange n) j = Ok (dv (zrange n) j)) by (apply vget_dv; rewrite zlen_zrange; lia). rewrite vget_zrange in E by auto. congruence.
  Qed.
  Lemma hash_unhash k : Z.of_nat k <= n -> forall h0 p q, zlen p = n -> zlen q = n -> 0 <= h0 -> pq (Z.of_nat k) p q ->
    exists h p' q', for_dn k (Z.of_nat k - 1) hash_step (h0, p, q) = Ok (h, p', q') /\ 0 <= h < (h0 + 1) * Z.of_nat (fact k) /\
      exists P Q, for_up k 0 unhash_step (h, perm_id n, perm_id n) = Ok (h0, P, Q) /\ ust (Z.of_nat k) P Q /\ agree (Z.of_nat k) P p /\ agree (Z.of_nat k) Q q.
  Proof.
    induction k as [|k IH]; intros Lk h0 p q Zp Zq H0 H.
    - exists h0, p, q. cbn [for_dn for_up fact]. split; auto. split; [lia|]. exists (perm_id n), (perm_id n). split; auto. split; [apply ust0; lia|]. split; intros j Hj; lia.
    - cbn [for_dn]. replace (Z.of_nat (S k) - 1) with (Z.of_nat k) by lia. replace (Z.of_nat (S k)) with (Z.of_nat k + 1) in * by lia. destruct (hash_step_ok h0 (Z.of_nat k) p q Zp Zq ltac:(lia) H) as (E & H'). rewrite E. cbn [bind].
      destruct (H (Z.of_nat k) ltac:(lia)) as (Rd & _).
      destruct (IH ltac:(lia) (h0 * (Z.of_nat k + 1) + dv p (Z.of_nat k)) (hp (Z.of_nat k) p q) (hq (Z.of_nat k) p q)) as (h & p' & q' & E2 & B & P & Q & E3 & U & AP & AQ); auto; [unfold hp; now rewrite zlen_zupd|unfold hq; now rewrite zlen_zupd|nia|].
      exists h, p', q'. split; auto. split; [rewrite fact_simpl; nia|].
      replace (S k) with (k + 1)%nat by lia. rewrite for_up_snoc, E3. cbn [bind]. rewrite Z.add_0_l. destruct (unhash_step_ok (h0 * (Z.of_nat k + 1) + dv p (Z.of_nat k)) (Z.of_nat k) P Q U ltac:(lia)) as (E4 & U').
      assert (Ed : (h0 * (Z.of_nat k + 1) + dv p (Z.of_nat k)) mod (Z.of_nat k + 1) = dv p (Z.of_nat k)) by (rewrite Z.add_comm, Z.mod_add, Z.mod_small by lia; auto).
      assert (Eh : (h0 * (Z.of_nat k + 1) + dv p (Z.of_nat k)) / (Z.of_nat k + 1) = h0) by (rewrite Z.add_comm, Z.div_add, Z.div_small by lia; lia).
      rewrite Ed, Eh in E4. rewrite Ed in U'. eexists _, _. split; [exact E4|]. split; auto. apply round1; auto. lia.
  Qed.
  Lemma unhash_hash k : Z.of_nat k <= n -> forall h, 0 <= h ->
    exists h1 P Q, for_up k 0 unhash_step (h, perm_id n, perm_id n) = Ok (h1, P, Q) /\ ust (Z.of_nat k) P Q /\ 0 <= h1 /\ h1 * Z.of_nat (fact k) <= h /\
      forall p q, zlen p = n -> zlen q = n -> agree (Z.of_nat k) p P -> agree (Z.of_nat k) q Q -> exists p' q', for_dn k (Z.of_nat k - 1) hash_step (h1, p, q) = Ok (h, p', q').
  Proof.
    induction k as [|k IH]; intros Lk h Hh.
    - exists h, (perm_id n), (perm_id n). cbn [for_up for_dn fact]. split; auto. split; [apply ust0; lia|]. split; auto. split; [lia|]. eauto.
    - destruct (IH ltac:(lia) h Hh) as (h1 & P & Q & E & U & Hh1 & B & Back). replace (S k) with (k + 1)%nat by lia. rewrite for_up_snoc, E. cbn [bind]. rewrite Z.add_0_l.
      destruct (unhash_step_ok h1 (Z.of_nat k) P Q U ltac:(lia)) as (E4 & U'). replace (Z.of_nat (k + 1)) with (Z.of_nat k + 1) by lia. eexists _, _, _. split; [exact E4|]. split; auto.
      pose proof (Z.mod_pos_bound h1 (Z.of_nat k + 1) ltac:(lia)) as Md. pose proof (Z.div_mod h1 (Z.of_nat k + 1) ltac:(lia)) as Dm. assert (D0 : 0 <= h1 / (Z.of_nat k + 1)) by (apply Z.div_pos; lia). split; auto. split.
      + rewrite Nat.add_1_r, fact_simpl. set (f := fact k) in *. assert (h1 / (Z.of_nat k + 1) * (Z.of_nat k + 1) <= h1) by lia. nia.
      + intros p q Zp Zq AP AQ. rewrite Nat.add_1_r. cbn [for_dn]. replace (Z.of_nat k + 1 - 1) with (Z.of_nat k) by lia.
        destruct (round2 (Z.of_nat k) (h1 mod (Z.of_nat k + 1)) p q P Q Zp Zq ltac:(lia) U ltac:(lia) AP AQ) as (Ed & A1 & A2).
        destruct (hash_step_ok (h1 / (Z.of_nat k + 1)) (Z.of_nat k) p q Zp Zq ltac:(lia)) as (Es & _); [eapply pq_agree; [exact AP|exact AQ|apply U']|].
        rewrite Es. cbn [bind]. rewrite Ed. replace (h1 / (Z.of_nat k + 1) * (Z.of_nat k + 1) + h1 mod (Z.of_nat k + 1)) with h1 by lia. apply Back; auto; [unfold hp|unfold hq]; now rewrite zlen_zupd.
  Qed.
End Hash.
Lemma agree_eq (a b : list Z) : zlen a = zlen b -> agree (zlen a) a b -> a = b.
Proof. intros Z A. apply list_eq; auto. intros i Hi. rewrite !vget_dv by lia. now rewrite A. Qed.
Lemma hash_ok p : is_perm p -> exists h, perm_hash p = Ok h /\ 0 <= h < Z.of_nat (fact (length p)) /\ perm_unhash (zlen p) h = Ok p.
Proof.
  intros HP. destruct (inv_pq p HP) as (q & Eq & Zq & H). unfold perm_hash. rewrite Eq. cbn [bind].
  destruct (hash_unhash (zlen p) (length p) ltac:(unfold zlen; lia) 0 p q eq_refl Zq ltac:(lia) H) as (h & p' & q' & E & B & P & Q & E2 & (ZP & _) & AP & _).
  unfold ford_. replace (Z.to_nat (zlen p - 1 - -1)) with (length p) by (unfold zlen; lia). change (Z.of_nat (length p)) with (zlen p) in *. rewrite E. cbn [bind]. exists h. split; auto. split; [lia|].
  unfold perm_unhash, for_. rewrite Z.sub_0_r. replace (Z.to_nat (zlen p)) with (length p) by (unfold zlen; lia). rewrite E2. cbn [bind]. f_equal. apply agree_eq; auto. now rewrite ZP.
Qed.
Lemma unhash_ok n h : 0 <= n -> 0 <= h < Z.of_nat (fact (Z.to_nat n)) -> exists p, perm_unhash n h = Ok p /\ zlen p = n /\ is_perm p /\ perm_hash p = Ok h.
Proof.
  intros N0 Hh. destruct (unhash_hash n (Z.to_nat n) ltac:(lia) h ltac:(lia)) as (h1 & P & Q & E & (ZP & ZQ & HU & _) & H1 & B & Back). rewrite Z2Nat.id in * by auto.
  unfold perm_unhash, for_. rewrite Z.sub_0_r, E. cbn [bind]. exists P. split; auto. split; auto. assert (IP : is_perm P) by (eapply pq_perm; eauto). split; auto.
  destruct (inv_pq P IP) as (q & Eq & Zq & H). unfold perm_hash. rewrite Eq. cbn [bind]. rewrite ZP in *.
  assert (h1 = 0) by nia. subst h1.
  assert (q = Q). { apply agree_eq; [lia|]. rewrite Zq. intros j Hj. destruct (HU j Hj) as (A1 & A2 & A3 & A4). destruct (H (dv Q j) A3) as (_ & B2 & _). rewrite A4 in B2. auto. }
  subst q. destruct (Back P Q ZP ZQ) as (p' & q' & E3); [intros j Hj; auto|intros j Hj; auto|]. unfold ford_. replace (n - 1 - -1) with n by lia. rewrite E3. reflexivity.
Qed.
Lemma perm_eq (a b : list Z) : zlen a = zlen b -> (forall i, 0 <= i < zlen a -> vget a i = vget b i) -> a = b.
Proof. intros. now apply list_eq. Qed.
Lemma mul_ok p q : is_perm p -> is_perm q -> zlen p = zlen q ->
  exists r, perm_mul p q = Ok r /\ is_perm r /\ zlen r = zlen p /\ forall i, 0 <= i < zlen p -> vget r i = (let* j := vget q i in vget p j).
Proof.
  intros P Q Z. destruct (permute_ok 0 q p Q Z) as (r & E & Zr & H). exists r. split; auto. rewrite Z in *. split; [|auto].
  apply perm_inj in P as (RP & IP). apply perm_inj in Q as (RQ & IQ). rewrite Z in *. assert (D : forall i, 0 <= i < zlen q -> dv r i = dv p (dv q i)).
  { intros i Hi. specialize (H i Hi). rewrite !vget_dv in H by lia. cbn [bind] in H. rewrite vget_dv in H by (rewrite Z; auto). congruence. }
  apply perm_inj. rewrite <- Zr in *. split.
  - intros i Hi. rewrite D by auto. auto.
  - intros i j Hi Hj Eq. rewrite !D in Eq by auto. apply IP in Eq; auto.
Qed.
Lemma mul_assoc p q r : is_perm p -> is_perm q -> is_perm r -> zlen p = zlen q -> zlen q = zlen r ->
  (let* a := perm_mul p q in perm_mul a r) = (let* b := perm_mul q r in perm_mul p b).
Proof.
  intros P Q R Z1 Z2. destruct (mul_ok p q P Q Z1) as (a & Ea & Pa & Za & Ha). destruct (mul_ok q r Q R Z2) as (b & Eb & Pb & Zb & Hb). rewrite Ea, Eb. cbn [bind].
  destruct (mul_ok a r Pa R) as (x & Ex & Px & Zx & Hx); [lia|]. destruct (mul_ok p b P Pb) as (y & Ey & Py & Zy & Hy); [lia|]. rewrite Ex, Ey. f_equal. apply perm_eq; [lia|].
  intros i Hi. rewrite Hx, Hy, Hb by lia. apply perm_inj in R as (RR & _). rewrite vget_dv by lia. cbn [bind]. rewrite Ha by (pose proof (RR i); lia). auto.
Qed.
Lemma vget_id n i : 0 <= i < n -> vget (perm_id n) i = Ok i. Proof. apply vget_zrange. Qed.
Lemma inv_ok p : is_perm p -> exists q, perm_inv p = Ok q /\ is_perm q /\ zlen q = zlen p /\ perm_mul p q = Ok (perm_id (zlen p)) /\ perm_mul q p = Ok (perm_id (zlen p)).
Proof.
  intros P. destruct (inv_pq p P) as (q & E & Zq & H). exists q. split; auto. assert (Q : is_perm q) by (eapply pq_perm2; eauto). split; auto. split; auto.
  destruct (mul_ok p q P Q) as (a & Ea & _ & Za & Ha); [lia|]. destruct (mul_ok q p Q P) as (b & Eb & _ & Zb & Hb); [lia|]. rewrite Ea, Eb.
  pose proof (zlen_zrange (zlen p) (zlen_nonneg p)) as Zr. unfold perm_id. split; f_equal; (apply perm_eq; [lia|]); intros i Hi.
  - rewrite Ha by lia. rewrite vget_zrange by lia. rewrite vget_dv by lia. cbn [bind]. destruct (H i ltac:(lia)) as (_ & _ & A & B). rewrite vget_dv by lia. now rewrite B.
  - rewrite Hb by lia. rewrite vget_zrange by lia. rewrite vget_dv by lia. cbn [bind]. destruct (H i ltac:(lia)) as (A & B & _). rewrite vget_dv by lia. now rewrite B.
Qed.
