From Verif Require Import Base BaseLemmas ZMod Seq ListZ RingSum Transform_model Transform_spec Kron_proof Kron_alg Naive_proof.
From Coq Require Import Ring.
Section KM.
  Context {T : Type}.
  Variables (r0 r1 : T) (add mul sub : T -> T -> T) (opp : T -> T).
  Hypothesis RT : ring_theory r0 r1 add mul sub opp (@eq T).
  Add Ring R5 : RT.
  Notation sum := (sum r0 add).
  Notation at_ := (at_ r0).
  Definition entry (A : list (list T)) r c := at_ (RingSum.at_ [] A r) c.
  Lemma mat_unit_for A D : 1 <= D -> zlen A = D -> (forall r, In r A -> zlen r = D) -> unit_for r0 add mul D (entry A) (mat_unit r0 add mul D A).
  Proof.
    intros HD LA HA w g Rw. unfold mat_unit. assert (R0 : rep (vrep D r0) D (fun _ => r0)) by (apply rep_vrep; lia).
    match goal with |- context [for_ ?lo ?hi ?bo ?st] => destruct (add_loop' _ _ _ _ _ _ RT D lo hi bo (fun i k => if i =? k then sum 0 D (fun j => mul (entry A i j) (g j)) else r0) st _ R0) as (y & E & R) end.
    - intros i c h Hi Rc.
      destruct (add_loop' _ _ _ _ _ _ RT D 0 D (fun j y => let* yi := vget y i in let* row := vget A i in let* a := vget row j in let* xj := vget w j in vset y i (add yi (mul a xj)))
        (fun j k => if i =? k then mul (entry A i j) (g j) else r0) c h Rc) as (c' & E & R).
      + intros j c2 h2 Hj R2. rewrite (rep_get _ _ _ _ R2) by lia. cbn [bind]. assert (RA : rep A (zlen A) (RingSum.at_ [] A)) by apply rep_at.
        rewrite (rep_get _ _ _ _ RA) by lia. cbn [bind]. assert (L : zlen (RingSum.at_ [] A i) = D).
        { apply HA. unfold RingSum.at_. pose proof (rep_get _ _ _ i RA ltac:(lia)) as G. eapply vget_In; exact G. }
        assert (RR : rep (RingSum.at_ [] A i) (zlen (RingSum.at_ [] A i)) (at_ (RingSum.at_ [] A i))) by apply rep_at.
        rewrite (rep_get _ _ _ _ RR) by lia. cbn [bind]. rewrite (rep_get _ _ _ _ Rw) by lia. cbn [bind]. rewrite (rep_set _ _ _ _ _ R2) by lia. eexists; split; [reflexivity|].
        eapply rep_ext; [apply rep_upd; [exact R2|lia]|]. intros k Hk. unfold fupd, entry. rewrite (Z.eqb_sym i k). destruct (Z.eqb_spec k i) as [->|]; ring.
      + exists c'. split; auto. eapply rep_ext; [exact R|]. intros k Hk. cbn beta. destruct (Z.eqb_spec i k); auto. f_equal. now apply (sum_zero _ _ _ _ _ _ RT).
    - exists y. split; auto. eapply rep_ext; [exact R|]. intros k Hk. cbn beta.
      transitivity (add r0 (sum 0 D (fun i => if i =? k then sum 0 D (fun j => mul (entry A i j) (g j)) else r0))); [reflexivity|].
      rewrite (sum_one _ _ _ _ _ _ RT 0 D k (fun i => sum 0 D (fun j => mul (entry A i j) (g j))) Hk). ring.
  Qed.
  Lemma entry_mod D A k : 2 <= D -> forall e, (Z.of_nat k <= e) -> forall i j, kron_entry r1 mul D A k (i mod D ^ e) (j mod D ^ e) = kron_entry r1 mul D A k i j.
  Proof.
    intros HD e He i j. induction k as [|k IH]; [reflexivity|]. cbn [kron_entry]. rewrite IH by lia. f_equal.
    assert (X : forall x, (x mod D ^ e / D ^ Z.of_nat k) mod D = (x / D ^ Z.of_nat k) mod D).
    { intro x. replace e with (Z.of_nat k + (1 + (e - Z.of_nat k - 1))) by lia. rewrite !Z.pow_add_r, Z.pow_1_r by lia.
      pose proof (Z.pow_pos_nonneg D (Z.of_nat k)). pose proof (Z.pow_pos_nonneg D (e - Z.of_nat k - 1)). set (b := D ^ Z.of_nat k) in *. set (c := D ^ (e - Z.of_nat k - 1)) in *.
      rewrite Z.rem_mul_r by nia. rewrite Z.mul_comm, Z.div_add by lia. rewrite Z.div_small by (apply Z.mod_pos_bound; lia). cbn [Z.add].
      rewrite (Z.rem_mul_r (x / b) D c) by lia. rewrite Z.mul_comm, Z.mod_add by lia. apply Z.mod_mod. lia. }
    now rewrite !X.
  Qed.
  Lemma kmat_entry D A k : 2 <= D -> forall i j, 0 <= i < D ^ Z.of_nat k -> 0 <= j < D ^ Z.of_nat k -> kmat r1 mul D A k i j = kron_entry r1 mul D A k i j.
  Proof.
    intros HD. induction k as [|k IH]; intros i j Hi Hj; [reflexivity|]. cbn [kmat kron_entry].
    destruct (digit D HD k i Hi), (digit D HD k j Hj). rewrite IH by auto. rewrite entry_mod by lia. now rewrite !(Z.mod_small (_ / _)) by auto.
  Qed.
  Lemma kron_mat_ok A x k : 2 <= zlen A -> (forall r, In r A -> zlen r = zlen A) -> zlen x = zlen A ^ Z.of_nat k ->
    kron_mat r0 add mul x A = Ok (kron_product r0 r1 add mul (zlen A) A k x).
  Proof.
    intros HD HA Hx. unfold kron_mat. assert (RA : rep A (zlen A) (RingSum.at_ [] A)) by apply rep_at.
    pose proof (rep_get _ _ _ 0 RA ltac:(lia)) as G. rewrite G. cbn [bind]. rewrite (HA _ (vget_In _ _ _ G)). rewrite Z.eqb_refl. cbn [assert_ bind].
    assert (Rx : rep x (zlen A ^ Z.of_nat k) (at_ x)) by (rewrite <- Hx; apply rep_at).
    destruct (kron_fun _ _ _ _ _ _ RT (zlen A) HD (entry A) _ k x _ (mat_unit_for A (zlen A) ltac:(lia) eq_refl HA) Rx) as (y & E & R).
    rewrite E. f_equal. rewrite (rep_map _ _ _ R). unfold kron_product, tabulate. rewrite Hx. apply map_ext_in. intros i Hi. apply In_zrange in Hi.
    unfold kfun. apply sum_ext. intros j Hj. rewrite kmat_entry by auto. reflexivity.
  Qed.
End KM.
