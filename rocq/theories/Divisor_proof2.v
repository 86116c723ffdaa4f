From Verif Require Import Base BaseLemmas ZMod Seq ListZ RingSum Smooth Transform_model Transform_spec Kron_proof Kron_alg Divisor_proof.
From Coq Require Import Ring Znumtheory.

Lemma over_small {T} N step (f : list T) : N <= 2 -> over_primes N step f = Ok f.
Proof. intro H. unfold over_primes, for_. replace (Z.to_nat (N - 2)) with O by lia. reflexivity. Qed.
Section Fin.
  Context {T : Type}.
  Variables (r0 r1 : T) (add mul sub : T -> T -> T) (opp : T -> T).
  Hypothesis RT : ring_theory r0 r1 add mul sub opp (@eq T).
  Add Ring R3 : RT.
  Notation sum := (sum r0 add).
  Notation at_ := (at_ r0).
  Notation Dsum := (Dsum r0 add).
  Notation Msum := (Msum r0 add).
  Lemma dz N f (a : list T) : rep a N f -> exists b, divisor_zeta add a = Ok b /\ rep b N (Dsum N f all).
  Proof.
    intro Ra. destruct (Z.le_gt_cases 2 N); [eapply dz_ok; eauto|]. unfold divisor_zeta. rewrite (proj1 Ra), over_small by lia. exists a. split; auto.
    eapply rep_ext; [exact Ra|]. intros m Hm. now replace m with 0 by lia.
  Qed.
  Lemma mz N f (a : list T) : rep a N f -> exists b, multiple_zeta add a = Ok b /\ rep b N (Msum N f all).
  Proof.
    intro Ra. destruct (Z.le_gt_cases 2 N); [eapply mz_ok; eauto|]. unfold multiple_zeta. rewrite (proj1 Ra), over_small by lia. exists a. split; auto.
    eapply rep_ext; [exact Ra|]. intros m Hm. now replace m with 0 by lia.
  Qed.
  Lemma dm N f (a : list T) : rep a N (Dsum N f all) -> exists b, divisor_mobius sub a = Ok b /\ rep b N f.
  Proof.
    intro Ra. destruct (Z.le_gt_cases 2 N); [eapply dm_ok; eauto|]. unfold divisor_mobius. rewrite (proj1 Ra), over_small by lia. exists a. split; auto.
    eapply rep_ext; [exact Ra|]. intros m Hm. now replace m with 0 by lia.
  Qed.
  Lemma mm N f (a : list T) : rep a N (Msum N f all) -> exists b, multiple_mobius sub a = Ok b /\ rep b N f.
  Proof.
    intro Ra. destruct (Z.le_gt_cases 2 N); [eapply mm_ok; eauto|]. unfold multiple_mobius. rewrite (proj1 Ra), over_small by lia. exists a. split; auto.
    eapply rep_ext; [exact Ra|]. intros m Hm. now replace m with 0 by lia.
  Qed.
  Lemma sum_fupd N c f M x : 1 <= M < N -> c M = true ->
    sum 1 N (fun d => if c d : bool then fupd f M x d else r0) = add (sum 1 N (fun d => if c d then fupd f M r0 d else r0)) x.
  Proof.
    intros HM Hc. transitivity (add (sum 1 N (fun d => if c d then fupd f M r0 d else r0)) (sum 1 N (fun d => if d =? M then x else r0))).
    2:{ f_equal. apply (sum_one _ _ _ _ _ _ RT 1 N M (fun _ => x) HM). }
    rewrite <- (sum_add _ _ _ _ _ _ RT). apply sum_ext. intros d Hd. unfold fupd.
    destruct (Z.eqb_spec d M) as [->|]; [rewrite Hc; ring|]. destruct (c d); ring.
  Qed.
  Lemma preD N g : exists f, forall n, 0 <= n < N -> Dsum N f all n = g n.
  Proof.
    assert (X : forall M, 0 <= M -> M <= N -> exists f, f 0 = g 0 /\ forall n, 0 <= n < M -> Dsum N f all n = g n).
    { refine (natlike_ind _ _ _).
      - intros _. exists g. split; auto. intros; lia.
      - intros M HM IH HN. destruct (IH ltac:(lia)) as (f & F0 & F). destruct (Z.eq_dec M 0) as [->|NM].
        { exists f. split; auto. intros n Hn. replace n with 0 by lia. exact F0. }
        exists (fupd f M (sub (g M) (sum 1 N (fun d => if (M mod d =? 0) && all (M / d) then fupd f M r0 d else r0)))).
        split; [unfold fupd; rewrite (proj2 (Z.eqb_neq 0 M)) by lia; exact F0|]. intros n Hn. unfold Divisor_proof.Dsum. destruct (Z.eqb_spec n 0) as [->|Nn].
        { unfold fupd. rewrite (proj2 (Z.eqb_neq 0 M)) by lia; exact F0. }
        destruct (Z.eq_dec n M) as [->|NnM].
        + rewrite (sum_fupd N (fun d => (M mod d =? 0) && all (M / d))); [ring|lia|]. now rewrite Z.mod_same by lia.
        + rewrite <- (F n) by lia. unfold Divisor_proof.Dsum. rewrite (proj2 (Z.eqb_neq n 0)) by lia. apply sum_ext. intros d Hd. unfold fupd.
          destruct (Z.eqb_spec d M) as [->|]; auto. rewrite Z.mod_small by lia. now rewrite (proj2 (Z.eqb_neq n 0)) by lia. }
    destruct (Z.le_gt_cases 0 N); [|exists g; intros; lia]. destruct (X N) as (f & _ & F); auto; try lia. exists f. auto.
  Qed.
  Lemma preM N g : exists f, forall n, 0 <= n < N -> Msum N f all n = g n.
  Proof.
    assert (X : forall k, 0 <= k -> k <= N - 1 -> exists f, f 0 = g 0 /\ forall n, N - k <= n < N -> Msum N f all n = g n).
    { refine (natlike_ind _ _ _).
      - intros _. exists g. split; auto. intros; lia.
      - intros k Hk IH HN. destruct (IH ltac:(lia)) as (f & F0 & F). set (M := N - Z.succ k) in *. assert (1 <= M) by lia.
        exists (fupd f M (sub (g M) (sum 1 N (fun d => if (d mod M =? 0) && all (d / M) then fupd f M r0 d else r0)))).
        split; [unfold fupd; rewrite (proj2 (Z.eqb_neq 0 M)) by lia; exact F0|]. intros n Hn. unfold Divisor_proof.Msum. destruct (Z.eqb_spec n 0) as [->|Nn]; [lia|].
        destruct (Z.eq_dec n M) as [->|NnM].
        + rewrite (sum_fupd N (fun d => (d mod M =? 0) && all (d / M))); [ring|lia|]. now rewrite Z.mod_same by lia.
        + rewrite <- (F n) by lia. unfold Divisor_proof.Msum. rewrite (proj2 (Z.eqb_neq n 0)) by lia. apply sum_ext. intros d Hd. unfold fupd.
          destruct (Z.eqb_spec d M) as [->|]; auto. rewrite Z.mod_small by lia. now rewrite (proj2 (Z.eqb_neq M 0)) by lia. }
    destruct (Z.le_gt_cases 1 N); [|exists g; intros; lia]. destruct (X (N - 1)) as (f & F0 & F); try lia. exists f. intros n Hn.
    destruct (Z.eq_dec n 0) as [->|]; [exact F0|apply F; lia].
  Qed.
  Lemma rep_self (a : list T) : rep a (zlen a) (at_ a). Proof. apply rep_at. Qed.
  Lemma divisor_zeta_ok a : divisor_zeta add a = Ok (divisor_sums r0 add a).
  Proof.
    destruct (dz _ _ _ (rep_self a)) as (b & E & R). rewrite E. f_equal. rewrite (rep_map _ _ _ R). apply map_ext_in. intros i Hi. unfold Divisor_proof.Dsum.
    destruct (i =? 0); auto. apply sum_ext. intros d Hd. unfold all. rewrite Bool.andb_true_r. reflexivity.
  Qed.
  Lemma multiple_zeta_ok a : multiple_zeta add a = Ok (multiple_sums r0 add a).
  Proof.
    destruct (mz _ _ _ (rep_self a)) as (b & E & R). rewrite E. f_equal. rewrite (rep_map _ _ _ R). apply map_ext_in. intros i Hi. unfold Divisor_proof.Msum.
    destruct (i =? 0); auto. apply sum_ext. intros d Hd. unfold all. rewrite Bool.andb_true_r. reflexivity.
  Qed.
  Lemma divisor_inverse a : (let* y := divisor_zeta add a in divisor_mobius sub y) = Ok a /\ (let* y := divisor_mobius sub a in divisor_zeta add y) = Ok a.
  Proof.
    split.
    - destruct (dz _ _ _ (rep_self a)) as (b & E & R). rewrite E. cbn [bind]. destruct (dm _ _ _ R) as (c & E2 & R2). rewrite E2. f_equal. eapply rep_eq; [exact R2|apply rep_self].
    - destruct (preD (zlen a) (at_ a)) as (f & F). assert (Ra : rep a (zlen a) (Dsum (zlen a) f all)) by (eapply rep_ext; [apply rep_self|]; intros; symmetry; now apply F).
      destruct (dm _ _ _ Ra) as (c & E2 & R2). rewrite E2. cbn [bind]. destruct (dz _ _ _ R2) as (b & E & R). rewrite E. f_equal. eapply rep_eq; eauto.
  Qed.
  Lemma multiple_inverse a : (let* y := multiple_zeta add a in multiple_mobius sub y) = Ok a /\ (let* y := multiple_mobius sub a in multiple_zeta add y) = Ok a.
  Proof.
    split.
    - destruct (mz _ _ _ (rep_self a)) as (b & E & R). rewrite E. cbn [bind]. destruct (mm _ _ _ R) as (c & E2 & R2). rewrite E2. f_equal. eapply rep_eq; [exact R2|apply rep_self].
    - destruct (preM (zlen a) (at_ a)) as (f & F). assert (Ra : rep a (zlen a) (Msum (zlen a) f all)) by (eapply rep_ext; [apply rep_self|]; intros; symmetry; now apply F).
      destruct (mm _ _ _ Ra) as (c & E2 & R2). rewrite E2. cbn [bind]. destruct (mz _ _ _ R2) as (b & E & R). rewrite E. f_equal. eapply rep_eq; eauto.
  Qed.
  (* convolutions *)
  Definition aconv OP N (g h : Z -> T) (k : Z) : T :=
    if k =? 0 then mul (g 0) (h 0) else sum 1 N (fun i => sum 1 N (fun j => if OP i j =? k then mul (g i) (h j) else r0)).
  Lemma aconv_gen OP N g h (W : Z -> Z -> bool) s :
    (forall i j, 1 <= i < N -> 1 <= j < N -> W (OP i j) s = W i s && W j s) ->
    (forall i j, 1 <= i < N -> 1 <= j < N -> W (OP i j) s = true -> 1 <= OP i j < N) ->
    sum 1 N (fun k => if W k s then sum 1 N (fun i => sum 1 N (fun j => if OP i j =? k then mul (g i) (h j) else r0)) else r0) =
    mul (sum 1 N (fun i => if W i s then g i else r0)) (sum 1 N (fun j => if W j s then h j else r0)).
  Proof.
    intros H1 H2. rewrite (sum_mul _ _ _ _ _ _ RT).
    transitivity (sum 1 N (fun k => sum 1 N (fun i => sum 1 N (fun j => if OP i j =? k then (if W k s then mul (g i) (h j) else r0) else r0)))).
    { apply sum_ext. intros k Hk. destruct (W k s); auto. symmetry. apply (sum_zero _ _ _ _ _ _ RT). intros i Hi. apply (sum_zero _ _ _ _ _ _ RT). intros j Hj. destruct (OP i j =? k); auto. }
    rewrite (sum_swap _ _ _ _ _ _ RT). apply sum_ext. intros i Hi. rewrite (sum_swap _ _ _ _ _ _ RT). apply sum_ext. intros j Hj. specialize (H1 i j Hi Hj). specialize (H2 i j Hi Hj).
    destruct (W (OP i j) s) eqn:E.
    - assert (W i s = true /\ W j s = true) as (-> & ->) by (apply Bool.andb_true_iff; congruence).
      transitivity (if W (OP i j) s then mul (g i) (h j) else r0); [|now rewrite E].
      rewrite <- (sum_one _ _ _ _ _ _ RT 1 N (OP i j) (fun k => if W k s then mul (g i) (h j) else r0)) by auto.
      apply sum_ext. intros k Hk. rewrite Z.eqb_sym. destruct (k =? OP i j); auto.
    - transitivity r0.
      + apply (sum_zero _ _ _ _ _ _ RT). intros k Hk. destruct (Z.eqb_spec (OP i j) k) as [<-|]; auto. now rewrite E.
      + destruct (W i s), (W j s); try discriminate; ring.
  Qed.
  Lemma mod0_div a b : 1 <= b -> (a mod b =? 0) = true <-> (b | a).
  Proof. intro. rewrite Z.eqb_eq. apply Z.mod_divide. lia. Qed.
  Lemma lcm_conv_D N g h s : 0 <= s < N -> Dsum N (aconv Z.lcm N g h) all s = mul (Dsum N g all s) (Dsum N h all s).
  Proof.
    intro Hs. unfold Divisor_proof.Dsum. destruct (Z.eqb_spec s 0) as [->|]; [reflexivity|].
    rewrite <- (aconv_gen Z.lcm N g h (fun k s => (s mod k =? 0) && all (s / k)) s).
    - apply sum_ext. intros d Hd. destruct (_ && _); auto. unfold aconv. now rewrite (proj2 (Z.eqb_neq d 0)) by lia.
    - intros i j Hi Hj. unfold all. rewrite !Bool.andb_true_r. pose proof (Z.lcm_nonneg i j). assert (Z.lcm i j <> 0) by (rewrite Z.lcm_eq_0; lia).
      apply Bool.eq_true_iff_eq. rewrite Bool.andb_true_iff, !mod0_div by lia. split.
      + intro D. split; eapply Z.divide_trans; try exact D; [apply Z.divide_lcm_l|apply Z.divide_lcm_r].
      + intros (D1 & D2). now apply Z.lcm_least.
    - intros i j Hi Hj. unfold all. rewrite Bool.andb_true_r. pose proof (Z.lcm_nonneg i j). assert (Z.lcm i j <> 0) by (rewrite Z.lcm_eq_0; lia).
      rewrite mod0_div by lia. intro D. apply Z.divide_pos_le in D; lia.
  Qed.
  Lemma gcd_conv_M N g h s : 0 <= s < N -> Msum N (aconv Z.gcd N g h) all s = mul (Msum N g all s) (Msum N h all s).
  Proof.
    intro Hs. unfold Divisor_proof.Msum. destruct (Z.eqb_spec s 0) as [->|]; [reflexivity|].
    rewrite <- (aconv_gen Z.gcd N g h (fun k s => (k mod s =? 0) && all (k / s)) s).
    - apply sum_ext. intros d Hd. destruct (_ && _); auto. unfold aconv. now rewrite (proj2 (Z.eqb_neq d 0)) by lia.
    - intros i j Hi Hj. unfold all. rewrite !Bool.andb_true_r. apply Bool.eq_true_iff_eq. rewrite Bool.andb_true_iff, !mod0_div by lia. split.
      + intro D. split; (eapply Z.divide_trans; [exact D|]); [apply Z.gcd_divide_l|apply Z.gcd_divide_r].
      + intros (D1 & D2). now apply Z.gcd_greatest.
    - intros i j Hi Hj _. pose proof (Z.gcd_nonneg i j). assert (Z.gcd i j <> 0) by (rewrite Z.gcd_eq_0; lia).
      pose proof (Z.gcd_divide_l i j) as D. apply Z.divide_pos_le in D; lia.
  Qed.
  Lemma aconv_at OP a b i : zlen b = zlen a -> aconv OP (zlen a) (at_ a) (at_ b) i = if i =? 0 then mul (at_ a 0) (at_ b 0) else conv_by r0 add mul OP 1 a b i.
  Proof. intro Hb. unfold aconv, conv_by. now rewrite Hb. Qed.
  Lemma lcm_conv_ok a b : zlen b = zlen a -> lcm_convolution add sub mul a b = Ok (arith_convolution r0 add mul Z.lcm a b).
  Proof.
    intro Hb. unfold lcm_convolution, transform_convolution. rewrite (proj2 (Z.eqb_eq _ _)) by auto. cbn [assert_ bind].
    destruct (dz _ _ _ (rep_self a)) as (a' & Ea & Ra). destruct (dz _ _ _ (rep_self b)) as (b' & Eb & Rb). rewrite Ea, Eb. cbn [bind]. rewrite Hb in Rb.
    destruct (pointwise_ok mul a' b' _ _ _ Ra Rb (zlen_nonneg a)) as (c & Ec & Rc). rewrite Ec. cbn [bind].
    assert (R : rep c (zlen a) (Dsum (zlen a) (aconv Z.lcm (zlen a) (at_ a) (at_ b)) all)) by (eapply rep_ext; [exact Rc|]; intros; symmetry; now apply lcm_conv_D).
    destruct (dm _ _ _ R) as (d & Ed & Rd). rewrite Ed. f_equal. rewrite (rep_map _ _ _ Rd). unfold arith_convolution, tabulate. apply map_ext. intro. now apply aconv_at.
  Qed.
  Lemma gcd_conv_ok a b : zlen b = zlen a -> gcd_convolution add sub mul a b = Ok (arith_convolution r0 add mul Z.gcd a b).
  Proof.
    intro Hb. unfold gcd_convolution, transform_convolution. rewrite (proj2 (Z.eqb_eq _ _)) by auto. cbn [assert_ bind].
    destruct (mz _ _ _ (rep_self a)) as (a' & Ea & Ra). destruct (mz _ _ _ (rep_self b)) as (b' & Eb & Rb). rewrite Ea, Eb. cbn [bind]. rewrite Hb in Rb.
    destruct (pointwise_ok mul a' b' _ _ _ Ra Rb (zlen_nonneg a)) as (c & Ec & Rc). rewrite Ec. cbn [bind].
    assert (R : rep c (zlen a) (Msum (zlen a) (aconv Z.gcd (zlen a) (at_ a) (at_ b)) all)) by (eapply rep_ext; [exact Rc|]; intros; symmetry; now apply gcd_conv_M).
    destruct (mm _ _ _ R) as (d & Ed & Rd). rewrite Ed. f_equal. rewrite (rep_map _ _ _ Rd). unfold arith_convolution, tabulate. apply map_ext. intro. now apply aconv_at.
  Qed.
End Fin.
