(* IntervalHeap: the functions and histories. *)
From Verif Require Import Base BaseLemmas ListZ Seq Hist Heap_model Heap_spec Heap_proof Heap_proof2.
From Coq Require Import Permutation.

Lemma lor_even a : Z.lor (2 * a) 1 = 2 * a + 1.
Proof.
  apply Z.bits_inj'. intros i Hi. rewrite Z.lor_spec. destruct (Z.eq_dec i 0) as [->|N].
  - rewrite Z.testbit_even_0, Z.testbit_odd_0. reflexivity.
  - replace i with (Z.succ (i - 1)) by lia. rewrite Z.testbit_even_succ, Z.testbit_odd_succ by lia.
    replace 1 with (2 * 0 + 1) at 2 by lia. rewrite Z.testbit_odd_succ by lia. rewrite Z.bits_0. apply orb_false_r.
Qed.
Lemma land_not1 a : Z.land a (Z.lnot 1) = 2 * (a / 2).
Proof.
  change (Z.land a (Z.lnot 1)) with (Z.land a (Z.lnot (Z.ones 1))). rewrite <- Z.ldiff_land. 
  rewrite Z.ldiff_ones_r by lia. rewrite Z.shiftr_div_pow2, Z.shiftl_mul_pow2 by lia. change (2 ^ 1) with 2. lia.
Qed.
Lemma min_par k : min_heap_parent (2 * k) = 2 * ((k - 1) / 2) /\ min_heap_parent (2 * k + 1) = 2 * ((k - 1) / 2).
Proof.
  unfold min_heap_parent. rewrite !Z.shiftl_mul_pow2, !Z.shiftr_div_pow2 by lia. change (2 ^ 2) with 4. change (2 ^ 1) with 2. lia.
Qed.
Lemma max_par k : max_heap_parent (2 * k) = 2 * ((k - 1) / 2) + 1 /\ max_heap_parent (2 * k + 1) = 2 * ((k - 1) / 2) + 1.
Proof. unfold max_heap_parent. destruct (min_par k) as [-> ->]. rewrite lor_even. auto. Qed.
Lemma min_chl k : min_heap_child_l (2 * k) = 2 * (2 * k + 1).
Proof. unfold min_heap_child_l. rewrite Z.shiftl_mul_pow2 by lia. change (2 ^ 1) with 2. lia. Qed.
Lemma min_chr k : min_heap_child_r (2 * k) = 2 * (2 * k + 2).
Proof. unfold min_heap_child_r. rewrite Z.shiftl_mul_pow2 by lia. change (2 ^ 1) with 2. lia. Qed.
Lemma max_chl k : max_heap_child_l (2 * k + 1) = 2 * (2 * k + 1) + 1.
Proof. unfold max_heap_child_l. replace (2 * k + 1 - 1) with (2 * k) by lia. rewrite min_chl. apply lor_even. Qed.
Lemma max_chr k : max_heap_child_r (2 * k + 1) = 2 * (2 * k + 2) + 1.
Proof. unfold max_heap_child_r. replace (2 * k + 1 - 1) with (2 * k) by lia. rewrite min_chr. apply lor_even. Qed.
Lemma max_ch_even k : max_heap_child_l (2 * k) = 2 * (2 * k) + 1 /\ max_heap_child_r (2 * k) = 2 * (2 * k + 1) + 1.
Proof.
  unfold max_heap_child_l, max_heap_child_r, min_heap_child_l, min_heap_child_r. rewrite !Z.shiftl_mul_pow2 by lia. change (2 ^ 1) with 2.
  replace ((2 * k - 1 + 1) * 2) with (2 * (2 * k)) by lia. replace ((2 * k - 1 + 2) * 2) with (2 * (2 * k + 1)) by lia. rewrite !lor_even. auto.
Qed.

Section IHeap.
  Context {T : Type}.
  Variable lt : T -> T -> bool.
  Variable univ : list T.
  Variable rk : T -> Z.
  Hypothesis RK : forall x y, In x univ -> In y univ -> lt x y = (rk x <? rk y).

  Definition holds (n : Z) (P : (Z -> Z) -> Prop) (w v : list T) : Prop :=
    exists h, rep v n h /\ Permutation v w /\ P (fun i => rk (h i)).
  Lemma do_swap n h v w a b : rep v n h -> Permutation v w -> 0 <= a < n -> 0 <= b < n ->
    exists v' h', swap v a b = Ok v' /\ rep v' n h' /\ Permutation v' w /\ swapped (fun i => rk (h i)) (fun i => rk (h' i)) a b.
  Proof.
    intros R P Ha Hb. destruct (rep_swap v n h a b R Ha Hb) as (v' & E & R' & P').
    exists v', (fupd (fupd h a (h b)) b (h a)). split; auto. split; auto. split; [etransitivity; eauto|].
    intro i. unfold fupd. destruct (i =? b); auto. destruct (i =? a); auto.
  Qed.
  Lemma lt_at n h v w a b : incl w univ -> rep v n h -> Permutation v w -> 0 <= a < n -> 0 <= b < n ->
    vget v a = Ok (h a) /\ vget v b = Ok (h b) /\ lt (h a) (h b) = (rk (h a) <? rk (h b)).
  Proof.
    intros I R P Ha Hb. split; [now apply (rep_get _ _ _ _ R)|]. split; [now apply (rep_get _ _ _ _ R)|].
    apply RK; apply I; apply (Permutation_in _ P); now apply (rep_In _ _ _ _ R).
  Qed.

  Lemma fix_min_up_ok n w v k : incl w univ -> 0 <= k -> 2 * k < n -> holds n (fun g => Lo n g k) w v ->
    exists v', fix_min_heap_up lt (2 * k) v = Ok v' /\ holds n (IH n) w v'.
  Proof.
    intros I K Lk H. unfold fix_min_heap_up.
    match goal with |- context [loop ?fu ?bo ?st] =>
      destruct (loop_inv (fun '(idx, v) => exists k, idx = 2 * k /\ 0 <= k /\ 2 * k < n /\ holds n (fun g => Lo n g k) w v)
        (fun s => Z.to_nat (fst s)) (holds n (IH n) w) bo fu st) as (r & E & Q) end.
    - exists k. auto.
    - cbn [fst]. lia.
    - clear H. intros (idx, d) (j & -> & Hj & Lj & h & R & P & L). cbv beta iota zeta.
      destruct (2 <=? 2 * j) eqn:E0.
      + destruct (min_par j) as [-> _]. set (p := (j - 1) / 2). assert (Ep : edge p j) by (apply edge_par; lia). clearbody p.
        pose proof Ep as Ei. unfold edge in Ei.
        destruct (lt_at n h d w (2 * j) (2 * p) I R P) as (G1 & G2 & G3); try lia. rewrite G1, G2. cbn [bind]. rewrite G3.
        destruct (rk (h (2 * j)) <? rk (h (2 * p))) eqn:E1.
        * destruct (do_swap n h d w (2 * j) (2 * p) R P) as (d' & h' & Es & R' & P' & Sw); try lia. rewrite Es. cbn [bind].
          eexists; split; [reflexivity|]. cbv beta iota. cbn [fst]. split; [|lia].
          exists p. split; auto. split; [lia|]. split; [lia|]. exists h'. split; auto. split; auto.
          eapply Lo_step; eauto. cbv beta. lia.
        * eexists; split; [reflexivity|]. cbv beta iota. exists h. split; auto. split; auto. eapply Lo_done; eauto.
          intros q Eq _. replace q with p by (eapply edge_fun; eauto). lia.
      + eexists; split; [reflexivity|]. cbv beta iota. exists h. split; auto. split; auto. eapply Lo_done; eauto.
        intros q Eq _. unfold edge in Eq. lia.
    - exists r. auto.
  Qed.
  Lemma fix_min_up_id n w h v k : incl w univ -> rep v n h -> Permutation v w -> 0 <= k -> 2 * k < n ->
    (forall p, edge p k -> rk (h (2 * p)) <= rk (h (2 * k))) -> fix_min_heap_up lt (2 * k) v = Ok v.
  Proof.
    intros I R P K Lk H. unfold fix_min_heap_up. cbn [loop]. destruct (2 <=? 2 * k) eqn:E0; [|reflexivity]. cbv zeta.
    destruct (min_par k) as [-> _]. set (p := (k - 1) / 2). assert (Ep : edge p k) by (apply edge_par; lia). clearbody p.
    pose proof Ep as Ei. unfold edge in Ei.
    destruct (lt_at n h v w (2 * k) (2 * p) I R P) as (G1 & G2 & G3); try lia. rewrite G1, G2. cbn [bind]. rewrite G3.
    specialize (H p Ep). replace (rk (h (2 * k)) <? rk (h (2 * p))) with false by lia. reflexivity.
  Qed.
  Lemma fix_max_up_ok n w v k : incl w univ -> 0 <= k -> 2 * k < n -> holds n (fun g => Up n g k) w v ->
    exists v', fix_max_heap_up lt (hidx n k) v = Ok v' /\ holds n (IH n) w v'.
  Proof.
    intros I K Lk H. unfold fix_max_heap_up.
    match goal with |- context [loop ?fu ?bo ?st] =>
      destruct (loop_inv (fun '(idx, v) => exists k, idx = hidx n k /\ 0 <= k /\ 2 * k < n /\ holds n (fun g => Up n g k) w v)
        (fun s => Z.to_nat (fst s)) (holds n (IH n) w) bo fu st) as (r & E & Q) end.
    - exists k. auto.
    - cbn [fst]. lia.
    - clear H. intros (idx, d) (j & -> & Hj & Lj & h & R & P & L). cbv beta iota zeta.
      assert (Hx : hidx n j = 2 * j \/ hidx n j = 2 * j + 1) by (unfold hidx; destruct (2 * j + 1 <? n); auto).
      assert (Hn : 0 <= hidx n j < n) by (unfold hidx; destruct (2 * j + 1 <? n) eqn:?; lia).
      destruct (2 <=? hidx n j) eqn:E0.
      + assert (max_heap_parent (hidx n j) = 2 * ((j - 1) / 2) + 1) as -> by (destruct (max_par j); destruct Hx as [-> | ->]; auto).
        set (p := (j - 1) / 2). assert (Ep : edge p j) by (apply edge_par; lia). clearbody p.
        pose proof Ep as Ei. unfold edge in Ei.
        destruct (lt_at n h d w (2 * p + 1) (hidx n j) I R P) as (G1 & G2 & G3); try lia. rewrite G1, G2. cbn [bind]. rewrite G3.
        destruct (rk (h (2 * p + 1)) <? rk (h (hidx n j))) eqn:E1.
        * destruct (do_swap n h d w (hidx n j) (2 * p + 1) R P) as (d' & h' & Es & R' & P' & Sw); try lia. rewrite Es. cbn [bind].
          eexists; split; [reflexivity|]. cbv beta iota. cbn [fst]. split; [|lia].
          exists p. split; [unfold hidx; replace (2 * p + 1 <? n) with true by lia; auto|]. split; [lia|]. split; [lia|]. exists h'. split; auto. split; auto.
          eapply Up_step; eauto. cbv beta. lia.
        * eexists; split; [reflexivity|]. cbv beta iota. exists h. split; auto. split; auto. eapply Up_done; eauto.
          intros q Eq. replace q with p by (eapply edge_fun; eauto). lia.
      + eexists; split; [reflexivity|]. cbv beta iota. exists h. split; auto. split; auto. eapply Up_done; eauto.
        intros q Eq. unfold edge in Eq. lia.
    - exists r. auto.
  Qed.
  Lemma fix_up_ok n w v k idx : incl w univ -> 0 <= k -> 2 * k < n -> idx / 2 = k -> holds n (fun g => Fx n g k) w v ->
    exists v', fix_up lt idx v = Ok v' /\ holds n (IH n) w v'.
  Proof.
    intros I K Lk Hi (h & R & P & H). unfold fix_up. rewrite land_not1, Hi, lor_even. cbv zeta.
    assert (Ln : zlen v = n) by apply R. rewrite Ln.
    assert (MU : forall d, holds n (IH n) w d -> exists v', fix_max_heap_up lt (hidx n k) d = Ok v' /\ holds n (IH n) w v').
    { intros d (h1 & R1 & P1 & H1). apply fix_max_up_ok; auto. exists h1. split; auto. split; auto. now apply IH_Up. }
    destruct (2 * k + 1 <? n) eqn:E0.
    - assert (HX : hidx n k = 2 * k + 1) by (unfold hidx; now rewrite E0).
      destruct (lt_at n h v w (2 * k + 1) (2 * k) I R P) as (G1 & G2 & G3); try lia. rewrite G1, G2. cbn [bind]. rewrite G3.
      assert (exists d h', (if rk (h (2 * k + 1)) <? rk (h (2 * k)) then swap v (2 * k) (2 * k + 1) else Ok v) = Ok d /\ rep d n h' /\ Permutation d w /\
        Fx n (fun i => rk (h' i)) k /\ rk (h' (2 * k)) <= rk (h' (2 * k + 1))) as (d & h' & Ed & Rd & Pd & Hd & Od).
      { destruct (rk (h (2 * k + 1)) <? rk (h (2 * k))) eqn:E1.
        - destruct (do_swap n h v w (2 * k) (2 * k + 1) R P) as (d & h' & Es & R' & P' & Sw); try lia.
          exists d, h'. split; auto. split; auto. split; auto. split; [eapply Fx_swap; eauto; lia|].
          pose proof (Sw (2 * k)) as S1. pose proof (Sw (2 * k + 1)) as S2. cbv beta in S1, S2. rewrite !Z.eqb_refl in S1, S2.
          replace (2 * k =? 2 * k + 1) with false in S1 by lia. lia.
        - exists v, h. split; auto. split; auto. split; auto. split; auto. lia. }
      rewrite Ed. cbn [bind]. destruct (Z.eq_dec k 0) as [K0|K0].
      + destruct (fix_min_up_ok n w d k I K Lk) as (d2 & E2 & H2).
        { exists h'. split; auto. split; auto. apply Fx_Lo; auto; try lia. intros p E. unfold edge in E. lia. }
        rewrite E2. cbn [bind]. rewrite <- HX. auto.
      + pose proof (edge_par k ltac:(lia)) as Ep. set (p := (k - 1) / 2) in *. clearbody p.
        assert (U : forall q, edge q k -> q = p) by (intros q Eq; eapply edge_fun; eauto).
        destruct (Z_le_gt_dec (rk (h' (2 * p))) (rk (h' (2 * k)))) as [Hlo|Hlo].
        * destruct (Z_le_gt_dec (rk (h' (2 * k))) (rk (h' (2 * p + 1)))) as [Hhi|Hhi].
          -- rewrite (fix_min_up_id n w h' d k I Rd Pd) by (auto; intros q Eq; rewrite (U q Eq); lia). cbn [bind]. rewrite <- HX.
             apply fix_max_up_ok; auto. exists h'. split; auto. split; auto. apply Fx_Up; auto; try lia.
             intros q Eq. rewrite (U q Eq). cbv beta. lia.
          -- exfalso. destruct Hd as (_ & _ & _ & _ & _ & X). specialize (X p Ep ltac:(lia)). cbv beta in X. lia.
        * destruct (fix_min_up_ok n w d k I K Lk) as (d2 & E2 & H2).
          { exists h'. split; auto. split; auto. pose proof Hd as Hd'. destruct Hd as (_ & _ & _ & _ & _ & X). specialize (X p Ep ltac:(lia)). cbv beta in X.
            apply Fx_Lo; auto; try lia. intros q Eq. rewrite (U q Eq). cbv beta. lia. }
          rewrite E2. cbn [bind]. rewrite <- HX. auto.
    - assert (HX : hidx n k = 2 * k) by (unfold hidx; now rewrite E0).
      destruct (Z.eq_dec k 0) as [K0|K0].
      + destruct (fix_min_up_ok n w v k I K Lk) as (d2 & E2 & H2).
        { exists h. split; auto. split; auto. apply Fx_Lo1; auto; try lia. intros p E. unfold edge in E. lia. }
        rewrite E2. cbn [bind]. rewrite <- HX. auto.
      + pose proof (edge_par k ltac:(lia)) as Ep. set (p := (k - 1) / 2) in *. clearbody p.
        assert (U : forall q, edge q k -> q = p) by (intros q Eq; eapply edge_fun; eauto).
        destruct (Z_le_gt_dec (rk (h (2 * p))) (rk (h (2 * k)))) as [Hlo|Hlo].
        * rewrite (fix_min_up_id n w h v k I R P) by (auto; intros q Eq; rewrite (U q Eq); lia). cbn [bind]. rewrite <- HX.
          apply fix_max_up_ok; auto. exists h. split; auto. split; auto. apply Fx_Up1; auto; try lia.
          intros q Eq. rewrite (U q Eq). cbv beta. lia.
        * destruct (fix_min_up_ok n w v k I K Lk) as (d2 & E2 & H2).
          { exists h. split; auto. split; auto. pose proof H as H'. destruct H as (A & _).
            specialize (A p). unfold edge in Ep. unfold cA in A.
            apply Fx_Lo1; auto; try lia. intros q Eq. rewrite (U q Eq). cbv beta. lia. }
          rewrite E2. cbn [bind]. rewrite <- HX. auto.
  Qed.
  Lemma fix_min_down_ok n w v k : incl w univ -> 0 <= k -> 2 * k < n -> holds n (fun g => Dmin n g k) w v ->
    exists v', fix_min_heap_down lt (2 * k) v = Ok v' /\ holds n (IH n) w v'.
  Proof.
    intros I K Lk H. unfold fix_min_heap_down. assert (Ln : zlen v = n) by (destruct H as (h & R & _); apply R). rewrite Ln. cbv zeta.
    match goal with |- context [loop ?fu ?bo ?st] =>
      destruct (loop_inv (fun '(idx, v) => exists k, idx = 2 * k /\ 0 <= k /\ 2 * k < n /\ holds n (fun g => Dmin n g k) w v)
        (fun s => Z.to_nat (n - fst s)) (holds n (IH n) w) bo fu st) as (r & E & Q) end.
    - exists k. auto.
    - cbn [fst]. lia.
    - clear H. intros (idx, d) (j & -> & Hj & Lj & h & R & P & L). cbv beta iota zeta.
      rewrite min_chl, min_chr. destruct (n <=? 2 * (2 * j + 1)) eqn:E0.
      + destruct (fix_up_ok n w d j (2 * j) I Hj Lj) as (d' & E & Hd); [lia| |rewrite E; cbn [bind]; eexists; split; [reflexivity|]; auto].
        exists h. split; auto. split; auto. apply Dmin_leaf; auto. lia.
      + assert (exists b, (if 2 * (2 * j + 2) <? n then let* x := vget d (2 * (2 * j + 2)) in let* y := vget d (2 * (2 * j + 1)) in Ok (lt x y) else Ok false) = Ok b /\
          exists c, (if b : bool then 2 * (2 * j + 2) else 2 * (2 * j + 1)) = 2 * c /\ edge j c /\ 2 * c < n /\
          forall e, edge j e -> 2 * e < n -> rk (h (2 * c)) <= rk (h (2 * e))) as (b & Eb & c & Ec & Ce & Lc & Mn).
        { destruct (2 * (2 * j + 2) <? n) eqn:E1.
          - destruct (lt_at n h d w (2 * (2 * j + 2)) (2 * (2 * j + 1)) I R P) as (G1 & G2 & G3); try lia. rewrite G1, G2. cbn [bind]. rewrite G3.
            eexists; split; [reflexivity|]. destruct (rk (h (2 * (2 * j + 2))) <? rk (h (2 * (2 * j + 1)))) eqn:E2;
              eexists; (split; [reflexivity|]); (split; [unfold edge; lia|]); (split; [lia|]); intros e [_ [-> | ->]]; lia.
          - exists false. split; auto. eexists; split; [reflexivity|]. split; [unfold edge; lia|]. split; [lia|]. intros e [_ [-> | ->]]; lia. }
        rewrite Eb. cbn [bind]. rewrite Ec. unfold edge in Ce. 
        destruct (lt_at n h d w (2 * c) (2 * j) I R P) as (G1 & G2 & G3); try lia. rewrite G1, G2. cbn [bind]. rewrite G3.
        destruct (rk (h (2 * c)) <? rk (h (2 * j))) eqn:E1.
        * destruct (do_swap n h d w (2 * j) (2 * c) R P) as (d' & h' & Es & R' & P' & Sw); try lia. rewrite Es. cbn [bind].
          eexists; split; [reflexivity|]. cbv beta iota. cbn [fst]. split; [|lia].
          exists c. split; auto. split; [lia|]. split; [lia|]. exists h'. split; auto. split; auto.
          eapply Dmin_step; eauto. cbv beta. lia.
        * eexists; split; [reflexivity|]. cbv beta iota. exists h. split; auto. split; auto. eapply (Dmin_done n _ j c); eauto. cbv beta. lia.
    - exists r. auto.
  Qed.
  Lemma fix_max_down_ok n w v k : 2 <= n -> incl w univ -> 0 <= k -> 2 * k < n -> holds n (fun g => Dmax n g k) w v ->
    exists v', fix_max_heap_down lt (hidx n k) v = Ok v' /\ holds n (IH n) w v'.
  Proof.
    intros N2 I K Lk H. unfold fix_max_heap_down. assert (Ln : zlen v = n) by (destruct H as (h & R & _); apply R). rewrite Ln. cbv zeta.
    match goal with |- context [loop ?fu ?bo ?st] =>
      destruct (loop_inv (fun '(idx, v) => exists k, idx = hidx n k /\ 0 <= k /\ 2 * k < n /\ holds n (fun g => Dmax n g k) w v)
        (fun s => Z.to_nat (n - fst s)) (holds n (IH n) w) bo fu st) as (r & E & Q) end.
    - exists k. auto.
    - cbn [fst]. unfold hidx. destruct (2 * k + 1 <? n); lia.
    - clear H. intros (idx, d) (j & -> & Hj & Lj & h & R & P & L). cbv beta iota zeta.
      assert (LEAF : n <= 4 * j + 2 -> exists x, (let* dat := fix_up lt (hidx n j) d in Ok (inr dat)) = Ok x /\
        match x with inl s' => (let '(idx, v0) := s' in exists k0, idx = hidx n k0 /\ 0 <= k0 /\ 2 * k0 < n /\ holds n (fun g => Dmax n g k0) w v0) /\
          (Z.to_nat (n - fst s') < Z.to_nat (n - fst (hidx n j, d)))%nat | inr r => holds n (IH n) w r end).
      { intro Lf. destruct (fix_up_ok n w d j (hidx n j) I Hj Lj) as (d' & E & Hd).
        - unfold hidx. destruct (2 * j + 1 <? n); lia.
        - exists h. split; auto. split; auto. apply Dmax_leaf; auto.
        - rewrite E. cbn [bind]. eexists; split; [reflexivity|]. auto. }
      destruct (Z_lt_ge_dec (2 * j + 1) n) as [Pj|Pj].
      + assert (HXj : hidx n j = 2 * j + 1) by (unfold hidx; replace (2 * j + 1 <? n) with true by lia; auto). rewrite HXj in *.
        rewrite max_chl, max_chr.
        assert (Al : forall c, 0 <= c -> n <= 2 * c \/ 2 * c + 1 - (if n <=? 2 * c + 1 then 1 else 0) = hidx n c /\ 2 * c < n).
        { intros c Hc. unfold hidx. destruct (n <=? 2 * c + 1) eqn:E1; [|right; replace (2 * c + 1 <? n) with true by lia; lia].
          destruct (Z.eq_dec n (2 * c + 1)); [right; replace (2 * c + 1 <? n) with false by lia; lia|left; lia]. }
        set (lch := 2 * (2 * j + 1) + 1 - (if n <=? 2 * (2 * j + 1) + 1 then 1 else 0)).
        set (rch := 2 * (2 * j + 2) + 1 - (if n <=? 2 * (2 * j + 2) + 1 then 1 else 0)).
        destruct (n <=? lch) eqn:E0.
        * apply LEAF. unfold lch in E0. destruct (n <=? 2 * (2 * j + 1) + 1) eqn:?; lia.
        * assert (Ll : lch = hidx n (2 * j + 1) /\ 2 * (2 * j + 1) < n).
          { destruct (Al (2 * j + 1) ltac:(lia)) as [A|A]; [|exact A]. unfold lch in E0. destruct (n <=? 2 * (2 * j + 1) + 1) eqn:?; lia. }
          destruct Ll as [Ll Ll']. clearbody lch. subst lch.
          assert (Rr : (rch <? n) = true /\ rch = hidx n (2 * j + 2) /\ 2 * (2 * j + 2) < n \/ (rch <? n) = false /\ n <= 2 * (2 * j + 2)).
          { destruct (Al (2 * j + 2) ltac:(lia)) as [A|[A A']]; fold rch in A.
            - right. split; auto. unfold rch. destruct (n <=? 2 * (2 * j + 2) + 1) eqn:?; lia.
            - left. split; [|auto]. rewrite A. unfold hidx. destruct (2 * (2 * j + 2) + 1 <? n) eqn:?; lia. }
          clearbody rch.
          assert (HB : forall c, 0 <= c -> 2 * c < n -> 2 * c <= hidx n c < n) by (intros c Hc Lc; unfold hidx; destruct (2 * c + 1 <? n) eqn:?; lia).
          assert (exists b, (if rch <? n then let* x := vget d (hidx n (2 * j + 1)) in let* y := vget d rch in Ok (lt x y) else Ok false) = Ok b /\
            exists c, (if b : bool then rch else hidx n (2 * j + 1)) = hidx n c /\ edge j c /\ 2 * c < n /\
            forall e, edge j e -> 2 * e < n -> rk (h (hidx n e)) <= rk (h (hidx n c))) as (b & Eb & c & Ec & Ce & Lc & Mx).
          { destruct Rr as [(-> & -> & Lr)|(-> & Lr)].
            - pose proof (HB (2 * j + 1) ltac:(lia) Ll'). pose proof (HB (2 * j + 2) ltac:(lia) Lr).
              destruct (lt_at n h d w (hidx n (2 * j + 1)) (hidx n (2 * j + 2)) I R P) as (G1 & G2 & G3); try lia. rewrite G1, G2. cbn [bind]. rewrite G3.
              eexists; split; [reflexivity|]. destruct (rk (h (hidx n (2 * j + 1))) <? rk (h (hidx n (2 * j + 2)))) eqn:E2;
                eexists; (split; [reflexivity|]); (split; [unfold edge; lia|]); (split; [lia|]); intros e [_ [-> | ->]]; lia.
            - exists false. split; auto. eexists; split; [reflexivity|]. split; [unfold edge; lia|]. split; [lia|]. intros e [_ [-> | ->]]; lia. }
          rewrite Eb. cbn [bind]. rewrite Ec. pose proof Ce as Ce'. unfold edge in Ce'. pose proof (HB c ltac:(lia) Lc).
          destruct (lt_at n h d w (2 * j + 1) (hidx n c) I R P) as (G1 & G2 & G3); try lia. rewrite G1, G2. cbn [bind]. rewrite G3.
          destruct (rk (h (2 * j + 1)) <? rk (h (hidx n c))) eqn:E1.
          -- destruct (do_swap n h d w (2 * j + 1) (hidx n c) R P) as (d' & h' & Es & R' & P' & Sw); try lia. rewrite Es. cbn [bind].
             eexists; split; [reflexivity|]. cbv beta iota. cbn [fst]. split; [|lia].
             exists c. split; auto. split; [lia|]. split; [lia|]. exists h'. split; auto. split; auto.
             eapply Dmax_step; eauto. cbv beta. lia.
          -- eexists; split; [reflexivity|]. cbv beta iota. exists h. split; auto. split; auto. eapply (Dmax_done n _ j c); eauto. cbv beta. lia.
      + assert (HXj : hidx n j = 2 * j) by (unfold hidx; replace (2 * j + 1 <? n) with false by lia; auto). rewrite HXj in *.
        destruct (max_ch_even j) as [-> ->].
        assert (n <=? 2 * (2 * j) + 1 = true) as -> by lia.
        destruct (n <=? 2 * (2 * j) + 1 - 1) eqn:E0; [apply LEAF; lia|].
        exfalso. assert (j = 0) by lia. lia.
    - exists r. auto.
  Qed.
End IHeap.

Definition related (n i j : Z) : Prop :=
  (exists k, 0 <= k /\ i = 2 * k /\ j = 2 * k + 1) \/ (exists p c, edge p c /\ i = 2 * p /\ j = 2 * c) \/
  (exists p c, edge p c /\ i = 2 * c + 1 /\ j = 2 * p + 1) \/ (exists p c, edge p c /\ 2 * c + 1 = n /\ i = 2 * c /\ j = 2 * p + 1).
Lemma IH_rel n g : IH n g <-> forall i j, related n i j -> 0 <= i < n -> 0 <= j < n -> g i <= g j.
Proof.
  split.
  - intros (A & B & C & D) i j [(k & Hk & -> & ->)|[(p & c & E & -> & ->)|[(p & c & E & -> & ->)|(p & c & E & L & -> & ->)]]] Hi Hj.
    + apply A; lia. + apply B; auto; lia. + apply C; auto; lia. + apply D; auto; lia.
  - intro H. split; [|split; [|split]].
    + intros k Hk L. apply H; try lia. left. eauto.
    + intros p c E L. pose proof E as Ei. unfold edge in Ei. apply H; try lia. right; left. eauto.
    + intros p c E L. pose proof E as Ei. unfold edge in Ei. apply H; try lia. right; right; left. eauto.
    + intros p c E L. pose proof E as Ei. unfold edge in Ei. apply H; try lia. right; right; right. exists p, c. auto.
Qed.
Lemma IH_all n g i : IH n g -> 0 <= i < n -> g 0 <= g i <= g (if 2 <=? n then 1 else 0).
Proof.
  intros (A & B & C & D) Hi.
  assert (Lw : forall m k, 0 <= k <= Z.of_nat m -> 2 * k < n -> g 0 <= g (2 * k)).
  { induction m as [|m IHm]; intros k Hk L; [replace (2 * k) with 0 by lia; lia|].
    destruct (Z.eq_dec k 0) as [->|N]; [cbn; lia|]. pose proof (edge_par k ltac:(lia)) as E.
    specialize (IHm ((k - 1) / 2) ltac:(lia) ltac:(lia)). specialize (B _ _ E L). lia. }
  assert (Hg : forall m k, 0 <= k <= Z.of_nat m -> 2 * k < n -> 2 <= n -> g (hidx n k) <= g 1).
  { induction m as [|m IHm]; intros k Hk L L2.
    - replace k with 0 by lia. unfold hidx. replace (2 * 0 + 1 <? n) with true by lia. change (2 * 0 + 1) with 1. lia.
    - destruct (Z.eq_dec k 0) as [->|N]; [apply IHm; lia|].
      pose proof (edge_par k ltac:(lia)) as E. specialize (IHm ((k - 1) / 2) ltac:(lia) ltac:(lia) ltac:(lia)).
      set (p := (k - 1) / 2) in *. pose proof E as Ei. unfold edge in Ei. clearbody p.
      unfold hidx in *. replace (2 * p + 1 <? n) with true in IHm by lia.
      destruct (2 * k + 1 <? n) eqn:F; [specialize (C p k E ltac:(lia))|specialize (D p k E ltac:(lia))]; lia. }
  pose proof (Lw (Z.to_nat i) (i / 2) ltac:(lia) ltac:(lia)) as H1. pose proof (A (i / 2) ltac:(lia)) as H2.
  assert (Hd : i = 2 * (i / 2) \/ i = 2 * (i / 2) + 1) by lia. set (k := i / 2) in *. clearbody k.
  split.
  - destruct Hd as [-> | ->]; [auto|]. specialize (H2 ltac:(lia)). lia.
  - destruct (2 <=? n) eqn:F; [|replace i with 0 by lia; lia].
    pose proof (Hg (Z.to_nat k) k ltac:(lia) ltac:(lia) ltac:(lia)) as H3. unfold hidx in H3.
    destruct (2 * k + 1 <? n) eqn:G; [|replace i with (2 * k) by lia; lia]. specialize (H2 ltac:(lia)). destruct Hd as [-> | ->]; lia.
Qed.

Section IHH.
  Context {T : Type}.
  Variable lt : T -> T -> bool.
  Hypothesis W : strict_weak_order lt.
  Definition is_ih (v : list T) : Prop :=
    forall i j x y, related (zlen v) i j -> vget v i = Ok x -> vget v j = Ok y -> lt y x = false.
  Lemma is_ih_rep u v h : incl v u -> rep v (zlen v) h -> (is_ih v <-> IH (zlen v) (fun i => rank lt u (h i))).
  Proof.
    intros I R. rewrite IH_rel. split.
    - intros H i j Hr Hi Hj. specialize (H i j _ _ Hr (rep_get _ _ _ _ R Hi) (rep_get _ _ _ _ R Hj)).
      rewrite (rank_spec _ W u) in H by (apply I; eapply rep_In; eauto). lia.
    - intros H i j x y Hr Ex Ey. pose proof (vget_range _ _ _ Ex) as Bx. pose proof (vget_range _ _ _ Ey) as By.
      rewrite (rep_get _ _ _ _ R) in Ex by lia. rewrite (rep_get _ _ _ _ R) in Ey by lia. injection Ex as <-. injection Ey as <-.
      rewrite (rank_spec _ W u) by (apply I; eapply rep_In; eauto). apply Z.ltb_ge. now apply H.
  Qed.
  Lemma holds_ih w v : incl w w -> holds (rank lt w) (zlen w) (IH (zlen w)) w v -> Permutation v w /\ is_ih v.
  Proof.
    intros _ (h & R & P & H). split; auto. assert (L : zlen v = zlen w) by apply R. rewrite <- L in R, H.
    apply (is_ih_rep w v h); auto. intros x Hx. eapply Permutation_in; eauto.
  Qed.
  Lemma ih_push_ok v x : is_ih v -> exists v', ih_push lt v x = Ok v' /\ Permutation v' (x :: v) /\ is_ih v'.
  Proof.
    intro H. unfold ih_push. set (w := v ++ [x]). pose proof (zlen_nonneg v) as Nn.
    assert (Lw : zlen w = zlen v + 1) by (unfold w; rewrite zlen_app; reflexivity).
    destruct (rep_ex w 0 ltac:(lia)) as (h & R).
    destruct (fix_up_ok lt w _ (rank_spec _ W w) (zlen w) w w (zlen v / 2) (zlen w - 1)) as (v' & E & Hv).
    - apply incl_refl.
    - lia.
    - lia.
    - f_equal. lia.
    - exists h. split; auto. split; auto.
      assert (HH : forall i j, related (zlen v) i j -> 0 <= i < zlen v -> 0 <= j < zlen v -> rank lt w (h i) <= rank lt w (h j)).
      { intros i j Hr Hi Hj. pose proof (rep_get _ _ _ i R ltac:(lia)) as Gi. pose proof (rep_get _ _ _ j R ltac:(lia)) as Gj.
        pose proof (vget_In _ _ _ Gi). pose proof (vget_In _ _ _ Gj). unfold w in Gi, Gj. rewrite vget_app1 in Gi, Gj by lia.
        specialize (H i j _ _ Hr Gi Gj). rewrite (rank_spec _ W w) in H by auto. lia. }
      apply IH_rel in HH. destruct HH as (A & B & C & D). rewrite Lw.
      set (n := zlen v) in *. set (k := n / 2). assert (Hk : 2 * k = n \/ 2 * k + 1 = n) by (unfold k; lia). clearbody k.
      split; [|split; [|split; [|split; [|split]]]].
      + intros j N Hj L. apply A; lia.
      + intros p c N E L. apply B; auto; lia.
      + intros p c N E L. apply C; auto; lia.
      + intros p c N E L. destruct (Z.eq_dec (2 * c + 1) n); [apply D; auto|]. unfold edge in E. lia.
      + lia.
      + intros p E L. left. assert (2 * k + 1 = n) by lia. pose proof E as Ei. unfold edge in Ei. split; [apply B; auto; lia|apply D; auto].
    - exists v'. split; auto. apply holds_ih in Hv; [|apply incl_refl]. destruct Hv as [P Hi]. split; auto.
      etransitivity; [exact P|]. unfold w. symmetry. apply Permutation_cons_append.
  Qed.
  Lemma ih_ends v : is_ih v -> 0 < zlen v -> exists x y, vget v 0 = Ok x /\ vget v (max_heap_top_index v) = Ok y /\ first_of lt v x /\ last_of lt v y.
  Proof.
    intros H L. destruct (rep_ex v 0 ltac:(lia)) as (h & R). pose proof (proj1 (is_ih_rep v v h (incl_refl v) R) H) as HI.
    assert (Ht : 0 <= max_heap_top_index v < zlen v) by (unfold max_heap_top_index; destruct (2 <=? zlen v) eqn:?; lia).
    exists (h 0), (h (max_heap_top_index v)). split; [apply (rep_get _ _ _ _ R); lia|]. split; [now apply (rep_get _ _ _ _ R)|].
    assert (I0 : In (h 0) v) by (apply (rep_In _ _ _ _ R); lia). assert (I1 : In (h (max_heap_top_index v)) v) by (now apply (rep_In _ _ _ _ R)).
    split; (split; [auto|]); intros y Hy; destruct (In_rep _ _ _ _ R Hy) as (i & Hi & <-);
      pose proof (IH_all (zlen v) _ i HI Hi) as B; cbv beta in B; rewrite (rank_spec _ W v) by auto; apply Z.ltb_ge; [lia|].
    unfold max_heap_top_index. lia.
  Qed.
  (* shrinking: the last element replaces element [t], the others stay *)
  Lemma shrink (v : list T) t : 0 <= t < zlen v -> exists x w h u, vget v t = Ok x /\
    swap v t (zlen v - 1) = Ok u /\ zlen u = zlen v /\ vget u (zlen u - 1) = Ok x /\ removelast u = w /\ zlen w = zlen v - 1 /\
    Permutation v (x :: w) /\ rep v (zlen v) h /\ (forall i, 0 <= i < zlen w -> i <> t -> vget w i = Ok (h i)) /\
    (t < zlen w -> vget w t = Ok (h (zlen v - 1))).
  Proof.
    intro Ht. destruct (rep_ex v t Ht) as (h & R).
    destruct (rep_swap v (zlen v) h t (zlen v - 1) R) as (u & Es & Ru & Pu); try lia.
    assert (Lu : zlen u = zlen v) by apply Ru.
    destruct (vget_last u) as (w & x & Eu & L' & G & Er); [intros ->; change (zlen (@nil T)) with 0 in Lu; lia|].
    exists x, w, h, u. assert (Ex : x = h t).
    { rewrite Lu in G. rewrite (rep_get _ _ _ _ Ru), fupd_same in G by lia. congruence. }
    split; [subst x; now apply (rep_get _ _ _ _ R)|]. split; auto. split; auto. split; auto. split; auto. split; [lia|]. split.
    { rewrite <- Pu, Eu. symmetry. apply Permutation_cons_append. }
    split; auto. split.
    - intros i Hi N. rewrite <- (vget_app1 w [x]) by lia. rewrite <- Eu. rewrite (rep_get _ _ _ _ Ru) by lia. unfold fupd.
      replace (i =? zlen v - 1) with false by lia. replace (i =? t) with false by lia. auto.
    - intro Lt. rewrite <- (vget_app1 w [x]) by lia. rewrite <- Eu. rewrite (rep_get _ _ _ _ Ru) by lia. unfold fupd.
      replace (t =? zlen v - 1) with false by lia. replace (t =? t) with true by lia. auto.
  Qed.
  Lemma ih_small v : zlen v <= 1 -> is_ih v.
  Proof.
    intros L i j x y Hr Ex Ey. apply vget_range in Ex, Ey. unfold related, edge in Hr.
    destruct Hr as [(k & Hr)|[(p & c & Hr)|[(p & c & Hr)|(p & c & Hr)]]]; lia.
  Qed.
  Lemma small_cases (v : list T) : zlen v <= 1 -> v = [] \/ exists x : T, v = [x].
  Proof.
    destruct v as [|x [|y v]]; eauto. rewrite !zlen_cons. pose proof (zlen_nonneg v). lia.
  Qed.
  (* dropping the last element keeps the constraints *)
  Lemma IH_shrink n g : IH (n + 1) g -> IH n g.
  Proof.
    intros (A & B & C & D). split; [|split; [|split]].
    - intros k Hk L. apply A; lia.
    - intros p c E L. apply B; auto; lia.
    - intros p c E L. apply C; auto; lia.
    - intros p c E L. pose proof E as Ei. unfold edge in Ei. pose proof (A c ltac:(lia) ltac:(lia)). pose proof (C p c E ltac:(lia)). lia.
  Qed.
  Lemma ih_pop_min_ok v : is_ih v -> 0 < zlen v ->
    exists x v', ih_pop_min lt v = Ok (x, v') /\ Permutation v (x :: v') /\ is_ih v' /\ first_of lt v x.
  Proof.
    intros H L. destruct (ih_ends v H L) as (x0 & _ & E0 & _ & F0 & _). unfold ih_pop_min. replace (zlen v =? 0) with false by lia. cbn [negb assert_ bind].
    destruct (shrink v 0 ltac:(lia)) as (x & w & h & u & Ex & Es & Lu & Gu & Er & Lw & P & R & G & G0). rewrite Es. cbn [bind]. rewrite Gu. cbn [bind]. rewrite Er.
    assert (x0 = x) by congruence. subst x0.
    destruct (Z_le_gt_dec (zlen w) 1) as [S1|S1].
    - assert (E : fix_min_heap_down lt 0 w = Ok w) by (destruct (small_cases w S1) as [->|(y & ->)]; reflexivity).
      rewrite E. cbn [bind]. exists x, w. split; auto. split; auto. split; auto. now apply ih_small.
    - destruct (rep_ex w 0 ltac:(lia)) as (g & Rg).
      destruct (fix_min_down_ok lt w _ (rank_spec _ W w) (zlen w) w w 0) as (v' & E & Hv).
      + apply incl_refl. + lia. + lia.
      + exists g. split; auto. split; auto.
        assert (Iw : incl w v) by (intros y Hy; eapply Permutation_in; [symmetry; exact P|now right]).
        pose proof (proj1 (is_ih_rep v v h (incl_refl v) R) H) as HI. replace (zlen v) with (zlen w + 1) in HI by lia. apply IH_shrink in HI.
        assert (EQ : forall i, 0 <= i < zlen w -> i <> 0 -> g i = h i).
        { intros i Hi N. pose proof (rep_get _ _ _ _ Rg Hi) as A1. rewrite (G i Hi N) in A1. congruence. }
        assert (TR : forall i j, related (zlen w) i j -> 0 < i < zlen w -> 0 < j < zlen w -> rank lt w (g i) <= rank lt w (g j)).
        { intros i j Hr Hi Hj. rewrite IH_rel in HI. specialize (HI i j Hr ltac:(lia) ltac:(lia)). cbv beta in HI.
          rewrite <- !EQ in HI by lia. assert (Ii : In (g i) w) by (apply (rep_In _ _ _ _ Rg); lia). assert (Ij : In (g j) w) by (apply (rep_In _ _ _ _ Rg); lia).
          pose proof (rank_spec _ W v (g j) (g i) (Iw _ Ij) (Iw _ Ii)) as Q1. pose proof (rank_spec _ W w (g j) (g i) Ij Ii) as Q2. lia. }
        split; [|split; [|split; [|split; [|split]]]].
        * intros k N Hk Lk. apply TR; try lia. left. eauto.
        * intros p c N E Lk. pose proof E as Ei. unfold edge in Ei. apply TR; try lia. right; left; eauto.
        * intros p c E Lk. pose proof E as Ei. unfold edge in Ei. apply TR; try lia. right; right; left; eauto.
        * intros p c N E Lk. pose proof E as Ei. unfold edge in Ei. apply TR; try lia. right; right; right; exists p, c; auto.
        * intros p E. unfold edge in E. lia.
        * intros p c E. unfold edge in E. lia.
      + change (2 * 0) with 0 in E. rewrite E. cbn [bind]. exists x, v'. apply holds_ih in Hv; [|apply incl_refl]. destruct Hv as [P' Hi].
        split; auto. split; [now rewrite P'|]. auto.
  Qed.
  Lemma ih_pop_max_ok v : is_ih v -> 0 < zlen v ->
    exists x v', ih_pop_max lt v = Ok (x, v') /\ Permutation v (x :: v') /\ is_ih v' /\ last_of lt v x.
  Proof.
    intros H L. destruct (ih_ends v H L) as (_ & x0 & _ & E0 & _ & F0). unfold ih_pop_max. replace (zlen v =? 0) with false by lia. cbn [negb assert_ bind].
    set (t := max_heap_top_index v) in *.
    assert (Ht : 0 <= t < zlen v) by (unfold t, max_heap_top_index; destruct (2 <=? zlen v) eqn:?; lia).
    destruct (shrink v t Ht) as (x & w & h & u & Ex & Es & Lu & Gu & Er & Lw & P & R & G & G0). rewrite Es. cbn [bind]. rewrite Gu. cbn [bind]. rewrite Er.
    assert (x0 = x) by congruence. subst x0.
    destruct (Z_le_gt_dec (zlen w) 1) as [S1|S1].
    - assert (Tt : (t = 0 /\ zlen w = 0) \/ (t = 1 /\ zlen w = 1)) by (unfold t, max_heap_top_index; destruct (2 <=? zlen v) eqn:?; lia).
      assert (E : fix_max_heap_down lt t w = Ok w).
      { destruct (small_cases w S1) as [->|(y & ->)]; destruct Tt as [(-> & B)|(-> & B)]; try reflexivity; discriminate. }
      rewrite E. cbn [bind]. exists x, w. split; auto. split; auto. split; auto. now apply ih_small.
    - assert (T1 : t = 1) by (unfold t, max_heap_top_index; replace (2 <=? zlen v) with true by lia; auto). clearbody t. subst t.
      destruct (rep_ex w 0 ltac:(lia)) as (g & Rg).
      destruct (fix_max_down_ok lt w _ (rank_spec _ W w) (zlen w) w w 0) as (v' & E & Hv).
      + lia. + apply incl_refl. + lia. + lia.
      + exists g. split; auto. split; auto.
        assert (Iw : incl w v) by (intros y Hy; eapply Permutation_in; [symmetry; exact P|now right]).
        pose proof (proj1 (is_ih_rep v v h (incl_refl v) R) H) as HI. replace (zlen v) with (zlen w + 1) in HI by lia. apply IH_shrink in HI.
        assert (EQ : forall i, 0 <= i < zlen w -> i <> 1 -> g i = h i).
        { intros i Hi N. pose proof (rep_get _ _ _ _ Rg Hi) as A1. rewrite (G i Hi N) in A1. congruence. }
        assert (TR : forall i j, related (zlen w) i j -> 0 <= i < zlen w -> 0 <= j < zlen w -> i <> 1 -> j <> 1 -> rank lt w (g i) <= rank lt w (g j)).
        { intros i j Hr Hi Hj Ni Nj. rewrite IH_rel in HI. specialize (HI i j Hr ltac:(lia) ltac:(lia)). cbv beta in HI.
          rewrite <- !EQ in HI by lia. assert (Ii : In (g i) w) by (apply (rep_In _ _ _ _ Rg); lia). assert (Ij : In (g j) w) by (apply (rep_In _ _ _ _ Rg); lia).
          pose proof (rank_spec _ W v (g j) (g i) (Iw _ Ij) (Iw _ Ii)) as Q1. pose proof (rank_spec _ W w (g j) (g i) Ij Ii) as Q2. lia. }
        split; [|split; [|split; [|split; [|split; [|split]]]]].
        * intros k N Hk Lk. apply TR; try lia. left. eauto.
        * intros p c N E Lk. pose proof E as Ei. unfold edge in Ei. apply TR; try lia. right; left; eauto.
        * intros p c N E Lk. pose proof E as Ei. unfold edge in Ei. apply TR; try lia. right; right; left; eauto.
        * intros p c N E Lk. pose proof E as Ei. unfold edge in Ei. apply TR; try lia. right; right; right; exists p, c; auto.
        * intros p E. unfold edge in E. lia.
        * intros p c E. unfold edge in E. lia.
        * intros p c E. unfold edge in E. lia.
      + assert (HX : hidx (zlen w) 0 = 1) by (unfold hidx; replace (2 * 0 + 1 <? zlen w) with true by lia; auto). rewrite HX in E.
        rewrite E. cbn [bind]. exists x, v'. apply holds_ih in Hv; [|apply incl_refl]. destruct Hv as [P' Hi].
        split; auto. split; [now rewrite P'|]. auto.
  Qed.
  Lemma ih_sim s a o : Permutation s a /\ is_ih s ->
    match ih_step lt s o with
    | Ok (r, s') => exists a', ih_spec lt a o (Ok (r, a')) /\ (Permutation s' a' /\ is_ih s')
    | Abort => ih_spec lt a o Abort
    | UB => ih_spec lt a o UB
    | OutOfFuel => False
    end.
  Proof.
    intros (P & H).
    assert (FO : forall x, first_of lt s x -> first_of lt a x).
    { intros x (Hi & Hx). split; [eapply Permutation_in; eauto|]. intros y Hy. apply Hx. eapply Permutation_in; [symmetry|]; eauto. }
    assert (LO : forall x, last_of lt s x -> last_of lt a x).
    { intros x (Hi & Hx). split; [eapply Permutation_in; eauto|]. intros y Hy. apply Hx. eapply Permutation_in; [symmetry|]; eauto. }
    assert (LE : zlen s = zlen a) by (unfold zlen; now rewrite (Permutation_length P)).
    assert (NIL : zlen s = 0 -> a = []).
    { intro Z0. destruct a; auto. rewrite LE, zlen_cons in Z0. pose proof (zlen_nonneg a). lia. }
    pose proof (zlen_nonneg s) as Ns.
    destruct o as [x| | | | |]; cbn [ih_step].
    - destruct (ih_push_ok s x H) as (v' & E & P' & H'). rewrite E. cbn [bind]. exists v'. split; [cbn; now rewrite P', P|]. auto.
    - unfold ih_min. destruct (zlen s =? 0) eqn:E0; cbn [negb assert_ bind]; [cbn; apply NIL; lia|].
      destruct (ih_ends s H ltac:(lia)) as (x & y & Ex & Ey & Fx & Fy). rewrite Ex. cbn [bind]. exists a. split; [|auto]. cbn. auto.
    - unfold ih_max. destruct (zlen s =? 0) eqn:E0; cbn [negb assert_ bind]; [cbn; apply NIL; lia|].
      destruct (ih_ends s H ltac:(lia)) as (x & y & Ex & Ey & Fx & Fy). rewrite Ey. cbn [bind]. exists a. split; [|auto]. cbn. auto.
    - destruct (Z.eq_dec (zlen s) 0) as [Z0|N0]; [unfold ih_pop_min; rewrite Z0; cbn; auto|].
      destruct (ih_pop_min_ok s H ltac:(lia)) as (x & v' & E & P' & H' & F). rewrite E. cbn [bind]. exists v'. split; [|auto]. cbn. split; auto. now rewrite <- P.
    - destruct (Z.eq_dec (zlen s) 0) as [Z0|N0]; [unfold ih_pop_max; rewrite Z0; cbn; auto|].
      destruct (ih_pop_max_ok s H ltac:(lia)) as (x & v' & E & P' & H' & F). rewrite E. cbn [bind]. exists v'. split; [|auto]. cbn. split; auto. now rewrite <- P.
    - exists a. split; auto. cbn. auto.
  Qed.
  Lemma ih_history ops : answers (ih_spec lt) [] ops (run (ih_step lt) [] ops).
  Proof.
    eapply answers_run with (Inv := fun s a => Permutation s a /\ is_ih s); [exact ih_sim|]. split; auto. apply ih_small. apply Z.leb_le. reflexivity.
  Qed.
End IHH.
