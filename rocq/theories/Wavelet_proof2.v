(* WaveletMatrix: the queries *)
From Verif Require Import Base BaseLemmas ListZ ListMore Seq Sorting BitVector_model BitVector_spec BitVector_proof Wavelet_model Wavelet_spec Wavelet_proof.
From Coq Require Import Permutation Sorted.

(* order statistics *)
Lemma perm_split {A} (p : A -> bool) l : Permutation (filter p l ++ filter (fun x => negb (p x)) l) l.
Proof.
  induction l as [|a l IH]; auto. cbn [filter]. destruct (p a); cbn [negb app]; [now constructor|].
  rewrite <- Permutation_middle. now constructor.
Qed.
Lemma kth_low M M0 M1 k y : Permutation (M0 ++ M1) M -> (forall u v, In u M0 -> In v M1 -> u <= v) -> k < zlen M0 ->
  kth_smallest M0 k y -> kth_smallest M k y.
Proof.
  intros P O Hk (t0 & P0 & S0 & E0). destruct (sort_Z M1) as (t1 & P1 & S1). exists (t0 ++ t1). split; [|split].
  - rewrite <- P. now apply Permutation_app.
  - apply StronglySorted_app'; auto. intros u v Hu Hv. apply O; [now rewrite <- P0|now rewrite <- P1].
  - pose proof (vget_range _ _ _ E0). rewrite vget_app1 by lia. exact E0.
Qed.
Lemma perm_zlen {A} (l m : list A) : Permutation l m -> zlen l = zlen m.
Proof. intro P. unfold zlen. now rewrite (Permutation_length P). Qed.
Lemma kth_high M M0 M1 k y : Permutation (M0 ++ M1) M -> (forall u v, In u M0 -> In v M1 -> u <= v) ->
  kth_smallest M1 (k - zlen M0) y -> kth_smallest M k y.
Proof.
  intros P O (t1 & P1 & S1 & E1). destruct (sort_Z M0) as (t0 & P0 & S0). exists (t0 ++ t1). split; [|split].
  - rewrite <- P. now apply Permutation_app.
  - apply StronglySorted_app'; auto. intros u v Hu Hv. apply O; [now rewrite <- P0|now rewrite <- P1].
  - pose proof (vget_range _ _ _ E1). rewrite <- (perm_zlen _ _ P0) in *. rewrite vget_app2 by lia. exact E1.
Qed.
Lemma filter_none {A} (p : A -> bool) l : (forall v, In v l -> p v = false) -> filter p l = [].
Proof. induction l as [|b l IH]; intro H; auto. cbn [filter]. rewrite (H b) by now left. apply IH. intros v Hv. apply H. now right. Qed.
Lemma sorted_split c t : StronglySorted Z.le t -> t = filter (fun x => x <? c) t ++ filter (fun x => negb (x <? c)) t.
Proof.
  induction 1 as [|a t S IH F]; auto. cbn [filter]. destruct (Z.ltb_spec a c); cbn [negb app]; [now f_equal|].
  rewrite Forall_forall in F. rewrite filter_none, filter_all; auto; intros z Hz; apply F in Hz; destruct (Z.ltb_spec z c); auto; lia.
Qed.
Lemma perm_filter {A} (p : A -> bool) l m : Permutation l m -> Permutation (filter p l) (filter p m).
Proof.
  induction 1; cbn [filter]; auto.
  - destruct (p x); auto.
  - destruct (p x), (p y); auto. constructor.
  - etransitivity; eauto.
Qed.
Lemma kth_least M c y : kth_smallest M (count_if (fun x => x <? c) M) y -> least M (fun z => c <= z) y.
Proof.
  intros (t & P & S & E). unfold count_if in E. rewrite <- (perm_zlen _ _ (perm_filter (fun x => x <? c) _ _ P)) in E.
  rewrite (sorted_split c t S) in E at 1. rewrite vget_app2, Z.sub_diag in E by lia.
  assert (S1 : StronglySorted Z.le (filter (fun x => negb (x <? c)) t)).
  { clear - S. induction S as [|a t S IH F]; cbn [filter]; [constructor|]. destruct (negb (a <? c)); auto. constructor; auto.
    rewrite Forall_forall in *. intros z Hz. apply filter_In in Hz. apply F, Hz. }
  destruct (filter (fun x => negb (x <? c)) t) as [|y' q] eqn:Ef; [discriminate|]. injection E as ->.
  assert (I : In y (filter (fun x => negb (x <? c)) t)) by (rewrite Ef; now left).
  apply filter_In in I. destruct I as (I & J). split; [now rewrite <- P|]. split; [destruct (Z.ltb_spec y c); [discriminate|lia]|].
  intros z Hz Hc. assert (K : In z (y :: q)). { rewrite <- Ef. apply filter_In. split; [now rewrite P|]. destruct (Z.ltb_spec z c); auto; lia. }
  destruct K as [->|K]; [lia|]. inversion S1 as [|? ? ? F]; subst. rewrite Forall_forall in F. now apply F.
Qed.
Lemma kth_greatest M c y : kth_smallest M (count_if (fun x => x <? c) M - 1) y -> greatest M (fun z => z < c) y.
Proof.
  intros (t & P & S & E). unfold count_if in E. rewrite <- (perm_zlen _ _ (perm_filter (fun x => x <? c) _ _ P)) in E.
  assert (S1 : StronglySorted Z.le (filter (fun x => x <? c) t)).
  { clear - S. induction S as [|a t S IH F]; cbn [filter]; [constructor|]. destruct (a <? c); auto. constructor; auto.
    rewrite Forall_forall in *. intros z Hz. apply filter_In in Hz. apply F, Hz. }
  pose proof (vget_range _ _ _ E) as R. rewrite (sorted_split c t S) in E at 1. rewrite vget_app1 in E by lia.
  pose proof (vget_In _ _ _ E) as I. apply filter_In in I. destruct I as (I & J). split; [now rewrite <- P|]. split; [now apply Z.ltb_lt|].
  intros z Hz Hc. assert (K : In z (filter (fun x => x <? c) t)) by (apply filter_In; split; [now rewrite P|now apply Z.ltb_lt]).
  destruct (vget_split _ _ _ E) as (p & q & Ef & Ep). rewrite Ef in K, S1, Ep. rewrite zlen_app, zlen_cons in Ep. pose proof (zlen_nonneg q).
  destruct q as [|b q]; [|rewrite zlen_cons in Ep; pose proof (zlen_nonneg q); lia].
  apply in_app_iff in K. destruct K as [K|[->|[]]]; [|lia].
  clear - S1 K. induction p as [|u p IH]; [destruct K|]. cbn [app] in S1. inversion S1 as [|? ? S2 F]; subst. destruct K as [->|K]; auto.
  rewrite Forall_forall in F. apply F. apply in_app_iff. right. now left.
Qed.
Lemma kth_rev M k y : kth_smallest M (zlen M - 1 - k) y -> kth_largest M k y.
Proof.
  intros (t & P & S & E). exists (rev t). split; [rewrite <- P; symmetry; apply Permutation_rev|]. split; [now apply StronglySorted_rev|].
  pose proof (vget_range _ _ _ E). rewrite <- (perm_zlen _ _ P) in *. rewrite vget_rev by lia. exact E.
Qed.
Lemma kth_const M k y : (forall z, In z M -> z = y) -> 0 <= k < zlen M -> kth_smallest M k y.
Proof.
  intros H Hk. destruct (sort_Z M) as (t & P & S). exists t. split; auto. split; auto.
  destruct (vget_Ok t k) as (z & Ez); [rewrite (perm_zlen _ _ P); auto|]. rewrite Ez. f_equal. apply H. rewrite <- P. eapply vget_In; eauto.
Qed.

(* bits *)
Lemma shiftr_step v log : 0 <= log -> Z.shiftr v log = 2 * Z.shiftr v (log + 1) + Z.b2z (bit_of v log).
Proof.
  intro H. rewrite bit_of_testbit by auto. rewrite Z.testbit_spec' by auto. rewrite !Z.shiftr_div_pow2, Z.pow_add_r by lia. change (2 ^ 1) with 2.
  rewrite <- Z.div_div by (try apply Z.pow_nonzero; lia). apply Z.div_mod. lia.
Qed.
Lemma shiftr_lt v w j : 0 <= j -> Z.shiftr v j < Z.shiftr w j -> v < w.
Proof.
  intros H. rewrite !Z.shiftr_div_pow2 by auto. intro L. destruct (Z.lt_ge_cases v w) as [|G]; auto.
  pose proof (Z.div_le_mono w v (2 ^ j) ltac:(lia) G). lia.
Qed.
Lemma bit_of_lxor x v log : 0 <= log -> bit_of (Z.lxor x v) log = xorb (bit_of x log) (bit_of v log).
Proof. intro H. rewrite !bit_of_testbit by auto. apply Z.lxor_spec. Qed.
Lemma shiftr_top v m : 0 <= m -> 0 <= v < 2 ^ m -> Z.shiftr v m = 0.
Proof. intros H1 H2. rewrite Z.shiftr_div_pow2 by auto. now apply Z.div_small. Qed.
Lemma lxor_cancel x u v : Z.lxor x u = Z.lxor x v -> u = v.
Proof. intro E. apply (f_equal (Z.lxor x)) in E. now rewrite <- !Z.lxor_assoc, Z.lxor_nilpotent, !Z.lxor_0_l in E. Qed.

(* res holds the bits of v from j upwards *)
Definition agree (res v j : Z) : Prop := (forall t, 0 <= t < j -> Z.testbit res t = false) /\ (forall t, j <= t -> Z.testbit v t = Z.testbit res t).
Lemma agree_0 res v : agree res v 0 -> v = res.
Proof. intros (_ & H). apply Z.bits_inj'. auto. Qed.
Lemma agree_top v m : 0 <= m -> 0 <= v < 2 ^ m -> agree 0 v m.
Proof.
  intros H1 H2. split; intros t Ht; [apply Z.testbit_0_l|]. rewrite Z.testbit_0_l. rewrite Z.testbit_eqb by lia.
  rewrite Z.div_small; auto. split; [lia|]. pose proof (Z.pow_le_mono_r 2 m t ltac:(lia) Ht). lia.
Qed.
Lemma agree_step res v log b : 0 <= log -> agree res v (log + 1) -> bit_of v log = b -> agree (Z.lor res (Z.shiftl (Z.b2z b) log)) v log.
Proof.
  intros H (A1 & A2) E. rewrite bit_of_testbit in E by auto.
  assert (B : forall t, 0 <= t -> Z.testbit (Z.lor res (Z.shiftl (Z.b2z b) log)) t = Z.testbit res t || ((t =? log) && b)).
  { intros t Ht. rewrite Z.lor_spec, Z.shiftl_spec by auto. f_equal. destruct (Z.eqb_spec t log) as [->|N].
    - rewrite Z.sub_diag. destruct b; reflexivity.
    - cbn [andb]. destruct (Z.lt_ge_cases (t - log) 0); [now apply Z.testbit_neg_r|].
      replace (t - log) with (Z.succ (t - log - 1)) by lia. destruct b; [|apply Z.testbit_0_l].
      change (Z.b2z true) with (2 * 0 + 1). rewrite Z.testbit_odd_succ by lia. apply Z.testbit_0_l. }
  split; intros t Ht; rewrite B by lia.
  - rewrite A1 by lia. destruct (Z.eqb_spec t log); auto. lia.
  - destruct (Z.eqb_spec t log) as [->|N]; cbn [andb].
    + rewrite A1 by lia. now rewrite E.
    + rewrite A2 by lia. now rewrite orb_false_r.
Qed.

Lemma slice_one {A} (v : list A) i x : vget v i = Ok x -> slice i (i + 1) v = [x].
Proof. intro E. destruct (vget_split _ _ _ E) as (p & q & -> & <-). apply (slice_mid p [x] q). Qed.
Lemma slice_one_inv {A} (v : list A) l r x : 0 <= l <= r -> r <= zlen v -> slice l r v = [x] -> vget v l = Ok x.
Proof.
  intros H1 H2 E. rewrite (slice_parts l r v H1), E. cbn [app]. apply vget_mid. symmetry. apply zlen_firstn. lia.
Qed.

Section Q.
  Variables width bit_num : Z.
  Hypothesis Hb : 0 < bit_num < width.
  Variable a : list Z.
  Hypothesis Ha : forall v, In v a -> 0 <= v < 2 ^ bit_num.
  Notation n := (zlen a).
  Variable w : wavelet.
  Hypothesis G : good_wm bit_num a w.
  Notation lv := (lv bit_num a).

  Lemma check_ok x : 0 <= x < 2 ^ bit_num -> check_value_bounds width bit_num x = Ok tt.
  Proof.
    intro H. unfold check_value_bounds. destruct (Z.leb_spec width bit_num); [lia|]. rewrite shiftr_top by lia. reflexivity.
  Qed.

  Lemma access_correct i v : vget a i = Ok v -> wm_access bit_num w i = Ok v.
  Proof.
    intro Ev. pose proof (vget_range _ _ _ Ev) as R. unfold wm_access.
    match goal with |- context [ford_ bit_num 0 ?bo ?st] =>
      destruct (ford_inv (fun j '(res, p) => 0 <= p < n /\ vget (lv j) p = Ok v /\ agree res v j) bit_num 0 bo st) as ((res, p) & E & I1 & I2 & I3) end.
    - lia.
    - split; auto. rewrite lv_top. split; auto. apply agree_top; [lia|]. apply Ha. eapply vget_In; eauto.
    - intros j (res, p) Hj (I1 & I2 & I3). cbv beta iota zeta. set (log := j - 1) in *. assert (Hl : 0 <= log < bit_num) by lia.
      destruct (proj1 G log Hl) as (bv & Eb & Gb). rewrite Eb. cbn [bind].
      rewrite (access_ok n (lbit bit_num a log) (fun i => Ok (lbit bit_num a log i)) (fun _ _ => eq_refl) bv p Gb I1). cbn [bind].
      assert (Lb : lbit bit_num a log p = bit_of v log) by (unfold lbit; replace (log + 1) with j by lia; now rewrite I2). rewrite Lb.
      destruct (succ_ok bit_num a w p (p + 1) (bit_of v log) log G Hl ltac:(lia) ltac:(lia)) as (l' & r' & Es & H1 & H2 & Sl).
      unfold succ_ in Es. rewrite (proj2 G log Hl), Eb in *. cbn [bind] in *.
      destruct (bv_rank bv (bit_of v log) p) as [k| | |]; try discriminate. cbn [bind] in *.
      destruct (bv_rank bv (bit_of v log) (p + 1)) as [k'| | |]; try discriminate. cbn [bind] in Es. injection Es as <- <-.
      replace (log + 1) with j in * by lia. rewrite (slice_one _ _ _ I2) in Sl. cbn [filter] in Sl. rewrite Bool.eqb_reflx in Sl.
      eexists; split; [reflexivity|]. cbv beta iota.
      pose proof (slice_one_inv (lv log) _ _ v H1 ltac:(rewrite zlen_lv; exact H2) Sl) as Eg. pose proof (vget_range _ _ _ Eg) as Rg. rewrite zlen_lv in Rg.
      replace (log + 1) with j by lia. split; auto. split; auto. apply agree_step; [lia| |reflexivity]. now replace (log + 1) with j by lia.
    - cbn zeta in E |- *. rewrite E. cbn [bind fst]. f_equal. symmetry. now apply agree_0.
  Qed.

  Lemma slice_In {A} (l r : Z) (b : list A) v : In v (slice l r b) -> In v b.
  Proof. unfold slice. intro H. rewrite <- (firstn_skipn (Z.to_nat l) b). apply in_app_iff. right.
    rewrite <- (firstn_skipn (Z.to_nat (r - l)) (skipn (Z.to_nat l) b)). apply in_app_iff. now left. Qed.
  Lemma filter_filter {A} (p q : A -> bool) l : filter p (filter q l) = filter (fun x => q x && p x) l.
  Proof. induction l as [|b l IH]; auto. cbn [filter]. destruct (q b); cbn [filter andb]; [destruct (p b); rewrite IH|]; auto. Qed.

  Lemma rank_correct val i : 0 <= val < 2 ^ bit_num -> 0 <= i <= n -> wm_rank width bit_num w val i = Ok (count_if (Z.eqb val) (slice 0 i a)).
  Proof.
    intros Hv Hi. unfold wm_rank. rewrite check_ok by auto. cbn [bind].
    match goal with |- context [ford_ bit_num 0 ?bo ?st] =>
      destruct (ford_inv (fun j '(l, r) => 0 <= l <= r /\ r <= n /\ slice l r (lv j) = filter (fun v => Z.shiftr v j =? Z.shiftr val j) (slice 0 i a)) bit_num 0 bo st) as ((l, r) & E & I1 & I2 & I3) end.
    - lia.
    - split; [lia|]. split; [lia|]. rewrite lv_top. symmetry. apply filter_all. intros v H. apply slice_In, Ha in H.
      rewrite !shiftr_top by lia. reflexivity.
    - intros j (l, r) Hj (I1 & I2 & I3). cbv beta iota zeta. set (log := j - 1) in *. assert (Hl : 0 <= log < bit_num) by lia.
      destruct (succ_ok bit_num a w l r (bit_of val log) log G Hl I1 I2) as (l' & r' & Es & H1 & H2 & Sl). rewrite Es.
      eexists; split; [reflexivity|]. cbv beta iota. split; auto. split; auto. replace (log + 1) with j in Sl by lia. rewrite Sl, I3, filter_filter.
      apply filter_ext. intro v. rewrite (shiftr_step v log), (shiftr_step val log) by lia. replace (log + 1) with j by lia.
      destruct (Z.eqb_spec (Z.shiftr v j) (Z.shiftr val j)) as [Q|Q]; cbn [andb]; symmetry.
      + rewrite Q. destruct (bit_of v log), (bit_of val log); cbn [Bool.eqb Z.b2z]; [apply Z.eqb_eq|apply Z.eqb_neq|apply Z.eqb_neq|apply Z.eqb_eq]; lia.
      + apply Z.eqb_neq. destruct (bit_of v log), (bit_of val log); cbn [Z.b2z]; lia.
    - cbn zeta in E |- *. rewrite E. cbn [bind]. f_equal. rewrite <- (zlen_slice l r (lv 0)) by (rewrite ?zlen_lv; auto). rewrite I3. unfold count_if. f_equal.
      apply filter_ext. intro v. rewrite !Z.shiftr_0_r. apply Z.eqb_sym.
  Qed.

  Section Range.
    Variables l0 r0 x : Z.
    Hypothesis Hlr : 0 <= l0 <= r0.
    Hypothesis Hr : r0 <= n.
    Hypothesis Hx : 0 <= x < 2 ^ bit_num.
    Notation S0 := (slice l0 r0 a).
    Notation X := (Z.lxor x).

    Lemma kth_correct k0 d : 0 <= k0 < r0 - l0 ->
      exists v, range_xor_kth_smallest width bit_num w l0 r0 k0 x d = Ok v /\ In v S0 /\ kth_smallest (map X S0) k0 (X v).
    Proof.
      intros Hk. unfold range_xor_kth_smallest. destruct (Z.ltb_spec k0 0); [lia|]. destruct (Z.leb_spec (r0 - l0) k0); [lia|]. cbn [orb].
      rewrite check_ok by auto. cbn [bind].
      match goal with |- context [ford_ bit_num 0 ?bo ?st] =>
        destruct (ford_inv (fun j '(l, r, k, res) => 0 <= l <= r /\ r <= n /\ 0 <= k < r - l /\ (forall v, In v (slice l r (lv j)) -> In v S0 /\ agree res v j) /\
          (forall y, kth_smallest (map X (slice l r (lv j))) k y -> kth_smallest (map X S0) k0 y)) bit_num 0 bo st) as ((((l, r), k), res) & E & I1 & I2 & I3 & I4 & I5) end.
      - lia.
      - rewrite lv_top. split; auto. split; auto. split; auto. split; auto. intros v Hv. split; auto. apply agree_top; [lia|]. eapply Ha, slice_In; eauto.
      - intros j (((l, r), k), res) Hj (I1 & I2 & I3 & I4 & I5). cbv beta iota zeta. set (log := j - 1) in *. assert (Hl : 0 <= log < bit_num) by lia.
        set (z := bit_of x log). destruct (rank_range_level bit_num a w l r z log G Hl I1 I2) as (bv & Eb & Er). rewrite Eb. cbn [bind].
        rewrite Er. cbn [bind]. replace (log + 1) with j in * by lia. set (S := slice l r (lv j)) in *. set (q := fun v => Bool.eqb (bit_of v log) z).
        fold q in Er. set (c := zlen (filter q S)) in *.
        set (bit := xorb z (c <=? k)).
        destruct (succ_ok bit_num a w l r bit log G Hl I1 I2) as (l' & r' & Es & H1 & H2 & Sl). fold q. fold c. fold bit. rewrite Es. cbn [bind].
        eexists; split; [reflexivity|]. cbv beta iota. replace (log + 1) with j in Sl by lia. fold S in Sl. rewrite Sl.
        pose proof (zlen_slice l' r' (lv log) H1 ltac:(rewrite zlen_lv; auto)) as L'. rewrite Sl in L'.
        pose proof (zlen_slice l r (lv j) I1 ltac:(rewrite zlen_lv; auto)) as L. fold S in L.
        pose proof (zlen_filter_split q S) as Sp. fold c in Sp.
        assert (Ord : forall u v, In u (map X (filter q S)) -> In v (map X (filter (fun v => negb (q v)) S)) -> u <= v).
        { intros u v Hu Hv. apply in_map_iff in Hu. destruct Hu as (u' & <- & Hu). apply in_map_iff in Hv. destruct Hv as (v' & <- & Hv).
          apply filter_In in Hu. apply filter_In in Hv. destruct Hu as (Iu & Qu), Hv as (Iv & Qv). apply Z.lt_le_incl. apply (shiftr_lt _ _ log); [lia|].
          rewrite (shiftr_step (X u')), (shiftr_step (X v')) by lia. replace (log + 1) with j by lia. rewrite !bit_of_lxor by lia. fold z.
          destruct (I4 u' Iu) as (_ & _ & Au), (I4 v' Iv) as (_ & _ & Av).
          assert (Eq : Z.shiftr (X u') j = Z.shiftr (X v') j).
          { rewrite !Z.shiftr_lxor. f_equal. apply Z.bits_inj'. intros t Ht. rewrite !Z.shiftr_spec by auto. rewrite Au, Av by lia. reflexivity. }
          rewrite Eq. unfold q in Qu, Qv. destruct (bit_of u' log), (bit_of v' log), z; cbn in Qu, Qv |- *; try discriminate; lia. }
        assert (Pm : Permutation (map X (filter q S) ++ map X (filter (fun v => negb (q v)) S)) (map X S)) by (rewrite <- map_app; apply Permutation_map, perm_split).
        assert (Zm : zlen (map X (filter q S)) = c) by (unfold c, zlen; now rewrite map_length).
        assert (Fb : filter (fun v => Bool.eqb (bit_of v log) bit) S = if c <=? k then filter (fun v => negb (q v)) S else filter q S).
        { unfold bit, q. destruct (c <=? k); apply filter_ext; intro v; destruct (bit_of v log), z; reflexivity. }
        split; auto. split; auto. split; [|split].
        + rewrite Fb in L'. destruct (Z.leb_spec c k); cbn [Z.b2z]; fold c in L'; lia.
        + intros v Hv. apply filter_In in Hv. destruct Hv as (Iv & Qv). destruct (I4 v Iv) as (J1 & J2). split; auto.
          apply agree_step; [lia| |]; [now replace (log + 1) with j by lia|]. now apply Bool.eqb_prop.
        + intros y Hy. apply I5. rewrite Fb in Hy. destruct (Z.leb_spec c k) as [Q|Q]; cbn [Z.b2z] in Hy.
          * eapply kth_high; eauto. rewrite Zm. now replace (k - c) with (k - 1 * c) by lia.
          * eapply kth_low; eauto; [lia|]. now replace k with (k - 0 * c) by lia.
      - cbn zeta in E |- *. rewrite E. cbn [bind]. pose proof (zlen_slice l r (lv 0) I1 ltac:(rewrite zlen_lv; auto)) as L.
        exists res. split; auto. assert (C : forall v, In v (slice l r (lv 0)) -> v = res) by (intros v Hv; apply agree_0, I4, Hv).
        split.
        + destruct (vget_Ok (slice l r (lv 0)) 0 ltac:(lia)) as (v & Ev). pose proof (vget_In _ _ _ Ev) as Iv. rewrite <- (C v Iv). now apply I4.
        + apply I5. apply kth_const.
          * intros y Hy. apply in_map_iff in Hy. destruct Hy as (v & <- & Hv). f_equal. now apply C.
          * unfold zlen in *. rewrite map_length. lia.
    Qed.
    Lemma kth_default k d : ~ (0 <= k < r0 - l0) -> range_xor_kth_smallest width bit_num w l0 r0 k x d = Ok d.
    Proof. intro H. unfold range_xor_kth_smallest. destruct (Z.ltb_spec k 0), (Z.leb_spec (r0 - l0) k); auto. lia. Qed.

    Lemma count_map p (l : list Z) : count_if p (map X l) = count_if (fun v => p (X v)) l.
    Proof. unfold count_if. induction l as [|b l IH]; auto. cbn [map filter]. destruct (p (X b)); rewrite ?zlen_cons; lia. Qed.
    Lemma X_range v : In v S0 -> 0 <= X v < 2 ^ bit_num.
    Proof.
      intro H. apply slice_In, Ha in H. assert (Z.shiftr (X v) bit_num = 0) as E by (rewrite Z.shiftr_lxor, !shiftr_top by lia; reflexivity).
      assert (0 <= X v) by (apply Z.lxor_nonneg; lia). split; auto. rewrite Z.shiftr_div_pow2 in E by lia.
      apply Z.div_small_iff in E; [|pose proof (Z.pow_pos_nonneg 2 bit_num); lia]. lia.
    Qed.
    Lemma freq_correct upper : 0 <= upper -> range_xor_freq width bit_num w l0 r0 x upper = Ok (count_if (fun v => X v <? upper) S0).
    Proof.
      intros Hu. pose proof (zlen_slice l0 r0 a Hlr Hr) as L0. unfold range_xor_freq, MAX.
      destruct (Z.leb_spec r0 l0). { f_equal. unfold count_if. destruct S0; auto. rewrite zlen_cons in L0. pose proof (zlen_nonneg l). lia. }
      destruct (Z.ltb_spec (2 ^ bit_num - 1) upper).
      { f_equal. rewrite <- L0. unfold count_if. f_equal. symmetry. apply filter_all. intros v Hv. apply Z.ltb_lt. apply X_range in Hv. lia. }
      rewrite check_ok by auto. cbn [bind].
      match goal with |- context [ford_ bit_num 0 ?bo ?st] =>
        destruct (ford_inv (fun j '(l, r, res) => 0 <= l <= r /\ r <= n /\ (forall v, In v (slice l r (lv j)) -> Z.shiftr (X v) j = Z.shiftr upper j) /\
          res + count_if (fun v => X v <? upper) (slice l r (lv j)) = count_if (fun v => X v <? upper) S0) bit_num 0 bo st) as (((l, r), res) & E & I1 & I2 & I3 & I4) end.
      - lia.
      - rewrite lv_top. split; auto. split; auto. split; auto. intros v Hv. apply X_range in Hv. rewrite !shiftr_top by lia. reflexivity.
      - intros j ((l, r), res) Hj (I1 & I2 & I3 & I4). cbv beta iota zeta. set (log := j - 1) in *. assert (Hl : 0 <= log < bit_num) by lia.
        set (z := bit_of x log). set (u := bit_of upper log).
        destruct (rank_range_level bit_num a w l r z log G Hl I1 I2) as (bv & Eb & Er). rewrite Eb. cbn [bind]. rewrite Er. cbn [bind].
        destruct (succ_ok bit_num a w l r (xorb z u) log G Hl I1 I2) as (l' & r' & Es & H1 & H2 & Sl). replace (log + 1) with j in * by lia.
        set (S := slice l r (lv j)) in *. set (q := fun v => Bool.eqb (bit_of v log) z) in *.
        assert (Hs : forall v, In v S -> Z.shiftr (X v) log = 2 * Z.shiftr upper j + Z.b2z (negb (q v))).
        { intros v Hv. rewrite shiftr_step by lia. replace (log + 1) with j by lia. rewrite (I3 v Hv). do 2 f_equal. rewrite bit_of_lxor by lia.
          fold z. unfold q. destruct (bit_of v log), z; reflexivity. }
        assert (Hup : Z.shiftr upper log = 2 * Z.shiftr upper j + Z.b2z u) by (rewrite shiftr_step by lia; now replace (log + 1) with j by lia).
        assert (Fb : filter (fun v => Bool.eqb (bit_of v log) (xorb z u)) S = if u then filter (fun v => negb (q v)) S else filter q S).
        { unfold q. destruct u; apply filter_ext; intro v; destruct (bit_of v log), z; reflexivity. }
        assert (Cs : count_if (fun v => X v <? upper) S = count_if (fun v => X v <? upper) (filter q S) + count_if (fun v => X v <? upper) (filter (fun v => negb (q v)) S)).
        { unfold count_if. rewrite <- zlen_app, <- filter_app. apply perm_zlen, perm_filter. symmetry. apply perm_split. }
        exists (l', r', if u then res + zlen (filter q S) else res). split; [destruct u; cbn [bind]; rewrite Es; reflexivity|].
        rewrite Sl, Fb. split; auto. split; auto. split.
        + intros v Hv. destruct u; apply filter_In in Hv; destruct Hv as (Iv & Qv); rewrite Hs, Hup by auto.
          * now rewrite Qv.
          * now rewrite Qv.
        + destruct u.
          * assert (count_if (fun v => X v <? upper) (filter q S) = zlen (filter q S)); [|lia]. unfold count_if. f_equal. apply filter_all.
            intros v Hv. apply filter_In in Hv. destruct Hv as (Iv & Qv). apply Z.ltb_lt. apply (shiftr_lt _ _ log); [lia|]. rewrite Hs, Hup by auto. rewrite Qv. cbn. lia.
          * assert (count_if (fun v => X v <? upper) (filter (fun v => negb (q v)) S) = 0); [|lia]. unfold count_if. rewrite filter_none; auto.
            intros v Hv. apply filter_In in Hv. destruct Hv as (Iv & Qv). apply Z.ltb_ge. apply Z.lt_le_incl. apply (shiftr_lt _ _ log); [lia|]. rewrite Hs, Hup by auto. rewrite Qv. cbn. lia.
      - cbn zeta in E |- *. rewrite E. cbn [bind]. f_equal. rewrite <- I4. unfold count_if at 1. rewrite filter_none; [change (zlen (@nil Z)) with 0; lia|].
        intros v Hv. apply I3 in Hv. rewrite !Z.shiftr_0_r in Hv. apply Z.ltb_ge. lia.
    Qed.
  End Range.
End Q.
