From Verif Require Import Base BaseLemmas Bits Seq Hist SegTree_model SegTree_spec SegTree_run.

#[global] Arguments Z.mul : simpl never.
#[global] Arguments Z.add : simpl never.
#[global] Arguments Z.sub : simpl never.
#[global] Arguments Z.pow : simpl never.
#[global] Arguments Z.div : simpl never.

Lemma ceil_pow2_ok n : exists h, 0 <= h /\ ceil_pow2 n = Ok (2 ^ h) /\ n <= 2 ^ h.
Proof.
  unfold ceil_pow2.
  destruct (loop_inv (fun m => exists h, 0 <= h /\ m = 2 ^ h) (fun m => Z.to_nat (n - m))
    (fun m => exists h, 0 <= h /\ m = 2 ^ h /\ n <= m)
    (fun m => if m <? n then Ok (inl (2 * m)) else Ok (inr m)) (S (Z.to_nat n)) 1) as (m & E & h & Hh & -> & Hn).
  - exists 0; lia.
  - lia.
  - intros m (h & Hh & ->). pose proof (Z.pow_pos_nonneg 2 h ltac:(lia) Hh). destruct (2 ^ h <? n) eqn:B.
    + eexists; split; [reflexivity|]. split; [|lia]. exists (h + 1). rewrite Z.pow_add_r by lia. lia.
    + eexists; split; [reflexivity|]. exists h; lia.
  - exists h; auto.
Qed.

Definition cdiv (L j : Z) : Z := (L + 2 ^ j - 1) / 2 ^ j.
Lemma cdiv_0 L : cdiv L 0 = L.
Proof. unfold cdiv. rewrite Z.pow_0_r, Z.div_1_r. lia. Qed.
Lemma cdiv_S L j : 0 <= j -> (cdiv L j + 1) / 2 = cdiv L (j + 1).
Proof.
  intro H. unfold cdiv. pose proof (Z.pow_pos_nonneg 2 j ltac:(lia) H).
  rewrite Z.pow_add_r by lia. change (2 ^ 1) with 2. rewrite <- Z.div_div by lia.
  f_equal. replace (L + 2 ^ j * 2 - 1) with (L + 2 ^ j - 1 + 1 * 2 ^ j) by lia. rewrite Z.div_add by lia. lia.
Qed.
Lemma cdiv_bound L j : 0 <= j -> L <= cdiv L j * 2 ^ j < L + 2 ^ j.
Proof.
  intro H. unfold cdiv. pose proof (Z.pow_pos_nonneg 2 j ltac:(lia) H).
  pose proof (Z.div_mod (L + 2 ^ j - 1) (2 ^ j) ltac:(lia)). pose proof (Z.mod_pos_bound (L + 2 ^ j - 1) (2 ^ j) ltac:(lia)).
  lia.
Qed.
Lemma cdiv_pos L j : 0 <= j -> 1 <= L -> 1 <= cdiv L j.
Proof.
  intros H HL. pose proof (cdiv_bound L j H). pose proof (Z.pow_pos_nonneg 2 j ltac:(lia) H). nia.
Qed.
Lemma div_S R j : 0 <= j -> R / 2 ^ j / 2 = R / 2 ^ (j + 1).
Proof.
  intro H. pose proof (Z.pow_pos_nonneg 2 j ltac:(lia) H). rewrite Z.div_div by lia. rewrite Z.pow_add_r by lia. auto.
Qed.
Lemma odd_div x : Z.odd x = true -> x = 2 * (x / 2) + 1.
Proof. intro H. apply Z.odd_spec in H. destruct H as [q ->]. replace ((2 * q + 1) / 2) with q; [lia|]. apply Z.div_unique with 1; lia. Qed.
Lemma even_div x : Z.odd x = false -> x = 2 * (x / 2).
Proof.
  intro H. assert (Z.even x = true) as E by (rewrite <- Z.negb_odd, H; auto). apply Z.even_spec in E. destruct E as [q ->].
  rewrite Z.mul_comm, Z.div_mul by lia. lia.
Qed.

Section Walk.
  Context {T : Type}.
  Variables (op : T -> T -> T) (e : T).
  Hypothesis M : is_monoid op e.

  Lemma walk_ok data (f : Z -> T) m L R :
    (forall k, 1 <= k < m -> f k = op (f (2 * k)) (f (2 * k + 1))) ->
    1 <= L -> L <= R <= 2 * m ->
    (forall j, 0 <= j -> cdiv L j < R / 2 ^ j ->
      (Z.odd (cdiv L j) = true -> vget data (cdiv L j) = Ok (f (cdiv L j))) /\
      (Z.odd (R / 2 ^ j) = true -> vget data (R / 2 ^ j - 1) = Ok (f (R / 2 ^ j - 1)))) ->
    seg_walk op e data L R = Ok (prod_ op e f L R).
  Proof.
    intros Tr HL HR Hd. unfold seg_walk.
    match goal with |- loop ?k ?b ?s = _ =>
      destruct (loop_inv (fun '(l, r, rl, rr) => exists j, 0 <= j /\ l = cdiv L j /\ r = R / 2 ^ j /\ r <= 2 * m /\
         op rl (op (prod_ op e f l r) rr) = prod_ op e f L R) (fun '(l, r, rl, rr) => Z.to_nat r)
        (fun x => x = prod_ op e f L R) b k s) as (x & E & ->)
    end; auto.
    - exists 0. rewrite cdiv_0, Z.pow_0_r, Z.div_1_r. repeat split; try lia.
      rewrite (mon_r _ _ M). apply M.
    - intros [[[l r] rl] rr] (j & Hj & -> & -> & Hr & E). set (l := cdiv L j) in *. set (r := R / 2 ^ j) in *.
      destruct (l <? r) eqn:B.
      + destruct (Hd j Hj ltac:(lia)) as [Hl Hr']. fold l r in Hl, Hr'.
        pose proof (cdiv_pos L j Hj HL) as Pl. fold l in Pl.
        assert (Dbl : prod_ op e f ((l + 1) / 2) (r / 2) = prod_ op e f (2 * ((l + 1) / 2)) (2 * (r / 2))).
        { apply prod_double; auto. intros k Hk. apply Tr. lia. }
        assert (Hl2 : (if Z.odd l then let* x := vget data l in Ok (l + 1, op rl x) else Ok (l, rl)) = Ok (2 * ((l + 1) / 2), op rl (prod_ op e f l (2 * ((l + 1) / 2))))).
        { destruct (Z.odd l) eqn:Ol.
          - rewrite Hl by auto. cbn [bind]. pose proof (odd_div _ Ol). replace (2 * ((l + 1) / 2)) with (l + 1) by lia.
            now rewrite prod_one by auto.
          - pose proof (even_div _ Ol). replace (2 * ((l + 1) / 2)) with l by lia. rewrite prod_nil by lia. now rewrite (mon_r _ _ M). }
        assert (Hr2 : (if Z.odd r then let* x := vget data (r - 1) in Ok (r - 1, op x rr) else Ok (r, rr)) = Ok (2 * (r / 2), op (prod_ op e f (2 * (r / 2)) r) rr)).
        { destruct (Z.odd r) eqn:Or.
          - rewrite Hr' by auto. cbn [bind]. pose proof (odd_div _ Or). replace (2 * (r / 2)) with (r - 1) by lia.
            f_equal. f_equal. f_equal. rewrite <- (prod_one op e M f (r - 1)). f_equal. lia.
          - pose proof (even_div _ Or). replace (2 * (r / 2)) with r by lia. rewrite prod_nil by lia. now rewrite (mon_l _ _ M). }
        rewrite Hl2. cbn [bind]. rewrite Hr2. cbn [bind]. eexists; split; [reflexivity|]. cbn.
        rewrite !(Z.mul_comm 2), !Z.div_mul by lia. split; [|lia].
        exists (j + 1). split; [lia|]. split; [now apply cdiv_S|]. split; [now apply div_S|]. split; [lia|].
        rewrite <- E. rewrite Dbl. rewrite !(Z.mul_comm _ 2).
        assert (l <= 2 * ((l + 1) / 2)) by lia. assert (2 * ((l + 1) / 2) <= 2 * (r / 2)).
        { destruct (Z.odd l) eqn:Ol; [pose proof (odd_div _ Ol)|pose proof (even_div _ Ol)]; lia. }
        rewrite (prod_split op e M f l (2 * ((l + 1) / 2)) r) by lia.
        rewrite (prod_split op e M f (2 * ((l + 1) / 2)) (2 * (r / 2)) r) by lia.
        rewrite <- !(mon_assoc _ _ M). reflexivity.
      + eexists; split; [reflexivity|]. cbn. rewrite <- E. rewrite prod_nil by lia. now rewrite (mon_l _ _ M).
  Qed.

  Lemma copy_at_ok a : forall data m g n', rep data n' g -> 0 <= m -> m + zlen a <= n' ->
    exists data', copy_at a data m = Ok data' /\
      rep data' n' (fun k => if (m <=? k) && (k <? m + zlen a) then nth (Z.to_nat (k - m)) a e else g k).
  Proof.
    intros data m g n' R Hm Hn. pose proof (zlen_nonneg a).
    destruct (for_inv (fun i d => rep d n' (fun k => if (m <=? k) && (k <? m + i) then nth (Z.to_nat (k - m)) a e else g k))
      0 (zlen a) (fun i data => let* x := vget a i in vset data (m + i) x) data) as (d & E & Rd).
    - lia.
    - eapply rep_ext; eauto. intros k Hk. replace (_ && _) with false by lia. auto.
    - intros i d Hi Rd. rewrite (vget_nth e) by lia. cbn [bind]. erewrite rep_set by (eauto; lia).
      eexists; split; [reflexivity|]. eapply rep_ext; [apply rep_upd; eauto; lia|]. intros k Hk. cbn. unfold fupd.
      destruct (k =? m + i) eqn:Q.
      + replace ((m <=? k) && (k <? m + (i + 1))) with true by lia. do 2 f_equal. lia.
      + replace ((m <=? k) && (k <? m + (i + 1))) with ((m <=? k) && (k <? m + i)) by lia. auto.
    - exists d. split; auto.
  Qed.

  Lemma node_update_ok data m g k : rep data (2 * m) g -> 1 <= k < m ->
    node_update op data k = Ok (zupd data k (op (g (2 * k)) (g (2 * k + 1)))).
  Proof.
    intros R Hk. unfold node_update. rewrite !(rep_get _ _ _ _ R) by lia. cbn [bind].
    rewrite (rep_set _ _ _ _ _ R) by lia. now rewrite Z.mul_comm.
  Qed.

  (* rebuilding all inner nodes *)
  Lemma rebuild_ok data m g : 1 <= m -> rep data (2 * m) g ->
    exists data' g', ford_ (m - 1) 0 (fun k data => node_update op data k) data = Ok data' /\ rep data' (2 * m) g' /\
      (forall k, m <= k < 2 * m -> g' k = g k) /\
      (forall k, 1 <= k < m -> g' k = op (g' (2 * k)) (g' (2 * k + 1))).
  Proof.
    intros Hm R.
    destruct (ford_inv (fun i d => exists g', rep d (2 * m) g' /\ (forall k, m <= k < 2 * m -> g' k = g k) /\
       (forall k, i < k < m -> g' k = op (g' (2 * k)) (g' (2 * k + 1)))) (m - 1) 0 (fun k data => node_update op data k) data)
      as (d & E & g' & Rd & Hl & Ht).
    - lia.
    - exists g. repeat split; auto; try apply R. intros; lia.
    - intros i d Hi (g' & Rd & Hl & Ht). rewrite (node_update_ok _ _ _ _ Rd) by lia.
      eexists; split; [reflexivity|]. eexists. split; [apply rep_upd; eauto; lia|]. split.
      + intros k Hk. rewrite fupd_diff by lia. auto.
      + intros k Hk. rewrite (fupd_diff _ _ _ (2 * k)), (fupd_diff _ _ _ (2 * k + 1)) by lia.
        unfold fupd. destruct (k =? i) eqn:Q; [now replace k with i by lia|]. apply Ht; lia.
    - exists d, g'. repeat split; auto; try apply Rd; try (intros; apply Ht; lia). 
  Qed.
End Walk.

Section SegP.
  Context {T : Type}.
  Variables (op : T -> T -> T) (e : T).
  Hypothesis M : is_monoid op e.

  Definition SI (s : seg T) (v : list T) : Prop :=
    exists h g, 0 <= h /\ sg_m s = 2 ^ h /\ sg_n s = zlen v /\ zlen v <= sg_m s /\ rep (sg_data s) (2 * sg_m s) g /\
      (forall k, 1 <= k < sg_m s -> g k = op (g (2 * k)) (g (2 * k + 1))) /\
      (forall i, 0 <= i < sg_m s -> g (sg_m s + i) = nth (Z.to_nat i) v e).

  Lemma prod_pad (v : list T) f m l r : (forall i, 0 <= i < m -> f (m + i) = nth (Z.to_nat i) v e) ->
    0 <= l <= r -> r <= zlen v -> r <= m -> prod_ op e f (l + m) (r + m) = fold_right op e (slice l r v).
  Proof.
    intros H Hl Hr Hm. rewrite (prod_rep op e v (zlen v) (fun i => nth (Z.to_nat i) v e)) by (try apply rep_nth; lia).
    unfold prod_. replace (Z.to_nat (r + m - (l + m))) with (Z.to_nat (r - l)) by lia.
    assert (G : forall k l, 0 <= l -> l + Z.of_nat k <= m -> prodn op e f (l + m) k = prodn op e (fun i => nth (Z.to_nat i) v e) l k).
    { clear Hl Hr Hm l r. induction k as [|k IH]; intros l Hl Hk; auto. cbn [prodn]. f_equal.
      - rewrite <- H by lia. f_equal; lia.
      - rewrite <- IH by lia. f_equal. lia. }
    apply G; lia.
  Qed.
  Lemma prod_pad2 (v : list T) f m l : (forall i, 0 <= i < m -> f (m + i) = nth (Z.to_nat i) v e) ->
    0 <= l <= zlen v -> zlen v <= m -> prod_ op e f (l + m) (m + m) = fold_right op e (slice l (zlen v) v).
  Proof.
    intros H Hl Hm. rewrite (prod_split op e M f (l + m) (zlen v + m) (m + m)) by lia.
    rewrite (prod_pad v) by (auto; lia). rewrite (prod_e op e M f (zlen v + m)).
    - apply M.
    - intros i Hi. replace i with (m + (i - m)) by lia. rewrite H by lia. apply nth_overflow. unfold zlen in *. lia.
  Qed.
  Lemma slice_all (v : list T) : slice 0 (zlen v) v = v.
  Proof. unfold slice. cbn [Z.to_nat skipn]. rewrite Z.sub_0_r. unfold zlen. rewrite Nat2Z.id. apply firstn_all. Qed.
  (* the root is the product of the leaves *)
  Lemma root_ok f h : 0 <= h -> (forall k, 1 <= k < 2 ^ h -> f k = op (f (2 * k)) (f (2 * k + 1))) ->
    f 1 = prod_ op e f (2 ^ h) (2 ^ h + 2 ^ h).
  Proof.
    intros Hh Ht. replace (2 ^ h + 2 ^ h) with (2 ^ (h + 1)) by (rewrite Z.pow_add_r by lia; lia).
    assert (G : forall j, 0 <= j -> j <= h -> f 1 = prod_ op e f (2 ^ j) (2 ^ (j + 1))).
    { intros j Hj. pattern j. apply natlike_ind; auto.
      - intros _. symmetry. apply (prod_one op e M f 1).
      - intros k Hk IH Hk2. rewrite (IH ltac:(lia)). 
        replace (2 ^ Z.succ k) with (2 * 2 ^ k) by (rewrite Z.pow_succ_r; lia).
        replace (2 ^ (Z.succ k + 1)) with (2 * 2 ^ (k + 1)) by (rewrite <- Z.pow_succ_r by lia; f_equal; lia).
        apply prod_double; auto. intros i Hi. apply Ht.
        pose proof (Z.pow_pos_nonneg 2 k ltac:(lia) Hk). split; [lia|]. 
        assert (2 ^ (k + 1) <= 2 ^ h) by (apply Z.pow_le_mono_r; lia). lia. }
    apply G; lia.
  Qed.

  Lemma build_ok n m h data g0 a v : 0 <= h -> m = 2 ^ h -> rep data (2 * m) g0 ->
    zlen v = n -> n <= m -> zlen a <= n ->
    (forall i, 0 <= i < m -> g0 (m + i) = nth (Z.to_nat i) v e) ->
    exists s, seg_build op (mkSeg n m data) a = Ok s /\ sg_m s = m /\ SI s (a ++ skipn (length a) v).
  Proof.
    intros Hh Em R En Hn Ha Hl. pose proof (Z.pow_pos_nonneg 2 h ltac:(lia) Hh) as Pm. unfold seg_build; cbn [sg_m sg_n sg_data].
    pose proof (zlen_nonneg a).
    replace (zlen a <=? m) with true by lia. cbn [assert_ bind].
    destruct (copy_at_ok e a data m g0 (2 * m) R ltac:(lia) ltac:(lia)) as (d & E & Rd). rewrite E; cbn [bind].
    destruct (rebuild_ok op d m _ ltac:(lia) Rd) as (d' & g' & E' & Rd' & Hlf & Ht). rewrite E'; cbn [bind].
    assert (Lv : zlen (a ++ skipn (length a) v) = n).
    { rewrite zlen_app. unfold zlen in *. rewrite skipn_length. lia. }
    eexists; split; [reflexivity|]. split; [reflexivity|]. exists h, g'. cbn [sg_m sg_n sg_data].
    split; [auto|]. split; [auto|]. split; [now rewrite Lv|]. split; [lia|]. split; [auto|]. split; [exact Ht|].
    intros i Hi. rewrite Hlf by lia. destruct (m + i <? m + zlen a) eqn:B.
    - replace (m <=? m + i) with true by lia. cbn [andb]. rewrite app_nth1 by (unfold zlen in *; lia).
      do 2 f_equal. lia.
    - rewrite andb_false_r. rewrite Hl by lia. rewrite app_nth2 by (unfold zlen in *; lia).
      rewrite <- (firstn_skipn (length a) v) at 1. rewrite app_nth2.
      + f_equal. rewrite firstn_length. unfold zlen in *. lia.
      + rewrite firstn_length. unfold zlen in *. lia.
  Qed.
  Lemma seg_of_ok v : exists s, seg_of op e v = Ok s /\ SI s v.
  Proof.
    unfold seg_of. destruct (ceil_pow2_ok (zlen v)) as (h & Hh & E & Hn). rewrite E; cbn [bind].
    pose proof (Z.pow_pos_nonneg 2 h ltac:(lia) Hh). pose proof (zlen_nonneg v).
    destruct (build_ok (zlen v) (2 ^ h) h (vrep (2 * 2 ^ h) e) (fun _ => e) v (vrep (zlen v) e) Hh eq_refl) as (s & E2 & _ & I).
    - apply rep_vrep. lia.
    - now apply zlen_vrep.
    - auto.
    - lia.
    - intros i Hi. unfold vrep. symmetry. apply nth_repeat.
    - exists s. split; auto. rewrite skipn_all2 in I; [now rewrite app_nil_r in I|].
      unfold vrep, zlen. rewrite repeat_length. lia.
  Qed.

  Lemma update_from_ok data m g k0 : 1 <= m -> rep data (2 * m) g -> m <= k0 < 2 * m ->
    (forall k, 1 <= k < m -> k <> k0 / 2 -> g k = op (g (2 * k)) (g (2 * k + 1))) ->
    exists data' g', seg_update_from op data k0 = Ok data' /\ rep data' (2 * m) g' /\
      (forall k, m <= k < 2 * m -> g' k = g k) /\
      (forall k, 1 <= k < m -> g' k = op (g' (2 * k)) (g' (2 * k + 1))).
  Proof.
    intros Hm R Hk0 Ht. unfold seg_update_from.
    match goal with |- context [loop ?fu ?bo ?st] =>
      destruct (loop_inv (fun '(k, d) => exists g', 0 <= k < m /\ rep d (2 * m) g' /\
         (forall q, m <= q < 2 * m -> g' q = g q) /\
         (forall q, 1 <= q < m -> q <> k -> g' q = op (g' (2 * q)) (g' (2 * q + 1)))) (fun '(k, d) => Z.to_nat k)
        (fun d => exists g', rep d (2 * m) g' /\ (forall q, m <= q < 2 * m -> g' q = g q) /\
         (forall q, 1 <= q < m -> g' q = op (g' (2 * q)) (g' (2 * q + 1)))) bo fu st) as (d & E & g' & A & B & C)
    end.
    - exists g. split; [lia|]. repeat split; auto; apply R.
    - lia.
    - intros [k d] (g' & Hk & Rd & Hl & Hq). destruct (k =? 0) eqn:B.
      + eexists; split; [reflexivity|]. exists g'. repeat split; auto; try apply Rd. intros; apply Hq; lia.
      + rewrite (node_update_ok op _ _ _ _ Rd) by lia. cbn [bind]. eexists; split; [reflexivity|]. split; [|lia].
        eexists. split; [lia|]. split; [apply rep_upd; eauto; lia|]. split.
        * intros q Hq'. rewrite fupd_diff by lia. auto.
        * intros q Hq' Nq. destruct (Z.eq_dec q k) as [->|Nk].
          { rewrite fupd_same, !fupd_diff by lia. auto. }
          rewrite !fupd_diff by lia. apply Hq; auto.
    - rewrite E. exists d, g'. auto.
  Qed.

  Lemma seg_point_ok s v i x : SI s v -> 0 <= i < zlen v ->
    exists data s', vset (sg_data s) (i + sg_m s) x = Ok data /\
      seg_update_from op data (i + sg_m s) = Ok (sg_data s') /\ s' = mkSeg (sg_n s) (sg_m s) (sg_data s') /\ SI s' (zupd v i x).
  Proof.
    intros (h & g & Hh & Em & En & Hn & R & Ht & Hl) Hi. pose proof (Z.pow_pos_nonneg 2 h ltac:(lia) Hh) as Pm.
    rewrite (rep_set _ _ _ _ _ R) by lia.
    destruct (update_from_ok (zupd (sg_data s) (i + sg_m s) x) (sg_m s) (fupd g (i + sg_m s) x) (i + sg_m s)) as (d & g' & E & Rd & Hl' & Ht').
    - lia.
    - apply rep_upd; auto; lia.
    - lia.
    - intros k Hk Nk. rewrite !fupd_diff; try (apply Ht; lia); try lia.
    - eexists _, (mkSeg (sg_n s) (sg_m s) d). split; [reflexivity|]. cbn [sg_data sg_m sg_n]. split; auto. split; auto.
      exists h, g'. cbn [sg_data sg_m sg_n]. rewrite zlen_zupd. split; [auto|]. split; [auto|]. split; [auto|].
      split; [auto|]. split; [auto|]. split; [auto|]. intros j Hj. rewrite Hl' by lia. unfold fupd.
      destruct (sg_m s + j =? i + sg_m s) eqn:Q.
      + assert (j = i) as -> by lia. pose proof (vget_zupd_same v i x ltac:(lia)) as V.
        rewrite (vget_nth e) in V by (rewrite zlen_zupd; lia). congruence.
      + rewrite Hl by lia. destruct (Z.lt_ge_cases j (zlen v)).
        * pose proof (vget_zupd_diff v i j x ltac:(lia)) as V. rewrite !(vget_nth e) in V by (rewrite ?zlen_zupd; lia). specialize (V ltac:(lia)). congruence.
        * rewrite !nth_overflow; auto; [|unfold zlen in *; lia]. pose proof (zlen_zupd v i x). unfold zlen in *. lia.
  Qed.

  Lemma seg_prod_ok s v l r : SI s v -> 0 <= l <= r -> (r <= zlen v \/ r = sg_m s /\ l <= zlen v) ->
    seg_prod op e s l r = Ok (fold_right op e (slice l (Z.min r (zlen v)) v)).
  Proof.
    intros (h & g & Hh & Em & En & Hn & R & Ht & Hl) Hlr Hr. pose proof (Z.pow_pos_nonneg 2 h ltac:(lia) Hh) as Pm.
    unfold seg_prod. rewrite (walk_ok op e M (sg_data s) g (sg_m s)); auto; try lia.
    - f_equal. destruct Hr as [Hr|[-> Hr]].
      + rewrite Z.min_l by lia. apply prod_pad; auto; lia.
      + rewrite Z.min_r by lia. apply prod_pad2; auto; lia.
    - intros j Hj Hlt. pose proof (cdiv_pos (l + sg_m s) j Hj ltac:(lia)). pose proof (Z.pow_pos_nonneg 2 j ltac:(lia) Hj).
      assert ((r + sg_m s) / 2 ^ j <= r + sg_m s) by (apply Z.div_le_upper_bound; nia).
      split; intros _; apply (rep_get _ _ _ _ R); lia.
  Qed.

  Lemma sgstep_sim s v o : SI s v ->
    match sgspec op e v o with
    | Ok (r, v') => exists s', sgstep op e s o = Ok (r, s') /\ SI s' v'
    | Abort => sgstep op e s o = Abort
    | OutOfFuel => False
    | UB => True
    end.
  Proof.
    intros I. pose proof I as (h & g & Hh & Em & En & Hn & R & Ht & Hl). pose proof (Z.pow_pos_nonneg 2 h ltac:(lia) Hh) as Pm.
    destruct o as [i x|i f|i|l r|r|l| |b]; cbn [sgspec sgstep].
    - unfold seg_set, in_range. rewrite En. destruct ((0 <=? i) && (i <? zlen v)) eqn:B; cbn [assert_ bind]; auto.
      destruct (seg_point_ok s v i x I ltac:(lia)) as (d & s' & E1 & E2 & E3 & I'). rewrite E1; cbn [bind]. rewrite E2; cbn [bind].
      exists s'. rewrite <- En, <- E3. auto.
    - unfold seg_apply, in_range. rewrite En. destruct ((0 <=? i) && (i <? zlen v)) eqn:B; cbn [assert_ bind]; auto.
      rewrite (vget_nth e) by lia. cbn [bind]. rewrite (rep_get _ _ _ _ R) by lia. cbn [bind].
      replace (g (i + sg_m s)) with (nth (Z.to_nat i) v e) by (rewrite <- Hl by lia; f_equal; lia).
      destruct (seg_point_ok s v i (f (nth (Z.to_nat i) v e)) I ltac:(lia)) as (d & s' & E1 & E2 & E3 & I'). rewrite E1; cbn [bind]. rewrite E2; cbn [bind].
      exists s'. rewrite <- En, <- E3. auto.
    - unfold seg_get, in_range. rewrite En. destruct ((0 <=? i) && (i <? zlen v)) eqn:B; cbn [assert_ bind]; auto.
      rewrite (vget_nth e) by lia. cbn [bind]. rewrite (rep_get _ _ _ _ R) by lia. cbn [bind].
      replace (g (i + sg_m s)) with (nth (Z.to_nat i) v e) by (rewrite <- Hl by lia; f_equal; lia). eauto.
    - unfold in_interval. destruct ((0 <=? l) && (l <=? r) && (r <=? zlen v)) eqn:B; auto.
      rewrite (seg_prod_ok s v) by (auto; lia). cbn [bind]. rewrite Z.min_l by lia. eauto.
    - unfold in_interval. destruct ((0 <=? 0) && (0 <=? r) && (r <=? zlen v)) eqn:B; auto.
      unfold seg_prefix. rewrite (seg_prod_ok s v) by (auto; lia). cbn [bind]. rewrite Z.min_l by lia. eauto.
    - unfold in_interval. destruct ((0 <=? l) && (l <=? zlen v) && (zlen v <=? zlen v)) eqn:B; auto.
      unfold seg_suffix. rewrite (seg_prod_ok s v) by (auto; lia). cbn [bind]. rewrite Z.min_r by lia. eauto.
    - unfold seg_all. rewrite (rep_get _ _ _ _ R) by lia. cbn [bind].
      rewrite (root_ok g h Hh) by (rewrite <- Em; auto). rewrite <- Em.
      pose proof (zlen_nonneg v).
      pose proof (prod_pad2 v g (sg_m s) 0 Hl ltac:(lia) ltac:(lia)) as P. rewrite Z.add_0_l in P. rewrite P.
      rewrite slice_all. eauto.
    - destruct (zlen b <=? zlen v) eqn:B; auto. pose proof (zlen_nonneg b).
      destruct (build_ok (zlen v) (sg_m s) h (sg_data s) g b v Hh Em R eq_refl ltac:(lia) ltac:(lia) Hl) as (s' & E & Em' & I').
      destruct s as [n m d]. cbn [sg_n sg_m sg_data] in *. subst n. rewrite E. cbn [bind]. eauto.
  Qed.
End SegP.

Lemma segment_tree_history_ {T} (op : T -> T -> T) e v ops : is_monoid op e ->
  snd (run (sgspec op e) v ops) <> UB ->
  exists s, seg_of op e v = Ok s /\ run (sgstep op e) s ops = run (sgspec op e) v ops.
Proof.
  intros M H. destruct (seg_of_ok op e v) as (s & E & I). exists s; split; auto.
  eapply run_sim with (Inv := SI op e); eauto. intros; now apply sgstep_sim.
Qed.
