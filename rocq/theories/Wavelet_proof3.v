(* WaveletMatrix: derived queries *)
From Verif Require Import Base BaseLemmas ListZ ListMore Seq Sorting BitVector_model BitVector_spec BitVector_proof Wavelet_model Wavelet_spec Wavelet_proof Wavelet_proof2.
From Coq Require Import Permutation Sorted.

Lemma sorted_unique t t' : StronglySorted Z.le t -> StronglySorted Z.le t' -> Permutation t t' -> t = t'.
Proof.
  intros S. revert t'. induction S as [|a t S IH F]; intros t' S' P.
  - apply Permutation_nil in P. now subst.
  - destruct t' as [|b t']; [symmetry in P; apply Permutation_nil in P; discriminate|]. inversion S' as [|? ? S2 F']; subst.
    assert (a = b).
    { rewrite Forall_forall in F, F'. assert (I : In a (b :: t')) by (rewrite <- P; now left). assert (J : In b (a :: t)) by (rewrite P; now left).
      destruct I as [->|I]; auto. destruct J as [->|J]; auto. apply F in J. apply F' in I. lia. }
    subst b. f_equal. apply IH; auto. now apply Permutation_cons_inv in P.
Qed.
Lemma kth_unique M k y y' : kth_smallest M k y -> kth_smallest M k y' -> y = y'.
Proof.
  intros (t & P & S & E) (t' & P' & S' & E'). assert (t = t') by (apply sorted_unique; auto; now rewrite P, P'). congruence.
Qed.

Section D.
  Variables width bit_num : Z.
  Hypothesis Hb : 0 < bit_num < width.
  Variable a : list Z.
  Hypothesis Ha : forall v, In v a -> 0 <= v < 2 ^ bit_num.
  Variable w : wavelet.
  Hypothesis Hw : wm_make bit_num a = Ok w.
  Lemma Gw : good_wm bit_num a w.
  Proof. destruct (build_ok bit_num ltac:(lia) a) as (w' & E & G). congruence. Qed.
  Variables l r x : Z.
  Hypothesis Hlr : 0 <= l <= r.
  Hypothesis Hr : r <= zlen a.
  Hypothesis Hx : 0 <= x < 2 ^ bit_num.
  Notation S0 := (slice l r a).
  Notation M := (map (Z.lxor x) S0).
  Lemma zlen_M : zlen M = r - l.
  Proof. unfold zlen. rewrite map_length. apply (zlen_slice l r a); auto. Qed.

  Lemma xor_kth k d : 0 <= k < r - l -> exists v, range_xor_kth_smallest width bit_num w l r k x d = Ok v /\ In v S0 /\ kth_smallest M k (Z.lxor x v).
  Proof. intro H. apply kth_correct; auto using Gw. Qed.
  Lemma xor_kth_largest k d : 0 <= k < r - l -> exists v, range_xor_kth_largest width bit_num w l r k x d = Ok v /\ In v S0 /\ kth_largest M k (Z.lxor x v).
  Proof.
    intro H. unfold range_xor_kth_largest. destruct (xor_kth (r - l - 1 - k) d ltac:(lia)) as (v & E & I & K). exists v. split; auto. split; auto.
    apply kth_rev. now rewrite zlen_M.
  Qed.
  Lemma xor_freq upper : 0 <= upper -> range_xor_freq width bit_num w l r x upper = Ok (count_if (fun v => Z.lxor x v <? upper) S0).
  Proof. intro H. apply freq_correct; auto using Gw. Qed.
  Lemma count_range2 {A} (f : A -> Z) lo up s : lo < up ->
    count_if (fun v => f v <? up) s - count_if (fun v => f v <? lo) s = count_if (fun v => (lo <=? f v) && (f v <? up)) s.
  Proof.
    intro H. unfold count_if. induction s as [|b s IH]; auto. cbn [filter].
    destruct (Z.ltb_spec (f b) up), (Z.ltb_spec (f b) lo), (Z.leb_spec lo (f b)); cbn [andb]; rewrite ?zlen_cons; lia.
  Qed.
  Lemma xor_freq2 lower upper : 0 <= lower -> 0 <= upper ->
    range_xor_freq2 width bit_num w l r x lower upper = Ok (count_if (fun v => (lower <=? Z.lxor x v) && (Z.lxor x v <? upper)) S0).
  Proof.
    intros H1 H2. unfold range_xor_freq2. destruct (Z.leb_spec upper lower).
    - f_equal. unfold count_if. rewrite filter_none; auto. intros v _. destruct (Z.leb_spec lower (Z.lxor x v)), (Z.ltb_spec (Z.lxor x v) upper); auto; lia.
    - rewrite !xor_freq by auto. cbn [bind]. f_equal. now apply count_range2.
  Qed.
  Lemma count_M p : count_if p M = count_if (fun v => p (Z.lxor x v)) S0.
  Proof. unfold count_if. induction S0 as [|b s IH]; auto. cbn [map filter]. destruct (p (Z.lxor x b)); rewrite ?zlen_cons; lia. Qed.
  Lemma count_bounds {A} (p : A -> bool) s : 0 <= count_if p s <= zlen s.
  Proof. unfold count_if. pose proof (zlen_filter_split p s). pose proof (zlen_nonneg (filter p s)). pose proof (zlen_nonneg (filter (fun x => negb (p x)) s)). lia. Qed.

  Lemma count_full {A} (p : A -> bool) s : zlen s <= count_if p s -> forall v, In v s -> p v = true.
  Proof.
    intros H v Hv. destruct (p v) eqn:E; auto. exfalso. unfold count_if in H. pose proof (zlen_filter_split p s) as Sp.
    assert (I : In v (filter (fun x => negb (p x)) s)) by (apply filter_In; now rewrite E).
    destruct (filter (fun x => negb (p x)) s); [destruct I|]. rewrite zlen_cons in Sp. pose proof (zlen_nonneg l0). lia.
  Qed.
  Lemma count_zero {A} (p : A -> bool) s : count_if p s = 0 -> forall v, In v s -> p v = false.
  Proof.
    intros H v Hv. destruct (p v) eqn:E; auto. exfalso. unfold count_if in H. assert (I : In v (filter p s)) by (apply filter_In; auto).
    destruct (filter p s); [destruct I|]. rewrite zlen_cons in H. pose proof (zlen_nonneg l0). lia.
  Qed.
  Notation found := (found S0 x).
  Lemma geq_ok c d : 0 <= c -> found (fun z => c <= z) least d (range_xor_min_geq width bit_num w l r x c d).
  Proof.
    intro Hc. unfold range_xor_min_geq. rewrite xor_freq by auto. cbn [bind].
    pose proof (count_bounds (fun v => Z.lxor x v <? c) S0) as B. pose proof (zlen_slice l r a Hlr Hr) as L.
    destruct (Z.leb_spec (r - l) (count_if (fun v => Z.lxor x v <? c) S0)) as [Q|Q].
    - right. split; auto. intros v Hv. rewrite <- L in Q. pose proof (count_full _ _ Q v Hv) as E. cbv beta in E. apply Z.ltb_lt in E. lia.
    - left. destruct (xor_kth (count_if (fun v => Z.lxor x v <? c) S0) (2 ^ width - 1) ltac:(lia)) as (v & E & I & K). exists v. split; auto. split; auto.
      apply kth_least. now rewrite count_M.
  Qed.
  Lemma lt_ok c d : 0 <= c -> found (fun z => z < c) greatest d (range_xor_max_lt width bit_num w l r x c d).
  Proof.
    intro Hc. unfold range_xor_max_lt. rewrite xor_freq by auto. cbn [bind].
    pose proof (count_bounds (fun v => Z.lxor x v <? c) S0) as B. pose proof (zlen_slice l r a Hlr Hr) as L.
    destruct (Z.eqb_spec (count_if (fun v => Z.lxor x v <? c) S0) 0) as [Q|Q].
    - right. split; auto. intros v Hv. pose proof (count_zero _ _ Q v Hv) as E. cbv beta in E. apply Z.ltb_ge in E. lia.
    - left. destruct (xor_kth (count_if (fun v => Z.lxor x v <? c) S0 - 1) d ltac:(lia)) as (v & E & I & K). exists v. split; auto. split; auto.
      apply kth_greatest. now rewrite count_M.
  Qed.
  Lemma M_range v : In v S0 -> 0 <= Z.lxor x v < 2 ^ bit_num.
  Proof. intro H. eapply X_range; eauto. Qed.
  Lemma best_ext (P Q : Z -> Prop) best d o : (forall z, 0 <= z < 2 ^ bit_num -> P z <-> Q z) ->
    best = least \/ best = greatest -> found P best d o -> found Q best d o.
  Proof.
    intros H HB [(v & E & I & K)|(E & K)].
    - left. exists v. split; auto. split; auto.
      assert (HM : forall z, In z M -> 0 <= z < 2 ^ bit_num) by (intros z Hz; apply in_map_iff in Hz; destruct Hz as (u & <- & Hu); now apply M_range).
      destruct HB as [->| ->]; destruct K as (K1 & K2 & K3); (split; [auto|split]); try (apply H; auto); intros z Hz Qz; apply K3; auto; apply H; auto.
    - right. split; auto. intros v Hv Qv. apply (K v Hv). apply H; auto. now apply M_range.
  Qed.
  Lemma gt_ok c d : 0 <= c <= MAX bit_num -> found (fun z => c < z) least d (range_xor_min_gt width bit_num w l r x c d).
  Proof.
    intro Hc. unfold range_xor_min_gt. destruct (Z.eqb_spec c (MAX bit_num)) as [->|N].
    - right. split; auto. intros v Hv. apply M_range in Hv. unfold MAX. lia.
    - apply (best_ext (fun z => c + 1 <= z)); [intros; lia|auto|]. apply geq_ok. lia.
  Qed.
  Lemma min_ok : range_xor_min width bit_num w l r x = Abort /\ l = r \/ 
    exists v, range_xor_min width bit_num w l r x = Ok v /\ In v S0 /\ least M (fun _ => True) (Z.lxor x v).
  Proof.
    unfold range_xor_min. destruct (Z.ltb_spec l r); [|left; split; [reflexivity|lia]]. right. cbn [assert_ bind].
    destruct (xor_kth 0 (2 ^ width - 1) ltac:(lia)) as (v & E & I & K). exists v. split; auto. split; auto.
    assert (C : count_if (fun z => z <? 0) M = 0).
    { unfold count_if. rewrite filter_none; auto. intros z Hz. apply in_map_iff in Hz. destruct Hz as (u & <- & Hu). apply Z.ltb_ge. now apply M_range. }
    rewrite <- C in K. apply kth_least in K. destruct K as (K1 & K2 & K3). split; auto. split; auto. intros z Hz _. apply K3; auto.
    apply in_map_iff in Hz. destruct Hz as (u & <- & Hu). now apply M_range.
  Qed.
  Lemma max_ok : range_xor_max width bit_num w l r x = Abort /\ l = r \/ 
    exists v, range_xor_max width bit_num w l r x = Ok v /\ In v S0 /\ greatest M (fun _ => True) (Z.lxor x v).
  Proof.
    unfold range_xor_max, range_xor_kth_largest. destruct (Z.ltb_spec l r); [|left; split; [reflexivity|lia]]. right. cbn [assert_ bind].
    destruct (xor_kth (r - l - 1 - 0) (2 ^ width - 1) ltac:(lia)) as (v & E & I & K). exists v. split; auto. split; auto.
    assert (HM : forall z, In z M -> 0 <= z < 2 ^ bit_num) by (intros z Hz; apply in_map_iff in Hz; destruct Hz as (u & <- & Hu); now apply M_range).
    assert (C : count_if (fun z => z <? 2 ^ bit_num) M = r - l).
    { rewrite <- zlen_M. unfold count_if. f_equal. apply filter_all. intros z Hz. apply Z.ltb_lt. now apply HM. }
    replace (r - l - 1 - 0) with (count_if (fun z => z <? 2 ^ bit_num) M - 1) in K by lia. apply kth_greatest in K.
    destruct K as (K1 & K2 & K3). split; auto. split; auto. intros z Hz _. apply K3; auto. now apply HM.
  Qed.
  Lemma leq_ok c d : 0 <= c <= MAX bit_num -> found (fun z => z <= c) greatest d (range_xor_max_leq width bit_num w l r x c d).
  Proof.
    intro Hc. unfold range_xor_max_leq. destruct (Z.leb_spec r l).
    { right. split; auto. intros v Hv. pose proof (zlen_slice l r a Hlr Hr) as L. destruct S0; [destruct Hv|]. rewrite zlen_cons in L. pose proof (zlen_nonneg l0). lia. }
    destruct (Z.eqb_spec c (MAX bit_num)) as [->|N].
    - destruct max_ok as [(_ & E)|(v & E & I & K)]; [lia|]. apply (best_ext (fun _ => True)); [intros z Hz; unfold MAX; intuition lia|auto|]. left. eauto.
    - apply (best_ext (fun z => z < c + 1)); [intros; lia|auto|]. apply lt_ok. lia.
  Qed.
  Lemma xor_kth_wrong k d : x <> 0 -> 0 <= k < r - l ->
    exists v, range_xor_kth_smallest width bit_num w l r k x d = Ok v /\ ~ kth_smallest M k v.
  Proof.
    intros N H. destruct (xor_kth k d H) as (v & E & I & K). exists v. split; auto. intro K'. pose proof (kth_unique _ _ _ _ K K') as Q.
    apply N. apply (f_equal (fun t => Z.lxor t v)) in Q. rewrite Z.lxor_assoc, Z.lxor_nilpotent, Z.lxor_0_r in Q. exact Q.
  Qed.
End D.
Lemma full_width width bit_num w : width <= bit_num ->
  (forall val i, wm_rank width bit_num w val i = UB) /\
  (forall l r k d, 0 <= k < r - l -> range_kth_smallest width bit_num w l r k d = UB) /\
  (forall l r upper, l < r -> upper <= 2 ^ bit_num - 1 -> range_freq width bit_num w l r upper = UB).
Proof.
  intro H. assert (C : forall v, check_value_bounds width bit_num v = UB) by (intro v; unfold check_value_bounds; destruct (Z.leb_spec width bit_num); auto; lia).
  split; [|split].
  - intros val i. unfold wm_rank. now rewrite C.
  - intros l r k d Hk. unfold range_kth_smallest, range_xor_kth_smallest. destruct (Z.ltb_spec k 0), (Z.leb_spec (r - l) k); try lia. cbn [orb]. now rewrite C.
  - intros l r u Hl Hu. unfold range_freq, range_xor_freq, MAX. destruct (Z.leb_spec r l); [lia|]. destruct (Z.ltb_spec (2 ^ bit_num - 1) u); [lia|]. now rewrite C.
Qed.
Lemma kth_largest_default width bit_num w l r k x d : ~ 0 <= k < r - l ->
  range_xor_kth_smallest width bit_num w l r k x d = Ok d /\ range_xor_kth_largest width bit_num w l r k x d = Ok d.
Proof.
  intro H. unfold range_xor_kth_largest, range_xor_kth_smallest.
  split; [destruct (Z.ltb_spec k 0), (Z.leb_spec (r - l) k)|destruct (Z.ltb_spec (r - l - 1 - k) 0), (Z.leb_spec (r - l) (r - l - 1 - k))]; auto; lia.
Qed.
Lemma wavelet_range_all :
  forall (width bit_num : Z) (a : list Z) (w : wavelet) (l r x : Z),
    0 < bit_num < width -> (forall v, In v a -> 0 <= v < 2 ^ bit_num) -> wm_make bit_num a = Ok w ->
    0 <= l <= r -> r <= zlen a -> 0 <= x < 2 ^ bit_num ->
    let s := slice l r a in
    let xs := map (Z.lxor x) s in
    (forall k d, 0 <= k < r - l ->
       exists v, range_xor_kth_smallest width bit_num w l r k x d = Ok v /\ In v s /\ kth_smallest xs k (Z.lxor x v)) /\
    (forall k d, 0 <= k < r - l ->
       exists v, range_xor_kth_largest width bit_num w l r k x d = Ok v /\ In v s /\ kth_largest xs k (Z.lxor x v)) /\
    (forall k d, ~ 0 <= k < r - l ->
       range_xor_kth_smallest width bit_num w l r k x d = Ok d /\ range_xor_kth_largest width bit_num w l r k x d = Ok d) /\
    (forall upper, 0 <= upper ->
       range_xor_freq width bit_num w l r x upper = Ok (count_if (fun v => Z.lxor x v <? upper) s)) /\
    (forall lower upper, 0 <= lower -> 0 <= upper ->
       range_xor_freq2 width bit_num w l r x lower upper
       = Ok (count_if (fun v => (lower <=? Z.lxor x v) && (Z.lxor x v <? upper)) s)) /\
    (forall c d, 0 <= c -> found s x (fun z => c <= z) least d (range_xor_min_geq width bit_num w l r x c d)) /\
    (forall c d, 0 <= c <= 2 ^ bit_num - 1 -> found s x (fun z => c < z) least d (range_xor_min_gt width bit_num w l r x c d)) /\
    (forall c d, 0 <= c -> found s x (fun z => z < c) greatest d (range_xor_max_lt width bit_num w l r x c d)) /\
    (forall c d, 0 <= c <= 2 ^ bit_num - 1 -> found s x (fun z => z <= c) greatest d (range_xor_max_leq width bit_num w l r x c d)) /\
    (l < r -> exists v, range_xor_min width bit_num w l r x = Ok v /\ In v s /\ least xs (fun _ => True) (Z.lxor x v)) /\
    (l < r -> exists v, range_xor_max width bit_num w l r x = Ok v /\ In v s /\ greatest xs (fun _ => True) (Z.lxor x v)).
Proof.
  intros width bit_num a w l r x Hb Ha Hw Hlr Hr Hx s xs.
  split. { intros. eapply xor_kth; eauto. } split. { intros. eapply xor_kth_largest; eauto. }
  split. { intros. now apply kth_largest_default. } split. { intros. eapply xor_freq; eauto. } split. { intros. eapply xor_freq2; eauto. }
  split. { intros. eapply geq_ok; eauto. } split. { intros. eapply gt_ok; eauto. }
  split. { intros. eapply lt_ok; eauto. } split. { intros. eapply leq_ok; eauto. }
  split; intro L.
  - destruct (min_ok width bit_num Hb a Ha w Hw l r x Hlr Hr Hx) as [(_ & E)|E]; [lia|exact E].
  - destruct (max_ok width bit_num Hb a Ha w Hw l r x Hlr Hr Hx) as [(_ & E)|E]; [lia|exact E].
Qed.
Lemma map_lxor0 s : map (Z.lxor 0) s = s.
Proof. induction s; cbn [map]; rewrite ?Z.lxor_0_l; now f_equal. Qed.
Lemma wavelet_plain_all :
  forall (width bit_num : Z) (a : list Z) (w : wavelet) (l r : Z),
    0 < bit_num < width -> (forall v, In v a -> 0 <= v < 2 ^ bit_num) -> wm_make bit_num a = Ok w ->
    0 <= l <= r -> r <= zlen a ->
    let s := slice l r a in
    (forall k d, 0 <= k < r - l -> exists v, range_kth_smallest width bit_num w l r k d = Ok v /\ kth_smallest s k v) /\
    (forall k d, 0 <= k < r - l -> exists v, range_kth_largest width bit_num w l r k d = Ok v /\ kth_largest s k v) /\
    (forall upper, 0 <= upper -> range_freq width bit_num w l r upper = Ok (count_if (fun v => v <? upper) s)) /\
    (forall lower upper, 0 <= lower -> 0 <= upper ->
       range_freq2 width bit_num w l r lower upper = Ok (count_if (fun v => (lower <=? v) && (v <? upper)) s)) /\
    (forall c d, 0 <= c -> exists o, range_min_geq width bit_num w l r c d = Ok o /\
       (least s (fun z => c <= z) o \/ o = d /\ forall v, In v s -> v < c)) /\
    (forall c d, 0 <= c -> exists o, range_max_lt width bit_num w l r c d = Ok o /\
       (greatest s (fun z => z < c) o \/ o = d /\ forall v, In v s -> c <= v)) /\
    (forall c d, 0 <= c <= 2 ^ bit_num - 1 -> exists o, range_min_gt width bit_num w l r c d = Ok o /\
       (least s (fun z => c < z) o \/ o = d /\ forall v, In v s -> v <= c)) /\
    (forall c d, 0 <= c <= 2 ^ bit_num - 1 -> exists o, range_max_leq width bit_num w l r c d = Ok o /\
       (greatest s (fun z => z <= c) o \/ o = d /\ forall v, In v s -> c < v)) /\
    (l < r -> exists v, range_min width bit_num w l r = Ok v /\ least s (fun _ => True) v) /\
    (l < r -> exists v, range_max width bit_num w l r = Ok v /\ greatest s (fun _ => True) v).
Proof.
  intros width bit_num a w l r Hb Ha Hw Hlr Hr s.
  assert (Hx : 0 <= 0 < 2 ^ bit_num) by (split; [lia|apply Z.pow_pos_nonneg; lia]).
  pose proof (wavelet_range_all width bit_num a w l r 0 Hb Ha Hw Hlr Hr Hx) as W. cbv zeta in W. fold s in W. rewrite map_lxor0 in W.
  destruct W as (K & KL & _ & F & F2 & GE & GT & LT & LE & MI & MA).
  assert (FD : forall P best d o, found s 0 P best d o -> exists t, o = Ok t /\ (best s P t \/ t = d /\ forall v, In v s -> ~ P v)).
  { intros P best d o [(v & E & I & B)|(E & N)].
    - exists v. split; auto. left. now rewrite map_lxor0, Z.lxor_0_l in B.
    - exists d. split; auto. }
  split. { intros k d Hk. destruct (K k d Hk) as (v & E & _ & Q). rewrite Z.lxor_0_l in Q. eauto. }
  split. { intros k d Hk. destruct (KL k d Hk) as (v & E & _ & Q). rewrite Z.lxor_0_l in Q. eauto. }
  split. { intros u Hu. exact (F u Hu). } split. { intros lo u H1 H2. exact (F2 lo u H1 H2). }
  split. { intros c d Hc. destruct (FD _ _ _ _ (GE c d Hc)) as (t & E & [B|(B & N)]); exists t; split; auto. right. split; auto. intros v Hv. apply N in Hv. lia. }
  split. { intros c d Hc. destruct (FD _ _ _ _ (LT c d Hc)) as (t & E & [B|(B & N)]); exists t; split; auto. right. split; auto. intros v Hv. apply N in Hv. lia. }
  split. { intros c d Hc. destruct (FD _ _ _ _ (GT c d Hc)) as (t & E & [B|(B & N)]); exists t; split; auto. right. split; auto. intros v Hv. apply N in Hv. lia. }
  split. { intros c d Hc. destruct (FD _ _ _ _ (LE c d Hc)) as (t & E & [B|(B & N)]); exists t; split; auto. right. split; auto. intros v Hv. apply N in Hv. lia. }
  split; intro L; [destruct (MI L) as (v & E & _ & Q)|destruct (MA L) as (v & E & _ & Q)]; rewrite Z.lxor_0_l in Q; eauto.
Qed.
