From Verif Require Import Base BaseLemmas Bits Seq Hist SegTree_model SegTree_spec SegTree_run SegTree_proof LazySeg_proof.

Lemma initial_shape bs : initial bs = true -> exists c d, bs = repeat true c ++ repeat false d.
Proof.
  induction bs as [|b bs IH]; cbn.
  - exists O, O. auto.
  - destruct b; intro H.
    + destruct (IH H) as (c & d & ->). exists (S c), d. auto.
    + exists O, (S (length bs)). cbn. f_equal. clear IH. induction bs as [|b bs IH]; auto. cbn in *. destruct b; cbn in *; [discriminate|].
      f_equal. auto.
Qed.
Lemma trues_shape c d : trues (repeat true c ++ repeat false d) = Z.of_nat c.
Proof.
  unfold trues, zlen. f_equal. induction c as [|c IH]; cbn; auto. induction d; cbn; auto.
Qed.
Lemma trues_char (b : Z -> bool) N r : 0 <= r < N -> initial (map b (zrange N)) = true -> b r = true -> (r + 1 = N \/ b (r + 1) = false) ->
  trues (map b (zrange N)) = r + 1.
Proof.
  intros Hr Hi Hb Hb'. destruct (initial_shape _ Hi) as (c & d & E).
  assert (G : forall i, 0 <= i < N -> b i = (i <? Z.of_nat c)).
  { intros i Hi'. assert (V : vget (map b (zrange N)) i = Ok (b i)) by (rewrite vget_map, vget_zrange by lia; auto).
    rewrite E in V. rewrite (vget_nth false) in V.
    - injection V as <-. destruct (i <? Z.of_nat c) eqn:B.
      + rewrite app_nth1 by (rewrite repeat_length; lia). replace (nth (Z.to_nat i) (repeat true c) false) with (nth (Z.to_nat i) (repeat true c) true); [now rewrite nth_repeat|].
        apply nth_indep. rewrite repeat_length; lia.
      + rewrite app_nth2 by (rewrite repeat_length; lia). now rewrite nth_repeat.
    - apply vget_range in V. auto. }
  assert (L : Z.of_nat c + Z.of_nat d = N).
  { assert (length (map b (zrange N)) = (c + d)%nat) by (rewrite E, app_length, !repeat_length; auto).
    rewrite map_length in H. assert (zlen (zrange N) = N) by (apply zlen_zrange; lia). unfold zlen in *. lia. }
  rewrite E, trues_shape. rewrite G in Hb by lia. destruct Hb' as [<-|Hb']; [lia|].
  destruct (Z.eq_dec (r + 1) N); [lia|]. rewrite G in Hb' by lia. lia.
Qed.

Lemma strip_even_ok l : 1 <= l -> exists l' d, strip_even l = Ok l' /\ 0 <= d /\ l = l' * 2 ^ d /\ Z.odd l' = true /\ 1 <= l'.
Proof.
  intro Hl. unfold strip_even.
  match goal with |- context [loop ?fu ?bo ?st] =>
    destruct (loop_inv (fun x => 1 <= x /\ exists d, 0 <= d /\ l = x * 2 ^ d) Z.to_nat (fun x => 1 <= x /\ Z.odd x = true /\ exists d, 0 <= d /\ l = x * 2 ^ d) bo fu st) as (x & E & Hx & Ho & d & Hd & Ed)
  end.
  - split; auto. exists 0. rewrite Z.pow_0_r. lia.
  - lia.
  - intros x (Hx & d & Hd & Ed). destruct (Z.even x) eqn:B.
    + eexists; split; [reflexivity|]. cbn. assert (Z.odd x = false) as O by (rewrite <- Z.negb_even, B; auto). pose proof (even_div _ O).
      split; [|lia]. split; [lia|]. exists (d + 1). split; [lia|]. rewrite Z.pow_add_r by lia. change (2 ^ 1) with 2.
      rewrite Ed at 1. rewrite H at 1. ring.
    + eexists; split; [reflexivity|]. cbn. split; auto. split; [rewrite <- Z.negb_even, B; auto|]. eauto.
  - rewrite E. exists x, d. auto.
Qed.
(* r - 1 with trailing ones dropped, never below 1 *)
Lemma strip_odd_ok r : 2 <= r -> exists q d, strip_odd (r - 1) = Ok q /\ 0 <= d /\ r = (q + 1) * 2 ^ d /\ (Z.odd q = false \/ q = 1) /\ 1 <= q.
Proof.
  intro Hr. unfold strip_odd.
  match goal with |- context [loop ?fu ?bo ?st] =>
    destruct (loop_inv (fun x => 1 <= x /\ exists d, 0 <= d /\ r = (x + 1) * 2 ^ d) Z.to_nat (fun x => 1 <= x /\ (Z.odd x = false \/ x = 1) /\ exists d, 0 <= d /\ r = (x + 1) * 2 ^ d) bo fu st) as (x & E & Hx & Ho & d & Hd & Ed)
  end.
  - split; [lia|]. exists 0. rewrite Z.pow_0_r. lia.
  - lia.
  - intros x (Hx & d & Hd & Ed). destruct (1 <? x) eqn:B; cbn [andb].
    + destruct (Z.odd x) eqn:O.
      * eexists; split; [reflexivity|]. cbn. pose proof (odd_div _ O).
        split; [|lia]. split; [lia|]. exists (d + 1). split; [lia|]. rewrite Z.pow_add_r by lia. change (2 ^ 1) with 2.
        rewrite Ed at 1. rewrite H at 1. ring.
      * eexists; split; [reflexivity|]. cbn. split; auto. split; eauto.
    + eexists; split; [reflexivity|]. cbn. split; auto. split; [right; lia|]. eauto.
  - rewrite E. exists x, d. auto.
Qed.

Lemma lowbit_pow2 c : 0 <= c -> lowbit (2 ^ c) = 2 ^ c.
Proof.
  intro H. rewrite lowbit_ctz by (apply Z.pow_pos_nonneg; lia). f_equal.
  replace (2 ^ c) with (2 ^ c * (2 * 0 + 1)) by lia. apply ctz_unique; lia.
Qed.
Lemma lowbit_fix x : 0 < x -> lowbit x = x -> exists c, 0 <= c /\ x = 2 ^ c.
Proof. intros Hx H. exists (ctz x). split; [apply ctz_nonneg|]. rewrite <- H at 1. now apply lowbit_ctz. Qed.
Lemma pow2_between c k x : 0 <= c -> 0 <= k -> x = 2 ^ c -> 2 ^ k <= x <= 2 * 2 ^ k -> x = 2 ^ k \/ x = 2 * 2 ^ k.
Proof.
  intros Hc Hk -> H. destruct (Z.lt_trichotomy c k) as [L|[->|L]]; auto.
  - exfalso. assert (2 ^ c < 2 ^ k) by (apply Z.pow_lt_mono_r; lia). lia.
  - right. rewrite <- Z.pow_succ_r in * by lia. assert (c <= Z.succ k); [|f_equal; lia].
    destruct (Z.le_gt_cases c (Z.succ k)); auto. assert (2 ^ Z.succ k < 2 ^ c) by (apply Z.pow_lt_mono_r; lia). lia.
Qed.

Lemma ceil_pow2_exact h : 0 <= h -> ceil_pow2 (2 ^ h) = Ok (2 ^ h).
Proof.
  intro Hh. unfold ceil_pow2.
  destruct (loop_inv (fun m => exists k, 0 <= k <= h /\ m = 2 ^ k) (fun m => Z.to_nat (2 ^ h - m))
    (fun m => m = 2 ^ h)
    (fun m => if m <? 2 ^ h then Ok (inl (2 * m)) else Ok (inr m)) (S (Z.to_nat (2 ^ h))) 1) as (m & E & ->); auto.
  - exists 0; split; [lia|reflexivity].
  - lia.
  - intros m (k & Hk & ->). pose proof (Z.pow_pos_nonneg 2 k ltac:(lia) ltac:(lia)). destruct (2 ^ k <? 2 ^ h) eqn:B.
    + eexists; split; [reflexivity|]. split; [|lia]. exists (k + 1). rewrite Z.pow_add_r by lia. split; [|lia].
      assert (k <> h) by (intros ->; lia). lia.
    + eexists; split; [reflexivity|]. assert (2 ^ k <= 2 ^ h) by (apply Z.pow_le_mono_r; lia). cbn beta iota; lia.
Qed.

Section LP2.
  Context {T F : Type}.
  Variables (op : T -> T -> T) (e : T) (mapping : F -> T -> T) (comp : F -> F -> F) (idf : F).
  Hypothesis M : is_monoid op e.
  Hypothesis Act : is_action op mapping comp idf.
  Notation lseg := (lseg T F).
  Notation LJ := (LJ op mapping).
  Notation LS := (LS op e mapping).

  (* product of leaf positions x..y-1 *)
  Definition pa (h : Z) (a : Z -> T) (x y : Z) : T := prod_ op e (fun q => a (q - 2 ^ h)) x y.

  Lemma node_val S n h s a k j : 0 <= h -> LJ none S n h s a -> 0 <= j <= h -> 2 ^ (h - j) <= k < 2 * 2 ^ (h - j) -> k = 1 \/ S (k / 2) ->
    vget (ls_data s) k = Ok (pa h a (k * 2 ^ j) ((k + 1) * 2 ^ j)).
  Proof.
    intros Hh (g & z & A & I) Hj Hk HS. 
    pose proof (Z.pow_pos_nonneg 2 (h - j) ltac:(lia) ltac:(lia)). assert (2 ^ (h - j) <= 2 ^ h) by (apply Z.pow_le_mono_r; lia).
    rewrite (rep_get _ _ _ _ (li_data _ _ _ _ _ _ _ _ _ _ _ I)) by lia. f_equal.
    pose proof (A_id _ _ _ _ _ _ _ _ _ _ _ Hh I k ltac:(lia) HS (g k)) as Ak.
    rewrite <- Ak. set (f := fun q => A q (g q)).
    pose proof (tv_tree _ _ _ _ Act _ _ _ _ _ _ _ _ _ Hh I ltac:(now unfold none)) as Ht.
    assert (G : forall i, 0 <= i -> i <= j -> A k (g k) = prod_ op e f (k * 2 ^ i) ((k + 1) * 2 ^ i)).
    { intros i Hi. pattern i. apply natlike_ind; auto.
      - intros _. rewrite Z.pow_0_r, !Z.mul_1_r. symmetry. apply (prod_one op e M f k).
      - intros x Hx IH Hxj. rewrite (IH ltac:(lia)). rewrite Z.pow_succ_r by auto.
        replace (k * (2 * 2 ^ x)) with (2 * (k * 2 ^ x)) by ring. replace ((k + 1) * (2 * 2 ^ x)) with (2 * ((k + 1) * 2 ^ x)) by ring.
        apply (prod_double op e M). intros q Hq. apply Ht.
        pose proof (Z.pow_pos_nonneg 2 x ltac:(lia) Hx).
        assert (2 * 2 ^ (h - j) * 2 ^ x <= 2 ^ h).
        { rewrite <- Z.pow_succ_r by lia. rewrite <- Z.pow_add_r by lia. apply Z.pow_le_mono_r; lia. }
        assert ((k + 1) * 2 ^ x <= 2 * 2 ^ (h - j) * 2 ^ x) by (apply Z.mul_le_mono_nonneg_r; lia). nia. }
    rewrite (G j) by lia. unfold pa. apply prod_ext. intros q Hq. unfold f.
    pose proof (pow_split h j Hj) as Eh. pose proof (Z.pow_pos_nonneg 2 j ltac:(lia) ltac:(lia)).
    assert (2 ^ h <= q < 2 * 2 ^ h).
    { rewrite Eh. assert ((k + 1) * 2 ^ j <= 2 * 2 ^ (h - j) * 2 ^ j) by (apply Z.mul_le_mono_nonneg_r; lia).
      assert (2 ^ (h - j) * 2 ^ j <= k * 2 ^ j) by (apply Z.mul_le_mono_nonneg_r; lia). lia. }
    rewrite <- (li_leaf _ _ _ _ _ _ _ _ _ _ _ I (q - 2 ^ h)) by lia. replace (2 ^ h + (q - 2 ^ h)) with q by lia. auto.
  Qed.

  Lemma LJ_m D S n h s a : LJ D S n h s a -> ls_m s = 2 ^ h.
  Proof. intros (? & ? & ? & I). apply I. Qed.
  Lemma LJ_n D S n h s a : LJ D S n h s a -> ls_n s = n.
  Proof. intros (? & ? & ? & I). apply I. Qed.

  Lemma mr_descend_ok S n h s a l sum g j x0 : 0 <= h -> LJ none S n h s a -> 0 <= j <= h -> 2 ^ (h - j) <= l < 2 * 2 ^ (h - j) ->
    l = 1 \/ S (l / 2) -> 2 ^ h <= x0 <= l * 2 ^ j -> sum = pa h a x0 (l * 2 ^ j) -> g sum = true -> g (pa h a x0 ((l + 1) * 2 ^ j)) = false ->
    exists y s', mr_descend op mapping comp idf g s l sum = Ok (y, s') /\ LJ none none n h s' a /\
      x0 <= y < 2 * 2 ^ h /\ g (pa h a x0 y) = true /\ g (pa h a x0 (y + 1)) = false.
  Proof.
    intros Hh I Hj Hl HS Hx Hs Hg Hg'. unfold mr_descend. rewrite (LJ_m _ _ _ _ _ _ I).
    match goal with |- context [loop ?fu ?bo ?st] =>
      destruct (loop_inv (fun '(l, sum, s) => exists S j, LJ none S n h s a /\ 0 <= j <= h /\ 2 ^ (h - j) <= l < 2 * 2 ^ (h - j) /\
         (l = 1 \/ S (l / 2)) /\ x0 <= l * 2 ^ j /\ sum = pa h a x0 (l * 2 ^ j) /\ g sum = true /\ g (pa h a x0 ((l + 1) * 2 ^ j)) = false)
        (fun '(l, _, _) => Z.to_nat (2 ^ h - l))
        (fun '(y, s') => LJ none none n h s' a /\ x0 <= y < 2 * 2 ^ h /\ g (pa h a x0 y) = true /\ g (pa h a x0 (y + 1)) = false) bo fu st) as ([y s'] & E & Q)
    end.
    - exists S, j. repeat split; auto; lia.
    - lia.
    - clear S s l sum j I Hj Hl HS Hx Hs Hg Hg'. intros [[l sum] s] (S & j & I & Hj & Hl & HS & Hx & Hs & Hg & Hg').
      rewrite (LJ_m _ _ _ _ _ _ I). pose proof (Z.pow_pos_nonneg 2 (h - j) ltac:(lia) ltac:(lia)).
      destruct (l <? 2 ^ h) eqn:B.
      + assert (1 <= j). { destruct (Z.eq_dec j 0) as [->|]; [|lia]. rewrite Z.sub_0_r in Hl. lia. }
        destruct (push_ok op e _ _ _ Act S n h s a l Hh I ltac:(lia) HS) as (s1 & E1 & I1). rewrite E1; cbn [bind].
        assert (EQ : 2 * 2 ^ (h - j) = 2 ^ (h - (j - 1))) by (rewrite <- Z.pow_succ_r by lia; f_equal; lia).
        assert (EJ : 2 ^ j = 2 * 2 ^ (j - 1)) by (rewrite <- Z.pow_succ_r by lia; f_equal; lia).
        pose proof (Z.pow_pos_nonneg 2 (j - 1) ltac:(lia) ltac:(lia)) as PJ.
        assert (D1 : 2 * l / 2 = l) by (rewrite Z.mul_comm; apply Z.div_mul; lia).
        assert (D2 : (2 * l + 1) / 2 = l) by (symmetry; apply Z.div_unique with 1; lia).
        rewrite (node_val _ n h s1 a (2 * l) (j - 1) Hh I1 ltac:(lia) ltac:(lia) ltac:(right; rewrite D1; auto)). cbn [bind].
        assert (Es : op sum (pa h a (2 * l * 2 ^ (j - 1)) ((2 * l + 1) * 2 ^ (j - 1))) = pa h a x0 ((2 * l + 1) * 2 ^ (j - 1))).
        { rewrite Hs, EJ. unfold pa. replace (l * (2 * 2 ^ (j - 1))) with (2 * l * 2 ^ (j - 1)) by ring.
          symmetry. apply (prod_split op e M). rewrite EJ in Hx. split; nia. }
        rewrite Es. destruct (g (pa h a x0 ((2 * l + 1) * 2 ^ (j - 1)))) eqn:Eg.
        * eexists; split; [reflexivity|]. cbn. split; [|lia]. exists (fun q => S q \/ q = l), (j - 1). rewrite <- EQ.
          repeat split; auto; try lia; try (right; right; now auto); try (rewrite EJ in Hx; nia).
          { rewrite <- Hg'. do 2 f_equal. rewrite EJ. ring. }
        * eexists; split; [reflexivity|]. cbn. split; [|lia]. exists (fun q => S q \/ q = l), (j - 1). rewrite <- EQ.
          repeat split; auto; try lia; try (right; right; now auto); try (rewrite EJ in Hx; nia).
          { rewrite Hs. f_equal. rewrite EJ. ring. }
      + eexists; split; [reflexivity|]. cbn.
        assert (j = 0). { destruct (Z.eq_dec j 0) as [|N]; auto. assert (2 * 2 ^ (h - j) <= 2 ^ h); [|lia]. rewrite <- Z.pow_succ_r by lia. apply Z.pow_le_mono_r; lia. }
        subst j. rewrite Z.pow_0_r in *. rewrite Z.sub_0_r in Hl. rewrite !Z.mul_1_r in *. repeat split; auto; try lia.
        * eapply LJ_forget; eauto.
        * now rewrite <- Hs.
    - exists y, s'. auto.
  Qed.

  Lemma max_right_raw n h s a l g : 0 <= h -> LJ none none n h s a -> n <= 2 ^ h -> 0 <= l < n -> g e = true ->
    exists r s', lseg_max_right op e mapping comp idf s l g = Ok (r, s') /\ LJ none none n h s' a /\
     ((r = n /\ g (pa h a (l + 2 ^ h) (2 * 2 ^ h)) = true) \/
      (l <= r < 2 ^ h /\ g (pa h a (l + 2 ^ h) (r + 2 ^ h)) = true /\ g (pa h a (l + 2 ^ h) (r + 1 + 2 ^ h)) = false)).
  Proof.
    intros Hh I Hn Hl He. unfold lseg_max_right. rewrite (LJ_n _ _ _ _ _ _ I), (LJ_m _ _ _ _ _ _ I).
    replace ((0 <=? l) && (l <=? n)) with true by lia. rewrite He. cbn [assert_ bind]. replace (l =? n) with false by lia.
    pose proof (Z.pow_pos_nonneg 2 h ltac:(lia) Hh) as Pm.
    destruct (push_path_ok op e mapping comp idf Act none n h s a (l + 2 ^ h) 0 Hh I ltac:(lia) ltac:(lia)) as (s1 & E1 & I1).
    rewrite E1; cbn [bind]. rewrite (LJ_m _ _ _ _ _ _ I1). set (L := l + 2 ^ h) in *.
    set (S := fun q => none q \/ path h L 0 q) in *.
    match goal with |- context [loop ?fu ?bo ?st] =>
      destruct (loop_inv (fun '(x, sum, s) => exists j, LJ none S n h s a /\ 0 <= j <= h /\ 2 ^ (h - j) <= x < 2 * 2 ^ (h - j) /\
         (Z.odd x = true -> x = cdiv L j) /\ (Z.odd x = false -> x / 2 = cdiv L (j + 1)) /\ L <= x * 2 ^ j /\ sum = pa h a L (x * 2 ^ j) /\ g sum = true)
        (fun '(x, _, _) => Z.to_nat (2 * 2 ^ h - x * 2 ^ (h - Z.log2 x)))
        (fun '(r, s') => LJ none none n h s' a /\ ((r = n /\ g (pa h a L (2 * 2 ^ h)) = true) \/
      (l <= r < 2 ^ h /\ g (pa h a L (r + 2 ^ h)) = true /\ g (pa h a L (r + 1 + 2 ^ h)) = false))) bo fu st) as ([r s'] & E & Q)
    end.
    - exists 0. rewrite Z.sub_0_r, Z.pow_0_r, Z.mul_1_r, cdiv_0. repeat split; auto; try lia.
      + intro Ho. rewrite <- cdiv_S, cdiv_0 by lia. pose proof (even_div _ Ho). lia.
      + unfold pa. rewrite prod_nil by lia. auto.
    - apply Nat.lt_succ_r. apply Z2Nat.inj_le; try lia.
      + pose proof (Z.log2_spec L ltac:(lia)) as [B1 B2].
        assert (Z.log2 L = h) as -> by (apply Z.log2_unique; [lia|rewrite Z.pow_succ_r by lia; lia]). rewrite Z.sub_diag, Z.pow_0_r. lia.
      + pose proof (Z.pow_nonneg 2 (h - Z.log2 L) ltac:(lia)). nia.
    - clear s s1 I I1 E1. intros [[x sum] s] (j & I & Hj & Hx & Hod & Hev & HL & Hs & Hg).
      pose proof (Z.pow_pos_nonneg 2 (h - j) ltac:(lia) ltac:(lia)). pose proof (Z.pow_pos_nonneg 2 j ltac:(lia) ltac:(lia)).
      destruct (strip_even_ok x ltac:(lia)) as (y & d & Ey & Hd & Exy & Hyo & Hy). rewrite Ey; cbn [bind].
      pose proof (pow_split h j Hj) as Eh.
      assert (Epos : x * 2 ^ j = y * 2 ^ (j + d)) by (rewrite Exy, Z.pow_add_r by lia; ring).
      assert (Hyc : y = cdiv L (j + d)).
      { destruct (Z.odd x) eqn:Ox.
        - destruct (Z.eq_dec d 0) as [->|Nd]; [rewrite Z.pow_0_r, Z.mul_1_r in Exy; rewrite Z.add_0_r; rewrite <- Exy; auto|].
          exfalso. replace d with (1 + (d - 1)) in Exy by lia. rewrite Z.pow_add_r in Exy by lia. change (2 ^ 1) with 2 in Exy.
          pose proof (odd_div _ Ox). set (u := 2 ^ (d - 1)) in *. clearbody u. lia.
        - specialize (Hev eq_refl). destruct (Z.eq_dec d 0) as [->|Nd]; [rewrite Z.pow_0_r, Z.mul_1_r in Exy; congruence|].
          apply cdiv_unique; [lia|]. rewrite <- Epos. split; auto.
          pose proof (cdiv_bound L (j + 1) ltac:(lia)) as B. rewrite <- Hev in B.
          pose proof (even_div _ Ox) as Ex. replace (x / 2 * 2 ^ (j + 1)) with (x * 2 ^ j) in B by (rewrite Z.pow_add_r by lia; change (2 ^ 1) with 2; rewrite Ex at 1; ring).
          assert (2 ^ (j + 1) <= 2 ^ (j + d)) by (apply Z.pow_le_mono_r; lia). lia. }
      assert (Bx : 2 ^ h <= x * 2 ^ j < 2 * 2 ^ h).
      { rewrite Eh. set (w := 2 ^ j) in *. set (q := 2 ^ (h - j)) in *. clearbody w q. nia. }
      assert (Hj' : j + d <= h).
      { destruct (Z.le_gt_cases (j + d) h); auto. exfalso. assert (2 * 2 ^ h <= 2 ^ (j + d)) by (rewrite <- Z.pow_succ_r by lia; apply Z.pow_le_mono_r; lia).
        rewrite Epos in Bx. set (w := 2 ^ (j + d)) in *. clearbody w. nia. }
      set (j' := j + d) in *. pose proof (Z.pow_pos_nonneg 2 (h - j') ltac:(lia) ltac:(lia)) as PQ'. pose proof (Z.pow_pos_nonneg 2 j' ltac:(lia) ltac:(lia)) as PJ'.
      pose proof (pow_split h j' ltac:(lia)) as Eh'.
      assert (Hy2 : 2 ^ (h - j') <= y < 2 * 2 ^ (h - j')).
      { rewrite Epos, Eh' in Bx. set (w := 2 ^ j') in *. set (q := 2 ^ (h - j')) in *. clearbody w q. nia. }
      assert (HSy : y = 1 \/ S (y / 2)).
      { destruct (Z.eq_dec j' h) as [Ejh|Nj]; [left; rewrite Ejh, Z.sub_diag in Hy2; change (2 ^ 0) with 1 in Hy2; lia|].
        right. right. exists (j' + 1). split; [lia|]. rewrite Hyc. apply odd_parent; try lia. now rewrite <- Hyc. }
      rewrite (node_val S n h s a y j' Hh I ltac:(lia) Hy2 HSy). cbn [bind]. rewrite Epos in Hs.
      assert (Es : op sum (pa h a (y * 2 ^ j') ((y + 1) * 2 ^ j')) = pa h a L ((y + 1) * 2 ^ j')).
      { rewrite Hs. unfold pa. symmetry. apply (prod_split op e M). rewrite <- Epos. split; [lia|]. rewrite Epos. nia. }
      rewrite Es. destruct (g (pa h a L ((y + 1) * 2 ^ j'))) eqn:Eg; cbn [negb].
      + assert (Bl : L <= (y + 1) * 2 ^ j') by nia.
        destruct (Z.eq_dec (y + 1) (2 * 2 ^ (h - j'))) as [Et|Nt].
        * rewrite Et. rewrite <- Z.pow_succ_r by lia. rewrite lowbit_pow2 by lia. rewrite Z.eqb_refl. cbn [negb].
          eexists; split; [reflexivity|]. cbn. split; [eapply LJ_forget; eauto|]. left. split; [eapply LJ_n; eauto|].
          rewrite <- Eg. do 2 f_equal. rewrite Et, Eh'. ring.
        * replace (lowbit (y + 1) =? y + 1) with false.
          2:{ symmetry. apply Z.eqb_neq. intro Q. destruct (lowbit_fix (y + 1) ltac:(lia) Q) as (c & Hc & Ec).
              destruct (pow2_between c (h - j') _ Hc ltac:(lia) Ec ltac:(lia)); lia. }
          cbn [negb]. eexists; split; [reflexivity|]. cbn. split.
          { exists j'. repeat split; auto; try lia.
            - intro Ho. exfalso. rewrite Z.odd_add, Hyo in Ho. discriminate.
            - intros _. rewrite Hyc. apply cdiv_S. lia. }
          { rewrite (level_log2 h j x) by auto. rewrite (level_log2 h j' (y + 1)) by lia.
            replace (h - (h - j)) with j by lia. replace (h - (h - j')) with j' by lia. rewrite Epos.
            assert ((y + 1) * 2 ^ j' <= 2 * 2 ^ h).
            { rewrite Eh'. set (w := 2 ^ j') in *. set (q := 2 ^ (h - j')) in *. clearbody w q. nia. }
            apply Z2Nat.inj_lt; nia. }
      + destruct (mr_descend_ok S n h s a y sum g j' L Hh I ltac:(lia) Hy2 HSy ltac:(lia) Hs Hg Eg) as (p & s2 & E2 & I2 & Hp & G1 & G2).
        rewrite E2; cbn [bind]. rewrite (LJ_m _ _ _ _ _ _ I2). eexists; split; [reflexivity|]. cbn. split; auto. right.
        replace (p - 2 ^ h + 2 ^ h) with p by lia. replace (p - 2 ^ h + 1 + 2 ^ h) with (p + 1) by lia. repeat split; auto; lia.
    - exists r, s'. auto.
  Qed.

  Lemma pa_fold v h l r : zlen v <= 2 ^ h -> 0 <= l <= r -> r <= zlen v -> pa h (fun i => nth (Z.to_nat i) v e) (l + 2 ^ h) (r + 2 ^ h) = fold op e l r v.
  Proof.
    intros Hn Hl Hr. unfold pa, fold. apply (prod_pad op e v _ (2 ^ h)); try lia. intros i Hi. do 2 f_equal. lia.
  Qed.
  Lemma pa_all v h l : zlen v <= 2 ^ h -> 0 <= l <= zlen v -> pa h (fun i => nth (Z.to_nat i) v e) (l + 2 ^ h) (2 * 2 ^ h) = fold op e l (zlen v) v.
  Proof.
    intros Hn Hl. unfold pa, fold. replace (2 * 2 ^ h) with (2 ^ h + 2 ^ h) by lia. apply (prod_pad2 op e M v _ (2 ^ h)); try lia. intros i Hi. do 2 f_equal. lia.
  Qed.
  Lemma pa_over v h l r : 0 <= l <= zlen v -> zlen v <= r -> pa h (fun i => nth (Z.to_nat i) v e) (l + 2 ^ h) (r + 2 ^ h) = 
    pa h (fun i => nth (Z.to_nat i) v e) (l + 2 ^ h) (zlen v + 2 ^ h).
  Proof.
    intros Hl Hr. unfold pa. rewrite (prod_split op e M _ (l + 2 ^ h) (zlen v + 2 ^ h) (r + 2 ^ h)) by lia.
    rewrite (prod_e op e M _ (zlen v + 2 ^ h)); [apply M|]. intros i Hi. apply nth_overflow. unfold zlen in *. lia.
  Qed.

  Lemma lseg_max_right_ok s v l g : LS s v -> 0 <= l <= zlen v -> g e = true ->
    exists r s', lseg_max_right op e mapping comp idf s l g = Ok (r, s') /\ LS s' v /\ l <= r <= zlen v /\
      g (fold op e l r v) = true /\ (r = zlen v \/ g (fold op e l (r + 1) v) = false).
  Proof.
    intros (h & Hh & Hn & I) Hl He. destruct (Z.eq_dec l (zlen v)) as [->|N].
    - unfold lseg_max_right. rewrite (LJ_n _ _ _ _ _ _ I). replace (_ && _) with true by lia. rewrite He. cbn [assert_ bind].
      rewrite Z.eqb_refl. exists (zlen v), s. split; auto. split; [exists h; auto|]. split; [lia|]. split; auto.
      unfold fold, slice. rewrite Z.sub_diag. cbn. auto.
    - destruct (max_right_raw _ h s _ l g Hh I Hn ltac:(lia) He) as (r & s' & E & I' & Q).
      exists r, s'. split; auto. split; [exists h; auto|].
      destruct Q as [[-> G]|(Hr & G1 & G2)].
      + rewrite pa_all in G by lia. repeat split; auto; lia.
      + assert (r < zlen v).
        { destruct (Z.lt_ge_cases r (zlen v)); auto. rewrite (pa_over v h l r) in G1 by lia. rewrite (pa_over v h l (r + 1)) in G2 by lia. congruence. }
        rewrite (pa_fold v h l r) in G1 by lia. rewrite (pa_fold v h l (r + 1)) in G2 by lia. repeat split; auto; lia.
  Qed.

  (* ---- min_left ------------------------------------------------------------ *)
  Lemma ml_descend_ok S n h s a q sum g j x0 : 0 <= h -> LJ none S n h s a -> 0 <= j <= h -> 2 ^ (h - j) <= q < 2 * 2 ^ (h - j) ->
    q = 1 \/ S (q / 2) -> (q + 1) * 2 ^ j <= x0 <= 2 * 2 ^ h -> sum = pa h a ((q + 1) * 2 ^ j) x0 -> g sum = true -> g (pa h a (q * 2 ^ j) x0) = false ->
    exists y s', ml_descend op mapping comp idf g s q sum = Ok (y, s') /\ LJ none none n h s' a /\
      2 ^ h <= y < x0 /\ g (pa h a (y + 1) x0) = true /\ g (pa h a y x0) = false.
  Proof.
    intros Hh I Hj Hl HS Hx Hs Hg Hg'. unfold ml_descend. rewrite (LJ_m _ _ _ _ _ _ I).
    match goal with |- context [loop ?fu ?bo ?st] =>
      destruct (loop_inv (fun '(l, sum, s) => exists S j, LJ none S n h s a /\ 0 <= j <= h /\ 2 ^ (h - j) <= l < 2 * 2 ^ (h - j) /\
         (l = 1 \/ S (l / 2)) /\ (l + 1) * 2 ^ j <= x0 /\ sum = pa h a ((l + 1) * 2 ^ j) x0 /\ g sum = true /\ g (pa h a (l * 2 ^ j) x0) = false)
        (fun '(l, _, _) => Z.to_nat (2 ^ h - l))
        (fun '(y, s') => LJ none none n h s' a /\ 2 ^ h <= y < x0 /\ g (pa h a (y + 1) x0) = true /\ g (pa h a y x0) = false) bo fu st) as ([y s'] & E & Q)
    end.
    - exists S, j. repeat split; auto; lia.
    - lia.
    - destruct Hx as [_ Hx0]. clear S s q sum j I Hj Hl HS Hs Hg Hg'. intros [[l sum] s] (S & j & I & Hj & Hl & HS & Hx & Hs & Hg & Hg').
      rewrite (LJ_m _ _ _ _ _ _ I). pose proof (Z.pow_pos_nonneg 2 (h - j) ltac:(lia) ltac:(lia)).
      destruct (l <? 2 ^ h) eqn:B.
      + assert (1 <= j). { destruct (Z.eq_dec j 0) as [->|]; [|lia]. rewrite Z.sub_0_r in Hl. lia. }
        destruct (push_ok op e _ _ _ Act S n h s a l Hh I ltac:(lia) HS) as (s1 & E1 & I1). rewrite E1; cbn [bind].
        assert (EQ : 2 * 2 ^ (h - j) = 2 ^ (h - (j - 1))) by (rewrite <- Z.pow_succ_r by lia; f_equal; lia).
        assert (EJ : 2 ^ j = 2 * 2 ^ (j - 1)) by (rewrite <- Z.pow_succ_r by lia; f_equal; lia).
        pose proof (Z.pow_pos_nonneg 2 (j - 1) ltac:(lia) ltac:(lia)) as PJ.
        assert (D1 : 2 * l / 2 = l) by (rewrite Z.mul_comm; apply Z.div_mul; lia).
        assert (D2 : (2 * l + 1) / 2 = l) by (symmetry; apply Z.div_unique with 1; lia).
        rewrite (node_val _ n h s1 a (2 * l + 1) (j - 1) Hh I1 ltac:(lia) ltac:(lia) ltac:(right; rewrite D2; auto)). cbn [bind].
        assert (Es : op (pa h a ((2 * l + 1) * 2 ^ (j - 1)) ((2 * l + 1 + 1) * 2 ^ (j - 1))) sum = pa h a ((2 * l + 1) * 2 ^ (j - 1)) x0).
        { rewrite Hs, EJ. unfold pa. replace ((l + 1) * (2 * 2 ^ (j - 1))) with ((2 * l + 1 + 1) * 2 ^ (j - 1)) by ring.
          symmetry. apply (prod_split op e M). rewrite EJ in Hx. split; nia. }
        rewrite Es. destruct (g (pa h a ((2 * l + 1) * 2 ^ (j - 1)) x0)) eqn:Eg.
        * eexists; split; [reflexivity|]. replace (2 * l + 1 - 1) with (2 * l) by lia.
          cbn. split; [|lia]. exists (fun q => S q \/ q = l), (j - 1). rewrite <- EQ.
          repeat split; auto; try lia; try (right; right; now auto); try (rewrite EJ in Hx; nia).
          { rewrite <- Hg'. do 2 f_equal. rewrite EJ. ring. }
        * eexists; split; [reflexivity|]. cbn. split; [|lia]. exists (fun q => S q \/ q = l), (j - 1). rewrite <- EQ.
          repeat split; auto; try lia; try (right; right; now auto); try (rewrite EJ in Hx; nia).
          { rewrite Hs. f_equal. rewrite EJ. ring. }
      + eexists; split; [reflexivity|]. cbn.
        assert (j = 0). { destruct (Z.eq_dec j 0) as [|N]; auto. assert (2 * 2 ^ (h - j) <= 2 ^ h); [|lia]. rewrite <- Z.pow_succ_r by lia. apply Z.pow_le_mono_r; lia. }
        subst j. rewrite Z.pow_0_r in *. rewrite Z.sub_0_r in Hl. rewrite !Z.mul_1_r in *. repeat split; auto; try lia.
        * eapply LJ_forget; eauto.
        * now rewrite <- Hs.
    - exists y, s'. auto.
  Qed.

  Lemma min_left_raw n h s a r g : 0 <= h -> LJ none none n h s a -> n <= 2 ^ h -> 0 < r <= n -> (r < 2 ^ h \/ h = 0) -> g e = true ->
    exists l s', lseg_min_left op e mapping comp idf s r g = Ok (l, s') /\ LJ none none n h s' a /\
     0 <= l <= r /\ g (pa h a (l + 2 ^ h) (r + 2 ^ h)) = true /\ (l = 0 \/ g (pa h a (l - 1 + 2 ^ h) (r + 2 ^ h)) = false).
  Proof.
    intros Hh I Hn Hr Hrm He. unfold lseg_min_left. rewrite (LJ_n _ _ _ _ _ _ I), (LJ_m _ _ _ _ _ _ I).
    replace ((0 <=? r) && (r <=? n)) with true by lia. rewrite He. cbn [assert_ bind]. replace (r =? 0) with false by lia.
    pose proof (Z.pow_pos_nonneg 2 h ltac:(lia) Hh) as Pm.
    destruct (push_path_ok op e mapping comp idf Act none n h s a (r + 2 ^ h) 0 Hh I ltac:(lia) ltac:(lia)) as (s1 & E1 & I1).
    rewrite E1; cbn [bind]. rewrite (LJ_m _ _ _ _ _ _ I1). set (R := r + 2 ^ h) in *.
    set (S := fun q => none q \/ path h R 0 q) in *.
    match goal with |- context [loop ?fu ?bo ?st] =>
      destruct (loop_inv (fun '(x, sum, s) => exists j, LJ none S n h s a /\ 0 <= j <= h /\ 2 ^ (h - j) < x /\ x <= 2 * 2 ^ (h - j) /\
         (Z.odd x = true -> x = R / 2 ^ j) /\ (Z.odd x = false -> x / 2 = R / 2 ^ (j + 1)) /\ x * 2 ^ j <= R /\ sum = pa h a (x * 2 ^ j) R /\ g sum = true)
        (fun '(x, _, _) => Z.to_nat ((x - 1) * 2 ^ (h - Z.log2 (x - 1)) + 2 ^ (h - Z.log2 (x - 1)) - 2 ^ h))
        (fun '(l, s') => LJ none none n h s' a /\ 
      0 <= l <= r /\ g (pa h a (l + 2 ^ h) R) = true /\ (l = 0 \/ g (pa h a (l - 1 + 2 ^ h) R) = false)) bo fu st) as ([l s'] & E & Q)
    end.
    - exists 0. rewrite Z.sub_0_r, Z.pow_0_r, Z.mul_1_r, Z.div_1_r. repeat split; auto; try lia.
      + unfold pa. rewrite prod_nil by lia. auto.
    - assert (Z.log2 (R - 1) = h) as -> by (apply Z.log2_unique; [lia|rewrite Z.pow_succ_r by lia; lia]). rewrite Z.sub_diag, Z.pow_0_r. lia.
    - clear s s1 I I1 E1. intros [[x sum] s] (j & I & Hj & Hx1 & Hx2 & Hod & Hev & HR & Hs & Hg).
      pose proof (Z.pow_pos_nonneg 2 (h - j) ltac:(lia) ltac:(lia)). pose proof (Z.pow_pos_nonneg 2 j ltac:(lia) ltac:(lia)).
      destruct (strip_odd_ok x ltac:(lia)) as (y & d & Ey & Hd & Exy & Hyo & Hy). rewrite Ey; cbn [bind].
      pose proof (pow_split h j Hj) as Eh.
      assert (Epos : x * 2 ^ j = (y + 1) * 2 ^ (j + d)) by (rewrite Exy, Z.pow_add_r by lia; ring).
      assert (Bx : 2 ^ h < x * 2 ^ j <= 2 * 2 ^ h).
      { rewrite Eh. set (w := 2 ^ j) in *. set (q := 2 ^ (h - j)) in *. clearbody w q. nia. }
      assert (Hj' : j + d <= h).
      { destruct (Z.le_gt_cases (j + d) h); auto. exfalso. assert (2 * 2 ^ h <= 2 ^ (j + d)) by (rewrite <- Z.pow_succ_r by lia; apply Z.pow_le_mono_r; lia).
        rewrite Epos in Bx. set (w := 2 ^ (j + d)) in *. clearbody w. nia. }
      set (j' := j + d) in *. pose proof (Z.pow_pos_nonneg 2 (h - j') ltac:(lia) ltac:(lia)) as PQ'. pose proof (Z.pow_pos_nonneg 2 j' ltac:(lia) ltac:(lia)) as PJ'.
      pose proof (pow_split h j' ltac:(lia)) as Eh'.
      assert (Hy2 : 2 ^ (h - j') <= y < 2 * 2 ^ (h - j')).
      { rewrite Epos, Eh' in Bx. set (w := 2 ^ j') in *. set (q := 2 ^ (h - j')) in *. clearbody w q. nia. }
      assert (HSy : y = 1 \/ y / 2 = R / 2 ^ (j' + 1)).
      { destruct (Z.eq_dec y 1) as [|N1]; auto. right. destruct Hyo as [Hyo|]; [|lia].
        assert (Yc : y + 1 = R / 2 ^ j').
        { destruct (Z.odd x) eqn:Ox.
          - destruct (Z.eq_dec d 0) as [->|Nd]; [rewrite Z.pow_0_r, Z.mul_1_r in Exy; unfold j'; rewrite Z.add_0_r; rewrite <- Exy; auto|].
            exfalso. replace d with (1 + (d - 1)) in Exy by lia. rewrite Z.pow_add_r in Exy by lia. change (2 ^ 1) with 2 in Exy.
            pose proof (odd_div _ Ox). set (u := 2 ^ (d - 1)) in *. clearbody u. lia.
          - specialize (Hev eq_refl). destruct (Z.eq_dec d 0) as [->|Nd].
            + rewrite Z.pow_0_r, Z.mul_1_r in Exy. exfalso. rewrite Exy, Z.odd_add, Hyo in Ox. discriminate.
            + symmetry. apply div_unique2; [lia|]. rewrite <- Epos. split; auto.
              pose proof (div_bound R (j + 1) ltac:(lia)) as B. rewrite <- Hev in B.
              pose proof (even_div _ Ox) as Ex.
              replace ((x / 2 + 1) * 2 ^ (j + 1)) with (x * 2 ^ j + 2 ^ (j + 1)) in B.
              2:{ rewrite Z.pow_add_r by lia. change (2 ^ 1) with 2. rewrite Ex at 1. ring. }
              assert (2 ^ (j + 1) <= 2 ^ j') by (apply Z.pow_le_mono_r; lia).
              rewrite Z.mul_add_distr_r, <- Epos. lia. }
        rewrite <- div_S by lia. rewrite <- Yc. pose proof (even_div _ Hyo) as Ez. rewrite Ez at 2. apply Z.div_unique with 1; lia. }
      assert (HSy' : y = 1 \/ S (y / 2)).
      { destruct HSy as [|HSy]; auto. destruct (Z.eq_dec j' h) as [Ejh|Nj]; [left; rewrite Ejh, Z.sub_diag in Hy2; change (2 ^ 0) with 1 in Hy2; lia|].
        right. right. exists (j' + 1). split; [lia|]. auto. }
      rewrite (node_val S n h s a y j' Hh I ltac:(lia) Hy2 HSy'). cbn [bind]. rewrite Epos in Hs.
      assert (Es : op (pa h a (y * 2 ^ j') ((y + 1) * 2 ^ j')) sum = pa h a (y * 2 ^ j') R).
      { rewrite Hs. unfold pa. symmetry. apply (prod_split op e M). rewrite <- Epos. split; [|lia]. rewrite Epos. clear - PJ'. lia. }
      assert (By : 2 ^ h <= y * 2 ^ j').
      { rewrite Eh'. apply Z.mul_le_mono_nonneg_r; lia. }
      rewrite Es. destruct (g (pa h a (y * 2 ^ j') R)) eqn:Eg; cbn [negb].
      + assert (y * 2 ^ j' < R) by (rewrite Epos, Z.mul_add_distr_r in HR; clear - HR PJ'; lia).
        destruct (Z.eq_dec y (2 ^ (h - j'))) as [Et|Nt].
        * rewrite Et. rewrite lowbit_pow2 by lia. rewrite Z.eqb_refl. cbn [negb].
          eexists; split; [reflexivity|]. cbn. split; [eapply LJ_forget; eauto|]. split; [lia|]. split; auto.
          rewrite <- Eg. do 2 f_equal. rewrite Et, Eh'. ring.
        * replace (lowbit y =? y) with false.
          2:{ symmetry. apply Z.eqb_neq. intro Q. destruct (lowbit_fix y ltac:(lia) Q) as (c & Hc & Ec).
              destruct (pow2_between c (h - j') _ Hc ltac:(lia) Ec ltac:(lia)); lia. }
          cbn [negb]. eexists; split; [reflexivity|]. cbn.
          assert (Ho : Z.odd y = false). { destruct Hyo as [|Q]; auto. subst y. lia. }
          split.
          { exists j'. repeat split; auto; try lia. }
          { rewrite (level_log2 h j (x - 1)) by lia. rewrite (level_log2 h j' (y - 1)) by lia.
            replace (h - (h - j)) with j by lia. replace (h - (h - j')) with j' by lia.
            replace ((x - 1) * 2 ^ j + 2 ^ j) with (x * 2 ^ j) by ring. rewrite Epos.
            replace ((y - 1) * 2 ^ j' + 2 ^ j') with (y * 2 ^ j') by ring. rewrite Z.mul_add_distr_r.
            clear - By PJ'. apply Z2Nat.inj_lt; lia. }
      + destruct (ml_descend_ok S n h s a y sum g j' R Hh I ltac:(lia) Hy2 HSy' ltac:(rewrite <- Epos; lia) Hs Hg Eg) as (p & s2 & E2 & I2 & Hp & G1 & G2).
        rewrite E2; cbn [bind]. rewrite (LJ_m _ _ _ _ _ _ I2). eexists; split; [reflexivity|]. cbn. split; auto.
        replace (p + 1 - 2 ^ h + 2 ^ h) with (p + 1) by lia. replace (p + 1 - 2 ^ h - 1 + 2 ^ h) with p by lia. repeat split; auto; lia.
    - exists l, s'. auto.
  Qed.

  Lemma lseg_min_left_ok s v r g : LS s v -> 0 <= r <= zlen v -> full_pow2 r v = false -> g e = true ->
    exists l s', lseg_min_left op e mapping comp idf s r g = Ok (l, s') /\ LS s' v /\ 0 <= l <= r /\
      g (fold op e l r v) = true /\ (l = 0 \/ g (fold op e (l - 1) r v) = false).
  Proof.
    intros (h & Hh & Hn & I) Hr Hf He. destruct (Z.eq_dec r 0) as [->|N].
    - unfold lseg_min_left. rewrite (LJ_n _ _ _ _ _ _ I). replace (_ && _) with true by lia. rewrite He. cbn [assert_ bind].
      rewrite Z.eqb_refl. exists 0, s. split; auto. split; [exists h; auto|]. split; [lia|]. split; auto.
    - assert (Hrm : r < 2 ^ h \/ h = 0).
      { destruct (Z.eq_dec h 0); auto. left. destruct (Z.eq_dec r (2 ^ h)) as [Er|]; [|lia]. exfalso.
        unfold full_pow2 in Hf. assert (2 <= 2 ^ h) by (change 2 with (2 ^ 1) at 1; apply Z.pow_le_mono_r; lia).
        replace (2 ^ Z.log2 r) with r in Hf by (rewrite Er, Z.log2_pow2 by lia; auto). lia. }
      destruct (min_left_raw _ h s _ r g Hh I Hn ltac:(lia) Hrm He) as (l & s' & E & I' & Hl & G1 & G2).
      exists l, s'. split; auto. split; [exists h; auto|]. split; auto.
      rewrite (pa_fold v h l r) in G1 by lia. split; auto. destruct G2 as [|G2]; auto.
      destruct (Z.eq_dec l 0); auto. right. rewrite (pa_fold v h (l - 1) r) in G2 by lia. auto.
  Qed.

  Lemma lsstep_sim s v o : LS s v ->
    match lsspec op e mapping v o with
    | Ok (r, v') => exists s', lsstep op e mapping comp idf s o = Ok (r, s') /\ LS s' v'
    | Abort => lsstep op e mapping comp idf s o = Abort
    | OutOfFuel => False
    | UB => True
    end.
  Proof.
    intro I. assert (En : ls_n s = zlen v) by (destruct I as (h & _ & _ & I); eapply LJ_n; eauto).
    pose proof (zlen_nonneg v) as Zv.
    destruct o as [l r f|i f|i x|i|l r|r| |l g|r g]; cbn [lsspec lsstep]; unfold in_range, in_interval.
    - destruct ((0 <=? l) && (l <=? r) && (r <=? zlen v)) eqn:B.
      + destruct (lseg_apply_ok op e mapping comp idf Act s v l r f I ltac:(lia) ltac:(lia)) as (s' & E & I'). rewrite E; cbn [bind]. eauto.
      + unfold lseg_apply. rewrite En, B. reflexivity.
    - destruct ((0 <=? i) && (i <? zlen v)) eqn:B.
      + rewrite (vget_nth e) by lia. cbn [bind]. unfold lseg_apply1.
        destruct (lseg_get_ok op e mapping comp idf Act s v i I ltac:(lia)) as (s1 & E1 & I1). rewrite E1; cbn [bind].
        destruct (lseg_set_ok op e mapping comp idf Act s1 v i (mapping f (nth (Z.to_nat i) v e)) I1 ltac:(lia)) as (s2 & E2 & I2). rewrite E2; cbn [bind]. eauto.
      + unfold lseg_apply1, lseg_get. rewrite En, B. reflexivity.
    - destruct ((0 <=? i) && (i <? zlen v)) eqn:B.
      + destruct (lseg_set_ok op e mapping comp idf Act s v i x I ltac:(lia)) as (s2 & E2 & I2). rewrite E2; cbn [bind]. eauto.
      + unfold lseg_set. rewrite En, B. reflexivity.
    - destruct ((0 <=? i) && (i <? zlen v)) eqn:B.
      + rewrite (vget_nth e) by lia. cbn [bind].
        destruct (lseg_get_ok op e mapping comp idf Act s v i I ltac:(lia)) as (s1 & E1 & I1). rewrite E1; cbn [bind]. eauto.
      + unfold lseg_get. rewrite En, B. reflexivity.
    - destruct ((0 <=? l) && (l <=? r) && (r <=? zlen v)) eqn:B.
      + destruct (lseg_prod_ok op e mapping comp idf M Act s v l r I ltac:(lia) ltac:(lia)) as (s' & E & I'). rewrite E; cbn [bind]. eauto.
      + unfold lseg_prod. rewrite En, B. reflexivity.
    - unfold lseg_prefix. destruct ((0 <=? 0) && (0 <=? r) && (r <=? zlen v)) eqn:B.
      + destruct (lseg_prod_ok op e mapping comp idf M Act s v 0 r I ltac:(lia) ltac:(lia)) as (s' & E & I'). rewrite E; cbn [bind]. eauto.
      + unfold lseg_prod. rewrite En, B. reflexivity.
    - rewrite (lseg_all_ok op e mapping comp idf M Act s v I). cbn [bind]. eauto.
    - destruct ((0 <=? l) && (l <=? zlen v) && (zlen v <=? zlen v)) eqn:B.
      + destruct (g e) eqn:Ge.
        * destruct (initial (rights op e g l v)) eqn:Bi; auto.
          destruct (lseg_max_right_ok s v l g I ltac:(lia) Ge) as (r & s' & E & I' & Hr & G1 & G2). rewrite E; cbn [bind].
          unfold rights in *. rewrite (trues_char _ _ (r - l)); try lia; auto.
          { replace (l + (r - l + 1) - 1) with r by lia. eauto. }
          { now replace (l + (r - l)) with r by lia. }
          { destruct G2 as [->|G2]; [left; lia|]. right. now replace (l + (r - l + 1)) with (r + 1) by lia. }
        * unfold lseg_max_right. rewrite En, Ge. replace ((0 <=? l) && (l <=? zlen v)) with true by lia. reflexivity.
      + unfold lseg_max_right. rewrite En. replace ((0 <=? l) && (l <=? zlen v)) with false by lia. reflexivity.
    - destruct ((0 <=? 0) && (0 <=? r) && (r <=? zlen v)) eqn:B.
      + destruct (g e) eqn:Ge.
        * destruct (full_pow2 r v) eqn:Bf; auto. destruct (initial (lefts op e g r v)) eqn:Bi; auto.
          destruct (lseg_min_left_ok s v r g I ltac:(lia) Bf Ge) as (l & s' & E & I' & Hl & G1 & G2). rewrite E; cbn [bind].
          unfold lefts in *. rewrite (trues_char _ _ (r - l)); try lia; auto.
          { replace (r - (r - l + 1 - 1)) with l by lia. eauto. }
          { now replace (r - (r - l)) with l by lia. }
          { destruct G2 as [->|G2]; [left; lia|]. right. now replace (r - (r - l + 1)) with (l - 1) by lia. }
        * unfold lseg_min_left. rewrite En, Ge. replace ((0 <=? r) && (r <=? zlen v)) with true by lia. reflexivity.
      + unfold lseg_min_left. rewrite En. replace ((0 <=? r) && (r <=? zlen v)) with false by lia. reflexivity.
  Qed.

  (* the full-range case of min_left is broken *)
  Lemma push_out s k : zlen (ls_lazy s) <= k -> lpush mapping comp idf s k = UB.
  Proof.
    intro H. unfold lpush. destruct (vget (ls_lazy s) k) eqn:V; auto.
    - apply vget_range in V. lia.
    - unfold vget in V. destruct (k <? 0); [discriminate|]. destruct (nth_error _ _); discriminate.
    - unfold vget in V. destruct (k <? 0); [discriminate|]. destruct (nth_error _ _); discriminate.
  Qed.
  Definition LL (m : Z) (s : lseg) : Prop := ls_m s = m /\ zlen (ls_data s) = 2 * m /\ zlen (ls_lazy s) = m.
  Lemma all_apply_len m s k f : LL m s -> 1 <= k < 2 * m -> exists s', all_apply mapping comp s k f = Ok s' /\ LL m s'.
  Proof.
    intros (E1 & E2 & E3) Hk. unfold all_apply. rewrite (vget_nth e) by lia. cbn [bind]. rewrite vset_ok by lia. cbn [bind].
    rewrite E1. destruct (k <? m) eqn:B.
    - rewrite (vget_nth idf) by lia. cbn [bind]. rewrite vset_ok by lia. cbn [bind]. eexists; split; [reflexivity|].
      unfold LL. cbn. rewrite !zlen_zupd. auto.
    - eexists; split; [reflexivity|]. unfold LL. cbn. rewrite !zlen_zupd. auto.
  Qed.
  Lemma push_len m s k : LL m s -> 1 <= k < m -> exists s', lpush mapping comp idf s k = Ok s' /\ LL m s'.
  Proof.
    intros H Hk. unfold lpush. pose proof H as (E1 & E2 & E3). rewrite (vget_nth idf) by lia. cbn [bind].
    destruct (all_apply_len m s (2 * k) (nth (Z.to_nat k) (ls_lazy s) idf) H ltac:(lia)) as (s1 & X1 & H1). rewrite X1; cbn [bind].
    pose proof H1 as (F1 & F2 & F3). rewrite (vget_nth idf) by lia. cbn [bind].
    destruct (all_apply_len m s1 (2 * k + 1) (nth (Z.to_nat k) (ls_lazy s1) idf) H1 ltac:(lia)) as (s2 & X2 & H2). rewrite X2; cbn [bind].
    pose proof H2 as (G1 & G2 & G3). rewrite vset_ok by lia. cbn [bind]. eexists; split; [reflexivity|].
    unfold LL. cbn. rewrite zlen_zupd. auto.
  Qed.
  Lemma min_left_full v h g s : 1 <= h -> zlen v = 2 ^ h -> g e = true -> lseg_of op e idf v = Ok s ->
    lseg_min_left op e mapping comp idf s (zlen v) g = UB.
  Proof.
    intros H1 Ez Ge E.
    assert (S0 : LL (2 ^ h) s /\ ls_n s = 2 ^ h /\ ls_lg s = h).
    { destruct (lseg_of_ok op e mapping comp idf Act v) as (s' & E' & (h' & Hh' & Hn & I)). rewrite E in E'. injection E' as <-.
      assert (Em : ls_m s = 2 ^ h).
      { unfold lseg_of in E. rewrite Ez in E.
        destruct (ceil_pow2_ok (2 ^ h)) as (h2 & Hh2 & Ec & Hn2).
        assert (2 ^ h2 = 2 ^ h) as Eq.
        { rewrite ceil_pow2_exact in Ec by lia. now injection Ec. }
        rewrite Ec in E. cbn [bind] in E. rewrite Eq in E. repeat (match type of E with context [bind ?x _] => destruct x; cbn [bind] in E; try discriminate end).
        injection E as <-. reflexivity. }
      destruct I as (g' & z & A & I). pose proof (li_m _ _ _ _ _ _ _ _ _ _ _ I) as Em2. rewrite Em in Em2. apply (Z.pow_inj_r 2) in Em2; try lia. subst h'.
      pose proof (li_data _ _ _ _ _ _ _ _ _ _ _ I) as [L1 _]. pose proof (li_lazy _ _ _ _ _ _ _ _ _ _ _ I) as [L2 _].
      split; [repeat split; auto|]. split; [rewrite <- Ez; apply I|apply I]. }
    destruct S0 as (HL & En & Elg). unfold lseg_min_left. rewrite En, Ez.
    replace ((0 <=? 2 ^ h) && (2 ^ h <=? 2 ^ h)) with true by lia. rewrite Ge. cbn [assert_ bind].
    pose proof (Z.pow_pos_nonneg 2 h ltac:(lia) ltac:(lia)) as Ph. replace (2 ^ h =? 0) with false by lia.
    pose proof HL as (Em & _). rewrite Em.
    replace (push_path mapping comp idf s (2 ^ h + 2 ^ h) 0) with (@UB lseg); auto. symmetry.
    unfold push_path. rewrite Elg. unfold ford_. rewrite Z.sub_0_r.
    assert (G : forall c s, (1 <= c)%nat -> Z.of_nat c <= h -> LL (2 ^ h) s ->
      for_dn c (Z.of_nat c) (fun i s => lpush mapping comp idf s ((2 ^ h + 2 ^ h) / 2 ^ i)) s = UB).
    { clear s E HL En Elg Em. induction c as [|c IH]; intros s Hc Hch I; [lia|]. cbn [for_dn].
      assert (E : (2 ^ h + 2 ^ h) / 2 ^ Z.of_nat (Datatypes.S c) = 2 ^ (h - Z.of_nat c)).
      { apply div_unique2; [lia|]. replace (2 ^ h + 2 ^ h) with (2 ^ (h - Z.of_nat c) * 2 ^ Z.of_nat (Datatypes.S c)).
        - pose proof (Z.pow_pos_nonneg 2 (Z.of_nat (Datatypes.S c)) ltac:(lia) ltac:(lia)). lia.
        - rewrite <- Z.pow_add_r by lia. replace (h - Z.of_nat c + Z.of_nat (Datatypes.S c)) with (Z.succ h) by lia. rewrite Z.pow_succ_r by lia. lia. }
      rewrite E. destruct c as [|c'].
      - rewrite push_out; auto. destruct I as (_ & _ & ->). cbn. rewrite Z.sub_0_r. lia.
      - set (c := Datatypes.S c') in *.
        assert (2 ^ (h - Z.of_nat c) < 2 ^ h) by (apply Z.pow_lt_mono_r; lia).
        pose proof (Z.pow_pos_nonneg 2 (h - Z.of_nat c) ltac:(lia) ltac:(lia)).
        destruct (push_len _ s (2 ^ (h - Z.of_nat c)) I ltac:(lia)) as (s1 & E1 & I1). rewrite E1; cbn [bind].
        replace (Z.of_nat (Datatypes.S c) - 1) with (Z.of_nat c) by lia. apply IH; auto; lia. }
    specialize (G (Z.to_nat h) s ltac:(lia) ltac:(lia) HL). rewrite Z2Nat.id in G by lia. auto.
  Qed.
End LP2.

Lemma lazy_segment_tree_history_ {T F} (op : T -> T -> T) e (mapping : F -> T -> T) comp idf v ops :
  is_monoid op e -> is_action op mapping comp idf ->
  snd (run (lsspec op e mapping) v ops) <> UB ->
  exists s, lseg_of op e idf v = Ok s /\ run (lsstep op e mapping comp idf) s ops = run (lsspec op e mapping) v ops.
Proof.
  intros M Act H. destruct (lseg_of_ok op e mapping comp idf Act v) as (s & E & I). exists s. split; auto.
  eapply run_sim with (Inv := LS op e mapping); eauto. intros. now apply lsstep_sim.
Qed.
