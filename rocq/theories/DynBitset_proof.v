(* DynamicBitSet: words and blocks *)
From Verif Require Import Base BaseLemmas ListZ Seq Bits BitVector_spec BitVector_proof DynBitset_model DynBitset_spec.

Definition word (x : Z) : Prop := 0 <= x < 2 ^ 64.
Lemma word_high x i : word x -> 64 <= i -> Z.testbit x i = false.
Proof.
  intros [H0 H1] Hi. destruct (Z.eq_dec x 0) as [->|]; [apply Z.bits_0|]. apply Z.bits_above_log2; auto.
  assert (Z.log2 x < 64) by (apply Z.log2_lt_pow2; lia). lia.
Qed.
Lemma word_of x : 0 <= x -> (forall i, 64 <= i -> Z.testbit x i = false) -> word x.
Proof.
  intros H0 H. split; auto. destruct (Z_lt_le_dec x (2 ^ 64)) as [|L]; auto. exfalso.
  assert (64 <= Z.log2 x) by (apply Z.log2_le_pow2; [change (2 ^ 64) with 18446744073709551616 in L; lia|auto]).
  specialize (H (Z.log2 x) ltac:(auto)). rewrite Z.bit_log2 in H; [discriminate|]. change (2 ^ 64) with 18446744073709551616 in L. lia.
Qed.
Lemma word_eq x y : word x -> word y -> (forall i, 0 <= i < 64 -> Z.testbit x i = Z.testbit y i) -> x = y.
Proof.
  intros Hx Hy H. apply Z.bits_inj'. intros i Hi. destruct (Z_lt_le_dec i 64); [auto|]. now rewrite !word_high.
Qed.
Lemma word_0 : word 0. Proof. unfold word. change (2 ^ 64) with 18446744073709551616. lia. Qed.
Lemma u64_word x : word (u64 x). Proof. apply Z.mod_pos_bound. reflexivity. Qed.
Lemma u64_bits x i : 0 <= i -> Z.testbit (u64 x) i = (i <? 64) && Z.testbit x i.
Proof.
  intros Hi. unfold u64. destruct (Z.ltb_spec i 64).
  - now rewrite Z.mod_pow2_bits_low by lia.
  - now rewrite Z.mod_pow2_bits_high by lia.
Qed.
Lemma shl_ok x k : word x -> 0 <= k < 64 -> exists y, shl x k = Ok y /\ word y /\ forall i, 0 <= i -> Z.testbit y i = (i <? 64) && (k <=? i) && Z.testbit x (i - k).
Proof.
  intros Hx Hk. unfold shl. rewrite (proj2 (Z.leb_le 0 k)), (proj2 (Z.ltb_lt k 64)) by lia. cbn [andb].
  eexists. split; [reflexivity|]. split; [apply u64_word|]. intros i Hi. rewrite u64_bits by auto. rewrite Z.shiftl_spec by auto.
  destruct (Z.leb_spec k i); [rewrite andb_true_r|rewrite andb_false_r, Z.testbit_neg_r, andb_false_r by lia]; auto.
Qed.
Lemma shr_ok x k : word x -> 0 <= k < 64 -> exists y, shr x k = Ok y /\ word y /\ forall i, 0 <= i -> Z.testbit y i = Z.testbit x (i + k).
Proof.
  intros Hx Hk. unfold shr. rewrite (proj2 (Z.leb_le 0 k)), (proj2 (Z.ltb_lt k 64)) by lia. cbn [andb].
  assert (B : forall i, 0 <= i -> Z.testbit (Z.shiftr x k) i = Z.testbit x (i + k)) by (intros; now apply Z.shiftr_spec).
  eexists. split; [reflexivity|]. split; auto. apply word_of; [apply Z.shiftr_nonneg; apply Hx|]. intros i Hi. rewrite B by lia. apply word_high; auto. lia.
Qed.
Lemma bnot_word x : word (bnot x). Proof. apply u64_word. Qed.
Lemma bnot_bits x i : 0 <= i < 64 -> Z.testbit (bnot x) i = negb (Z.testbit x i).
Proof. intros. unfold bnot. rewrite u64_bits by lia. rewrite (proj2 (Z.ltb_lt i 64)) by lia. now rewrite Z.lnot_spec by lia. Qed.
Lemma full_word : word full. Proof. apply bnot_word. Qed.
Lemma full_bits i : 0 <= i < 64 -> Z.testbit full i = true.
Proof. intros. unfold full. rewrite bnot_bits by auto. now rewrite Z.bits_0. Qed.
Lemma lor_word x y : word x -> word y -> word (Z.lor x y).
Proof. intros Hx Hy. apply word_of; [apply Z.lor_nonneg; split; [apply Hx|apply Hy]|]. intros. rewrite Z.lor_spec. now rewrite !word_high. Qed.
Lemma land_word x y : word x -> word y -> word (Z.land x y).
Proof. intros Hx Hy. apply word_of; [apply Z.land_nonneg; left; apply Hx|]. intros. rewrite Z.land_spec. now rewrite !word_high. Qed.
Lemma lxor_word x y : word x -> word y -> word (Z.lxor x y).
Proof. intros Hx Hy. apply word_of; [apply Z.lxor_nonneg; split; intro; [apply Hy|apply Hx]|]. intros. rewrite Z.lxor_spec. now rewrite !word_high. Qed.
Lemma word_zero x : word x -> (x = 0 <-> forall i, 0 <= i < 64 -> Z.testbit x i = false).
Proof.
  intros Hx. split; [intros -> i _; apply Z.bits_0|]. intros H. apply word_eq; auto using word_0. intros i Hi. now rewrite H, Z.bits_0.
Qed.
Lemma word_full x : word x -> (x = full <-> forall i, 0 <= i < 64 -> Z.testbit x i = true).
Proof.
  intros Hx. split; [intros -> i Hi; now apply full_bits|]. intros H. apply word_eq; auto using full_word. intros i Hi. now rewrite H, full_bits.
Qed.
Lemma get_lower_ok x num : word x -> 0 <= num <= 64 -> exists y, get_lower_bits x num = Ok y /\ word y /\ forall i, 0 <= i < 64 -> Z.testbit y i = (i <? num) && Z.testbit x i.
Proof.
  intros Hx Hn. unfold get_lower_bits. destruct (Z.eqb_spec num 0) as [->|Ne].
  - exists 0. split; auto. split; [apply word_0|]. intros i Hi. rewrite Z.bits_0. destruct (Z.ltb_spec i 0); [lia|auto].
  - destruct (shl_ok x (64 - num) Hx ltac:(lia)) as (y & E & Wy & By). rewrite E. cbn [bind].
    destruct (shr_ok y (64 - num) Wy ltac:(lia)) as (z & E2 & Wz & Bz). rewrite E2. exists z. split; auto. split; auto.
    intros i Hi. rewrite Bz, By by lia. replace (i + (64 - num) - (64 - num)) with i by lia.
    replace (64 - num <=? i + (64 - num)) with true by (symmetry; apply Z.leb_le; lia). rewrite andb_true_r.
    f_equal. destruct (Z.ltb_spec (i + (64 - num)) 64), (Z.ltb_spec i num); auto; lia.
Qed.
Lemma mask_upper_ok x num : word x -> 0 <= num <= 64 -> exists y, mask_upper_bits x num = Ok y /\ word y /\ forall i, 0 <= i < 64 -> Z.testbit y i = (64 - num <=? i) && Z.testbit x i.
Proof.
  intros Hx Hn. unfold mask_upper_bits. destruct (Z.eqb_spec num 0) as [->|Ne].
  - exists 0. split; auto. split; [apply word_0|]. intros i Hi. rewrite Z.bits_0. destruct (Z.leb_spec (64 - 0) i); [lia|auto].
  - destruct (shr_ok x (64 - num) Hx ltac:(lia)) as (y & E & Wy & By). rewrite E. cbn [bind].
    destruct (shl_ok y (64 - num) Wy ltac:(lia)) as (z & E2 & Wz & Bz). rewrite E2. exists z. split; auto. split; auto.
    intros i Hi. rewrite Bz by lia. rewrite (proj2 (Z.ltb_lt i 64)) by lia. cbn [andb]. destruct (Z.leb_spec (64 - num) i); cbn [andb]; auto.
    rewrite By by lia. f_equal. lia.
Qed.
Lemma mask_range_ok x l r : word x -> 0 <= l -> l <= r <= 64 -> exists y, mask_range_bits x l r = Ok y /\ word y /\ forall i, 0 <= i < 64 -> Z.testbit y i = (l <=? i) && (i <? r) && Z.testbit x i.
Proof.
  intros Hx Hl Hr. unfold mask_range_bits. destruct (Z.ltb_spec l r) as [L|L].
  - destruct (shl_ok x (64 - r) Hx ltac:(lia)) as (y & E & Wy & By). rewrite E. cbn [bind].
    destruct (shr_ok y (64 - r + l) Wy ltac:(lia)) as (z & E2 & Wz & Bz). rewrite E2. cbn [bind].
    destruct (shl_ok z l Wz ltac:(lia)) as (u & E3 & Wu & Bu). rewrite E3. exists u. split; auto. split; auto.
    intros i Hi. rewrite Bu by lia. rewrite (proj2 (Z.ltb_lt i 64)) by lia. cbn [andb]. destruct (Z.leb_spec l i); cbn [andb]; auto.
    rewrite Bz, By by lia. replace (i - l + (64 - r + l) - (64 - r)) with i by lia.
    replace (64 - r <=? i - l + (64 - r + l)) with true by (symmetry; apply Z.leb_le; lia). rewrite andb_true_r. f_equal.
    destruct (Z.ltb_spec (i - l + (64 - r + l)) 64), (Z.ltb_spec i r); auto; lia.
  - exists 0. split; auto. split; [apply word_0|]. intros i Hi. rewrite Z.bits_0. destruct (Z.leb_spec l i), (Z.ltb_spec i r); auto; lia.
Qed.
Lemma ctz_bits x : word x -> x <> 0 -> 0 <= ctz x < 64 /\ Z.testbit x (ctz x) = true /\ forall i, 0 <= i < ctz x -> Z.testbit x i = false.
Proof.
  intros Hx Ne. assert (Hp : 0 < x) by (unfold word in Hx; lia). destruct (ctz_decomp x Hp) as (q & Hq & E). pose proof (ctz_nonneg x) as C0.
  assert (T : Z.testbit x (ctz x) = true).
  { rewrite E at 1. rewrite Z.mul_comm, Z.mul_pow2_bits by auto. rewrite Z.sub_diag. apply Z.testbit_odd_0. }
  split; [|split; auto].
  - split; auto. destruct (Z_lt_le_dec (ctz x) 64); auto. rewrite word_high in T by auto. discriminate.
  - intros i Hi. rewrite E. rewrite Z.mul_comm, Z.mul_pow2_bits_low by lia. auto.
Qed.
Lemma ctz_index x i : word x -> x <> 0 -> 0 <= i -> Z.lor (ctz x) (Z.shiftl i 6) = 64 * i + ctz x.
Proof.
  intros Hx Ne Hi. destruct (ctz_bits x Hx Ne) as (R & _). rewrite Z.shiftl_mul_pow2 by lia.
  assert (D : Z.land (i * 2 ^ 6) (ctz x) = 0).
  { apply Z.bits_inj'. intros k Hk. rewrite Z.land_spec, Z.bits_0.
    destruct (Z_lt_le_dec k 6); [now rewrite Z.mul_pow2_bits_low by lia|]. rewrite (Z.bits_above_log2 (ctz x)), andb_false_r; auto; [lia|].
    destruct (Z.eq_dec (ctz x) 0) as [->|]; [cbn; lia|]. apply Z.lt_le_trans with 6; auto. apply Z.log2_lt_pow2; lia. }
  rewrite Z.lor_comm, <- Z.lxor_lor, <- Z.add_nocarry_lxor by auto. lia.
Qed.
Lemma pop_count x : popcountll x = count_upto (Z.testbit x) 64. Proof. unfold popcountll, count_upto. exact eq_refl. Qed.
Lemma count_window f l r n : 0 <= l -> l <= r <= n -> count_upto (fun i => (l <=? i) && (i <? r) && f i) n = count_upto f r - count_upto f l.
Proof.
  intros Hl Hr. assert (G : forall k, 0 <= k -> count_upto (fun i => (l <=? i) && (i <? r) && f i) k = count_upto f (Z.max l (Z.min k r)) - count_upto f l).
  { apply natlike_ind.
    - rewrite (Z.max_l l) by lia. rewrite count_0. lia.
    - intros k Hk IH. unfold Z.succ. rewrite count_S, IH by auto. destruct (Z.leb_spec l k), (Z.ltb_spec k r); cbn [andb].
      + replace (Z.max l (Z.min k r)) with k by lia. replace (Z.max l (Z.min (k + 1) r)) with (k + 1) by lia. rewrite count_S by lia. lia.
      + replace (Z.max l (Z.min k r)) with r by lia. replace (Z.max l (Z.min (k + 1) r)) with r by lia. cbn. lia.
      + replace (Z.max l (Z.min k r)) with l by lia. replace (Z.max l (Z.min (k + 1) r)) with l by lia. cbn. lia.
      + replace (Z.max l (Z.min k r)) with l by lia. replace (Z.max l (Z.min (k + 1) r)) with l by lia. cbn. lia. }
  rewrite G by lia. now replace (Z.max l (Z.min n r)) with r by lia.
Qed.
Lemma count_shift f a k : 0 <= a -> 0 <= k -> count_upto (fun t => f (a + t)) k = count_upto f (a + k) - count_upto f a.
Proof.
  intros Ha. revert k. apply natlike_ind; [rewrite count_0, Z.add_0_r; lia|]. intros k Hk IH. unfold Z.succ. rewrite count_S, IH by auto.
  rewrite Z.add_assoc, count_S by lia. lia.
Qed.

(* blocks *)
Definition blk (bs : list Z) (i : Z) : Z := nth (Z.to_nat i) bs 0.
Lemma vget_blk bs i : 0 <= i < zlen bs -> vget bs i = Ok (blk bs i). Proof. apply vget_nth. Qed.
Lemma blk_zupd bs i x k : 0 <= i < zlen bs -> 0 <= k < zlen bs -> blk (zupd bs i x) k = if i =? k then x else blk bs k.
Proof.
  intros. assert (E : vget (zupd bs i x) k = Ok (blk (zupd bs i x) k)) by (apply vget_blk; rewrite zlen_zupd; lia).
  rewrite vget_zupd in E by auto. destruct (i =? k); [congruence|]. rewrite vget_blk in E by auto. congruence.
Qed.
Definition words (bs : list Z) : Prop := forall i, 0 <= i < zlen bs -> word (blk bs i).
Lemma words_zupd bs i x : words bs -> word x -> 0 <= i < zlen bs -> words (zupd bs i x).
Proof. intros W Wx Hi k Hk. rewrite zlen_zupd in Hk. rewrite blk_zupd by auto. destruct (i =? k); auto. Qed.
Definition tb (bs : list Z) (p : Z) : bool := Z.testbit (blk bs (p / 64)) (p mod 64).
Lemma dm p : exists q t, p = 64 * q + t /\ 0 <= t < 64 /\ p / 64 = q /\ p mod 64 = t.
Proof. exists (p / 64), (p mod 64). pose proof (Z.div_mod p 64 ltac:(lia)). pose proof (Z.mod_pos_bound p 64 ltac:(lia)). auto. Qed.
Lemma tb_at bs q t : 0 <= t < 64 -> tb bs (64 * q + t) = Z.testbit (blk bs q) t.
Proof.
  intros. unfold tb. replace ((64 * q + t) / 64) with q; [|apply Z.div_unique with t; lia]. f_equal. symmetry. apply Z.mod_unique with q; lia.
Qed.
Lemma block_div i : block_index i = i / 64.
Proof. unfold block_index. now rewrite Z.shiftr_div_pow2. Qed.
Lemma bit_mod i : bit_index i = i mod 64.
Proof. unfold bit_index. change 63 with (Z.ones 6). now rewrite Z.land_ones. Qed.
Lemma blocks_div n : blocks_for n = (n + 63) / 64.
Proof. unfold blocks_for. now rewrite Z.shiftr_div_pow2. Qed.
Lemma tb_zupd bs q x p : 0 <= q < zlen bs -> 0 <= p < 64 * zlen bs -> tb (zupd bs q x) p = if p / 64 =? q then Z.testbit x (p mod 64) else tb bs p.
Proof.
  intros Hq Hp. unfold tb. destruct (dm p) as (i & t & -> & Ht & E1 & E2). rewrite E1, E2. rewrite blk_zupd by lia. rewrite (Z.eqb_sym q i). now destruct (i =? q).
Qed.

(* the shape of a bitset of n bits *)
Definition wfb (n : Z) (bs : list Z) : Prop := 0 <= n /\ zlen bs = (n + 63) / 64 /\ words bs.
Lemma wfb_len n bs : wfb n bs -> n <= 64 * zlen bs < n + 64.
Proof. intros (H0 & -> & _). destruct (dm (n + 63)) as (q & t & E & Ht & E1 & E2). rewrite E1. lia. Qed.
Lemma wfb_new n fill : 0 <= n -> wfb n (db_b (db_new n fill)) /\ forall p, 0 <= p < 64 * zlen (db_b (db_new n fill)) -> tb (db_b (db_new n fill)) p = fill.
Proof.
  intros Hn. cbn [db_new db_b]. assert (H : 0 <= blocks_for n) by (rewrite blocks_div; apply Z.div_pos; lia).
  assert (B : forall i, 0 <= i < blocks_for n -> blk (vrep (blocks_for n) (if fill then full else 0)) i = if fill then full else 0).
  { intros i Hi. assert (E : vget (vrep (blocks_for n) (if fill then full else 0)) i = Ok (blk (vrep (blocks_for n) (if fill then full else 0)) i)) by (apply vget_blk; rewrite zlen_vrep; lia).
    rewrite vget_vrep in E by lia. congruence. }
  split.
  - split; auto. rewrite zlen_vrep by auto. split; [apply blocks_div|]. intros i Hi. rewrite zlen_vrep in Hi by auto. rewrite B by auto. destruct fill; [apply full_word|apply word_0].
  - intros p Hp. rewrite zlen_vrep in Hp by auto. destruct (dm p) as (q & t & -> & Ht & _). rewrite tb_at by auto. rewrite B by lia.
    destruct fill; [now apply full_bits|apply Z.bits_0].
Qed.

(* x[i] *)
Lemma get_raw n bs p : wfb n bs -> 0 <= p < 64 * zlen bs -> db_get (DB n bs) p = Ok (tb bs p).
Proof.
  intros (H0 & Z1 & W) Hp. unfold db_get. cbn [db_b]. rewrite block_div, bit_mod. unfold tb. destruct (dm p) as (q & t & -> & Ht & E1 & E2). rewrite E1, E2.
  rewrite vget_blk by lia. cbn [bind]. destruct (shr_ok (blk bs q) t) as (y & E & Wy & B); [apply W; lia|auto|]. rewrite E. cbn [bind].
  rewrite B by lia. now rewrite Z.add_0_l.
Qed.
Lemma ref_raw f fb n bs p : wfb n bs -> 0 <= p < 64 * zlen bs ->
  (forall x i, word x -> 0 <= i < 64 -> exists y, f x i = Ok y /\ word y /\ forall k, 0 <= k < 64 -> Z.testbit y k = if k =? i then fb (Z.testbit x k) else Z.testbit x k) ->
  exists bs', db_ref f (DB n bs) p = Ok (DB n bs') /\ wfb n bs' /\ zlen bs' = zlen bs /\ forall j, 0 <= j < 64 * zlen bs -> tb bs' j = if j =? p then fb (tb bs j) else tb bs j.
Proof.
  intros (H0 & Z1 & W) Hp F. unfold db_ref. cbn [db_b db_n]. rewrite block_div, bit_mod. destruct (dm p) as (q & t & Ep & Ht & E1 & E2). rewrite E1, E2.
  rewrite vget_blk by lia. cbn [bind]. destruct (F (blk bs q) t) as (y & E & Wy & B); [apply W; lia|auto|]. rewrite E. cbn [bind].
  rewrite vset_ok by lia. cbn [bind]. eexists. split; [reflexivity|]. split; [|split; [apply zlen_zupd|]].
  - split; auto. split; [now rewrite zlen_zupd|]. apply words_zupd; auto. lia.
  - intros j Hj. rewrite tb_zupd by lia. destruct (dm j) as (q' & t' & Ej & Ht' & E1' & E2'). rewrite E1', E2'. destruct (Z.eqb_spec q' q) as [->|Ne].
    + rewrite B by auto. rewrite Ej, Ep, tb_at by auto. destruct (Z.eqb_spec t' t), (Z.eqb_spec (64 * q + t') (64 * q + t)); auto; lia.
    + destruct (Z.eqb_spec j p); [lia|auto].
Qed.
Lemma one_bit t k : 0 <= t -> 0 <= k -> Z.testbit 1 (k - t) = (k =? t).
Proof. intros. destruct (Z.eqb_spec k t) as [->|]; [now rewrite Z.sub_diag|]. destruct (Z_lt_le_dec k t); [apply Z.testbit_neg_r; lia|]. apply Z.bits_above_log2; cbn; lia. Qed.
Lemma b2z_bit v t k : 0 <= t -> 0 <= k -> Z.testbit (Z.b2z v) (k - t) = (k =? t) && v.
Proof. intros. destruct v; cbn [Z.b2z]; [rewrite one_bit by auto; now rewrite andb_true_r|]. now rewrite Z.bits_0, andb_false_r. Qed.
Lemma b2z_word v : word (Z.b2z v). Proof. unfold word. change (2 ^ 64) with 18446744073709551616. destruct v; cbn [Z.b2z]; lia. Qed.
Lemma bit_mask v i : 0 <= i < 64 -> exists m, shl (Z.b2z v) i = Ok m /\ word m /\ forall k, 0 <= k < 64 -> Z.testbit m k = (k =? i) && v.
Proof.
  intros Hi. destruct (shl_ok (Z.b2z v) i (b2z_word v) Hi) as (m & E & W & B). exists m. split; auto. split; auto. intros k Hk. rewrite B by lia.
  rewrite (proj2 (Z.ltb_lt k 64)) by lia. rewrite b2z_bit by lia. destruct (Z.leb_spec i k), (Z.eqb_spec k i); auto; lia.
Qed.
Lemma or_ok v x i : word x -> 0 <= i < 64 -> exists y, ref_or v x i = Ok y /\ word y /\ forall k, 0 <= k < 64 -> Z.testbit y k = if k =? i then Z.testbit x k || v else Z.testbit x k.
Proof.
  intros Hx Hi. unfold ref_or. destruct (bit_mask v i Hi) as (m & E & W & B). rewrite E. cbn [bind]. eexists. split; [reflexivity|]. split; [now apply lor_word|].
  intros k Hk. rewrite Z.lor_spec, B by auto. destruct (k =? i); cbn [andb]; [reflexivity|apply orb_false_r].
Qed.
Lemma xor_ok v x i : word x -> 0 <= i < 64 -> exists y, ref_xor v x i = Ok y /\ word y /\ forall k, 0 <= k < 64 -> Z.testbit y k = if k =? i then xorb (Z.testbit x k) v else Z.testbit x k.
Proof.
  intros Hx Hi. unfold ref_xor. destruct (bit_mask v i Hi) as (m & E & W & B). rewrite E. cbn [bind]. eexists. split; [reflexivity|]. split; [now apply lxor_word|].
  intros k Hk. rewrite Z.lxor_spec, B by auto. destruct (k =? i); cbn [andb]; [reflexivity|apply xorb_false_r].
Qed.
Lemma flip_ok x i : word x -> 0 <= i < 64 -> exists y, ref_flip x i = Ok y /\ word y /\ forall k, 0 <= k < 64 -> Z.testbit y k = if k =? i then negb (Z.testbit x k) else Z.testbit x k.
Proof.
  intros Hx Hi. destruct (xor_ok true x i Hx Hi) as (y & E & W & B). exists y. split; [exact E|]. split; auto.
Qed.
Lemma assign_ok v x i : word x -> 0 <= i < 64 -> exists y, ref_assign v x i = Ok y /\ word y /\ forall k, 0 <= k < 64 -> Z.testbit y k = if k =? i then v else Z.testbit x k.
Proof.
  intros Hx Hi. destruct v.
  - destruct (or_ok true x i Hx Hi) as (y & E & W & B). exists y. split; [exact E|]. split; auto. intros k Hk. rewrite B by auto. destruct (k =? i); [apply orb_true_r|reflexivity].
  - unfold ref_assign, ref_reset. destruct (bit_mask true i Hi) as (m & E & W & B). cbn [Z.b2z] in E. rewrite E. cbn [bind]. eexists. split; [reflexivity|].
    split; [apply land_word; auto using bnot_word|]. intros k Hk. rewrite Z.land_spec, bnot_bits, B by auto. rewrite andb_true_r. destruct (k =? i); cbn [negb]; [apply andb_false_r|apply andb_true_r].
Qed.

(* ranges *)
Definition acts (g : Z -> Z -> Z) (h : Z -> Z) (gb : bool -> bool) : Prop :=
  (forall x m, word x -> word m -> word (g x m) /\ forall i, 0 <= i < 64 -> Z.testbit (g x m) i = if Z.testbit m i then gb (Z.testbit x i) else Z.testbit x i) /\
  (forall x, word x -> word (h x) /\ forall i, 0 <= i < 64 -> Z.testbit (h x) i = gb (Z.testbit x i)).
Lemma range_hi r : 0 < r -> exists rb ri, r = 64 * rb + ri /\ 1 <= ri <= 64 /\ (r - 1) / 64 = rb /\ (if r mod 64 =? 0 then 64 else r mod 64) = ri.
Proof.
  intros Hr. destruct (dm (r - 1)) as (q & t & E & Ht & E1 & E2). exists q, (t + 1). split; [lia|]. split; [lia|]. split; auto.
  destruct (dm r) as (q' & t' & E' & Ht' & E1' & E2'). rewrite E2'. destruct (Z.eqb_spec t' 0); lia.
Qed.
Lemma range_raw g h gb n bs l r : acts g h gb -> wfb n bs -> 0 <= l -> l <= r <= n ->
  exists bs', range_apply g h (DB n bs) l r = Ok (DB n bs') /\ wfb n bs' /\ zlen bs' = zlen bs /\
    forall p, 0 <= p < 64 * zlen bs -> tb bs' p = if (l <=? p) && (p <? r) then gb (tb bs p) else tb bs p.
Proof.
  intros (G & H) Wf Hl Hr. pose proof (wfb_len _ _ Wf) as Ln. pose proof Wf as (H0 & Z1 & W). unfold range_apply. cbn [db_n db_b].
  rewrite (proj2 (Z.leb_le l r)), (proj2 (Z.leb_le r n)) by lia. cbn [andb assert_ bind].
  destruct (Z.eqb_spec l r) as [->|Ne].
  { exists bs. split; auto. split; auto. split; auto. intros p Hp. destruct (Z.leb_spec r p), (Z.ltb_spec p r); auto; lia. }
  rewrite !block_div, !bit_mod. destruct (dm l) as (lb & li & El & Hli & E1 & E2). rewrite E1, E2.
  destruct (range_hi r ltac:(lia)) as (rb & ri & Er & Hri & E3 & E4). rewrite E3, E4.
  destruct (Z.eqb_spec lb rb) as [<-|Nb].
  - destruct (mask_range_ok full li ri full_word ltac:(lia) ltac:(lia)) as (m & Em & Wm & Bm). rewrite Em. cbn [bind].
    rewrite vget_blk by lia. cbn [bind]. rewrite vset_ok by lia. cbn [bind].
    destruct (G (blk bs lb) m) as (Wg & Bg); [apply W; lia|auto|].
    eexists. split; [reflexivity|]. split; [|split; [apply zlen_zupd|]].
    + split; auto. split; [now rewrite zlen_zupd|]. apply words_zupd; auto. lia.
    + intros p Hp. rewrite tb_zupd by lia. destruct (dm p) as (q & t & Ep & Ht & F1 & F2). rewrite F1, F2. destruct (Z.eqb_spec q lb) as [->|Nq].
      * rewrite Bg, Bm, full_bits by auto. rewrite andb_true_r, Ep, tb_at by auto.
        destruct (Z.leb_spec li t), (Z.ltb_spec t ri), (Z.leb_spec l (64 * lb + t)), (Z.ltb_spec (64 * lb + t) r); cbn [andb]; auto; lia.
      * destruct (Z.leb_spec l p), (Z.ltb_spec p r); cbn [andb]; auto; lia.
  - assert (Lb : lb < rb) by lia.
    destruct (mask_upper_ok full (64 - li) full_word ltac:(lia)) as (m1 & Em1 & Wm1 & Bm1). rewrite Em1. cbn [bind].
    rewrite vget_blk by lia. cbn [bind]. rewrite vset_ok by lia. cbn [bind].
    destruct (G (blk bs lb) m1) as (Wg1 & Bg1); [apply W; lia|auto|].
    destruct (get_lower_ok full ri full_word ltac:(lia)) as (m2 & Em2 & Wm2 & Bm2). unfold mask_lower_bits. rewrite Em2. cbn [bind].
    rewrite vget_blk by (rewrite zlen_zupd; lia). cbn [bind]. rewrite vset_ok by (rewrite zlen_zupd; lia). cbn [bind].
    rewrite blk_zupd by lia. rewrite (proj2 (Z.eqb_neq lb rb)) by lia.
    destruct (G (blk bs rb) m2) as (Wg2 & Bg2); [apply W; lia|auto|].
    set (bs2 := zupd (zupd bs lb (g (blk bs lb) m1)) rb (g (blk bs rb) m2)).
    assert (Z2 : zlen bs2 = zlen bs) by (unfold bs2; now rewrite !zlen_zupd).
    assert (B2 : forall q, 0 <= q < zlen bs -> blk bs2 q = if rb =? q then g (blk bs rb) m2 else if lb =? q then g (blk bs lb) m1 else blk bs q).
    { intros q Hq. unfold bs2. rewrite blk_zupd by (rewrite ?zlen_zupd; lia). rewrite blk_zupd by lia. reflexivity. }
    destruct (for_inv (fun i bs' => zlen bs' = zlen bs /\ forall q, 0 <= q < zlen bs -> blk bs' q = if (lb <? q) && (q <? i) then h (blk bs q) else blk bs2 q)
      (lb + 1) rb (fun i bs => let* b := vget bs i in vset bs i (h b)) bs2) as (bs3 & E5 & Z3 & B3); [lia| | |].
    { split; auto. intros q Hq. destruct (Z.ltb_spec lb q), (Z.ltb_spec q (lb + 1)); cbn [andb]; auto; lia. }
    { intros i bs' Hi (Zi & Bi). rewrite vget_blk by lia. cbn [bind]. rewrite vset_ok by lia. eexists. split; [reflexivity|]. split; [now rewrite zlen_zupd|].
      intros q Hq. rewrite blk_zupd by lia. destruct (Z.eqb_spec i q) as [->|Nq].
      - rewrite Bi by auto. rewrite Z.ltb_irrefl, andb_false_r, B2 by auto. rewrite (proj2 (Z.eqb_neq rb q)), (proj2 (Z.eqb_neq lb q)) by lia.
        rewrite (proj2 (Z.ltb_lt lb q)), (proj2 (Z.ltb_lt q (q + 1))) by lia. reflexivity.
      - rewrite Bi by auto. destruct (Z.ltb_spec lb q), (Z.ltb_spec q i), (Z.ltb_spec q (i + 1)); cbn [andb]; auto; lia. }
    rewrite E5. cbn [bind]. exists bs3. split; auto.
    assert (W3 : words bs3).
    { intros q Hq. rewrite Z3 in Hq. rewrite B3 by auto. destruct ((lb <? q) && (q <? rb)); [apply H, W; auto|]. rewrite B2 by auto.
      destruct (rb =? q); auto. destruct (lb =? q); auto. }
    split; [split; auto; split; auto; lia|]. split; auto. intros p Hp. destruct (dm p) as (q & t & -> & Ht & _). rewrite !tb_at by auto. rewrite B3 by lia.
    destruct (Z.ltb_spec lb q) as [A1|A1], (Z.ltb_spec q rb) as [A2|A2]; cbn [andb].
    + destruct (H (blk bs q)) as (_ & Bh); [apply W; lia|]. rewrite Bh by auto. rewrite (proj2 (Z.leb_le _ _)), (proj2 (Z.ltb_lt _ _)) by lia. reflexivity.
    + rewrite B2 by lia. destruct (Z.eqb_spec rb q) as [<-|].
      * rewrite Bg2, Bm2, full_bits, andb_true_r by auto. destruct (Z.ltb_spec t ri), (Z.leb_spec l (64 * rb + t)), (Z.ltb_spec (64 * rb + t) r); cbn [andb]; auto; lia.
      * rewrite (proj2 (Z.eqb_neq lb q)) by lia. destruct (Z.leb_spec l (64 * q + t)), (Z.ltb_spec (64 * q + t) r); cbn [andb]; auto; lia.
    + rewrite B2 by lia. destruct (Z.eqb_spec rb q); [lia|]. destruct (Z.eqb_spec lb q) as [<-|].
      * rewrite Bg1, Bm1, full_bits, andb_true_r by auto. destruct (Z.leb_spec (64 - (64 - li)) t), (Z.leb_spec l (64 * lb + t)), (Z.ltb_spec (64 * lb + t) r); cbn [andb]; auto; lia.
      * destruct (Z.leb_spec l (64 * q + t)), (Z.ltb_spec (64 * q + t) r); cbn [andb]; auto; lia.
    + lia.
Qed.
Lemma acts_set : acts Z.lor (fun _ => full) (fun _ => true).
Proof.
  split.
  - intros x m Wx Wm. split; [now apply lor_word|]. intros i Hi. rewrite Z.lor_spec. destruct (Z.testbit m i); [apply orb_true_r|apply orb_false_r].
  - intros x _. split; [apply full_word|]. intros. now apply full_bits.
Qed.
Lemma acts_reset : acts (fun b m => Z.land b (bnot m)) (fun _ => 0) (fun _ => false).
Proof.
  split.
  - intros x m Wx Wm. split; [apply land_word; auto using bnot_word|]. intros i Hi. rewrite Z.land_spec, bnot_bits by auto. destruct (Z.testbit m i); [apply andb_false_r|apply andb_true_r].
  - intros x _. split; [apply word_0|]. intros. apply Z.bits_0.
Qed.
Lemma acts_flip : acts Z.lxor (fun b => Z.lxor b full) negb.
Proof.
  split.
  - intros x m Wx Wm. split; [now apply lxor_word|]. intros i Hi. rewrite Z.lxor_spec. destruct (Z.testbit m i); [apply xorb_true_r|apply xorb_false_r].
  - intros x Wx. split; [apply lxor_word; auto using full_word|]. intros. rewrite Z.lxor_spec, full_bits by auto. apply xorb_true_r.
Qed.
Lemma range_update_raw v n bs l r : wfb n bs -> 0 <= l -> l <= r <= n ->
  exists bs', range_update (DB n bs) l r v = Ok (DB n bs') /\ wfb n bs' /\ zlen bs' = zlen bs /\
    forall p, 0 <= p < 64 * zlen bs -> tb bs' p = if (l <=? p) && (p <? r) then v else tb bs p.
Proof.
  intros. destruct v.
  - apply (range_raw _ _ (fun _ => true)); auto using acts_set.
  - apply (range_raw _ _ (fun _ => false)); auto using acts_reset.
Qed.
Lemma popcount_window x m l r : 0 <= l -> l <= r <= 64 -> (forall i, 0 <= i < 64 -> Z.testbit m i = (l <=? i) && (i <? r)) ->
  popcountll (Z.land x m) = count_upto (Z.testbit x) r - count_upto (Z.testbit x) l.
Proof.
  intros Hl Hr B. rewrite pop_count, <- (count_window (Z.testbit x) l r 64) by auto. apply count_ext. intros i Hi. rewrite Z.land_spec, B by auto. apply andb_comm.
Qed.
Lemma count_block bs q k : 0 <= q -> 0 <= k <= 64 -> count_upto (Z.testbit (blk bs q)) k = count_upto (tb bs) (64 * q + k) - count_upto (tb bs) (64 * q).
Proof.
  intros Hq Hk. rewrite <- count_shift by lia. apply count_ext. intros t Ht. now rewrite tb_at by lia.
Qed.
Lemma range_count_raw n bs l r : wfb n bs -> 0 <= l -> l <= r <= n -> range_count (DB n bs) l r = Ok (count_upto (tb bs) r - count_upto (tb bs) l).
Proof.
  intros Wf Hl Hr. pose proof (wfb_len _ _ Wf) as Ln. pose proof Wf as (H0 & Z1 & W). unfold range_count. cbn [db_n db_b].
  rewrite (proj2 (Z.leb_le l r)), (proj2 (Z.leb_le r n)) by lia. cbn [andb assert_ bind].
  destruct (Z.eqb_spec l r) as [->|Ne]; [f_equal; lia|].
  rewrite !block_div, !bit_mod. destruct (dm l) as (lb & li & El & Hli & E1 & E2). rewrite E1, E2.
  destruct (range_hi r ltac:(lia)) as (rb & ri & Er & Hri & E3 & E4). rewrite E3, E4.
  destruct (Z.eqb_spec lb rb) as [<-|Nb].
  - destruct (mask_range_ok full li ri full_word ltac:(lia) ltac:(lia)) as (m & Em & Wm & Bm). rewrite Em. cbn [bind].
    rewrite vget_blk by lia. cbn [bind]. f_equal. rewrite (popcount_window _ m li ri) by (auto; try lia; intros i Hi; rewrite Bm, full_bits by auto; apply andb_true_r).
    rewrite !count_block by lia. rewrite El, Er. lia.
  - destruct (mask_upper_ok full (64 - li) full_word ltac:(lia)) as (m1 & Em1 & Wm1 & Bm1). rewrite Em1. cbn [bind].
    rewrite vget_blk by lia. cbn [bind].
    destruct (get_lower_ok full ri full_word ltac:(lia)) as (m2 & Em2 & Wm2 & Bm2). unfold mask_lower_bits. rewrite Em2. cbn [bind].
    rewrite vget_blk by lia. cbn [bind].
    rewrite (popcount_window _ m1 li 64) by (try lia; intros i Hi; rewrite Bm1, full_bits by auto; rewrite (proj2 (Z.ltb_lt i 64)) by lia; rewrite !andb_true_r; f_equal; lia).
    rewrite (popcount_window _ m2 0 ri) by (try lia; intros i Hi; rewrite Bm2, full_bits by auto; rewrite (proj2 (Z.leb_le 0 i)) by lia; now rewrite !andb_true_r).
    rewrite !count_block by lia.
    match goal with |- for_ _ _ _ ?c = _ => destruct (for_inv (fun i s => s = c + (count_upto (tb bs) (64 * i) - count_upto (tb bs) (64 * (lb + 1))))
      (lb + 1) rb (fun i s => let* b := vget bs i in Ok (s + popcountll b)) c) as (s & E & Es) end.
    + lia.
    + lia.
    + intros i s Hi ->. rewrite vget_blk by lia. cbn [bind]. eexists. split; [reflexivity|]. rewrite pop_count, count_block by lia.
      replace (64 * i + 64) with (64 * (i + 1)) by lia. lia.
    + rewrite E. f_equal. rewrite Es. replace (64 * lb + 64) with (64 * (lb + 1)) by lia. rewrite El, Er. rewrite Z.add_0_r. lia.
Qed.
