(* DynamicBitSet: comparisons, shifts, queries, histories *)
From Verif Require Import Base BaseLemmas ListZ Seq Bits BitVector_spec BitVector_proof Hist PArray_proof2 DynBitset_model DynBitset_spec DynBitset_proof DynBitset_proof2.

Lemma rep_n d l : rep d l -> db_n d = zlen l /\ 0 <= zlen l. Proof. intros (_ & E & _). pose proof (zlen_nonneg l). auto. Qed.
Lemma rep_len d l : rep d l -> zlen l <= 64 * zlen (db_b d) < zlen l + 64.
Proof. intros H. pose proof (rep_n _ _ H) as (E & _). destruct H as (Wf & _). rewrite <- E. now apply wfb_len. Qed.
Lemma rep_same_blocks d l d' l' : rep d l -> rep d' l' -> zlen l = zlen l' -> zlen (db_b d) = zlen (db_b d').
Proof. intros (Wf & E & _) (Wf' & E' & _) Z. destruct Wf as (_ & -> & _). destruct Wf' as (_ & -> & _). f_equal. lia. Qed.

(* == *)
Lemma rep_eq d l d' l' : rep d l -> rep d' l' -> db_eq d d' = Ok (if list_eq_dec Bool.bool_dec l l' then true else false).
Proof.
  intros R R'. pose proof (rep_n _ _ R) as (E & N0). pose proof (rep_n _ _ R') as (E' & N0'). pose proof (rep_len _ _ R) as Ln. unfold db_eq. rewrite E, E'.
  destruct (Z.eqb_spec (zlen l) (zlen l')) as [Z|Z]; cbn [negb].
  2: { destruct (list_eq_dec Bool.bool_dec l l') as [->|]; [congruence|auto]. }
  destruct (Z.eqb_spec (zlen l) 0) as [Z0|Z0].
  { destruct (rep_zero _ _ R ltac:(lia)) as (-> & _). destruct (rep_zero _ _ R' ltac:(lia)) as (-> & _). reflexivity. }
  pose proof (rep_same_blocks _ _ _ _ R R' Z) as Zb.
  destruct (scan_ok (fun i => let* a := vget (db_b d) i in let* b := vget (db_b d') i in Ok (if negb (a =? b) then Some false else None))
    (fun i => if negb (wl l i =? wl l' i) then Some false else None) 0 (zlen (db_b d) - 1)) as [(Es & H)|(i & r & Es & Hi & H & _)]; [lia| | |].
  - intros i Hi. rewrite (rep_mid d l), (rep_mid d' l') by (auto; lia). reflexivity.
  - rewrite Es. cbn [bind]. destruct (rep_last d l R) as (b & Eb & _ & Rn & Eg & _ & En); [lia|]. destruct (rep_last d' l' R') as (b' & Eb' & _ & Rn' & Eg' & _ & En'); [lia|].
    assert (Nn : last_num d' = last_num d) by (rewrite <- Zb in En'; lia). rewrite Nn in Eg'. rewrite Eb, Eb'. cbn [bind]. rewrite Eg, Eg'. cbn [bind]. rewrite <- Zb. f_equal.
    destruct (Z.eqb_spec (wl l (zlen (db_b d) - 1)) (wl l' (zlen (db_b d) - 1))) as [Ew|Nw], (list_eq_dec Bool.bool_dec l l') as [El|Nl]; auto; [|congruence]. destruct Nl.
    assert (W : forall i, 0 <= i < zlen (db_b d) -> wl l i = wl l' i).
    { intros i Hi. destruct (Z.eq_dec i (zlen (db_b d) - 1)) as [->|]; auto. specialize (H i ltac:(lia)). destruct (Z.eqb_spec (wl l i) (wl l' i)); auto. discriminate. }
    apply bitv_ext; auto. intros p Hp. destruct (dm p) as (q & t & -> & Ht & _). rewrite <- !wl_bits by lia. now rewrite W by lia.
  - rewrite Es. cbn [bind]. destruct (Z.eqb_spec (wl l i) (wl l' i)) as [|Nw]; [discriminate|]. injection H as <-.
    destruct (list_eq_dec Bool.bool_dec l l') as [->|]; [congruence|auto].
Qed.
(* <, <= *)
Lemma rep_less eq d l d' l' : rep d l -> rep d' l' -> db_less eq d d' = same_size l l' (Ok (if eq then value l <=? value l' else value l <? value l')).
Proof.
  intros R R'. pose proof (rep_n _ _ R) as (E & N0). pose proof (rep_n _ _ R') as (E' & N0'). pose proof (rep_len _ _ R) as Ln. unfold db_less, same_size. rewrite E, E'.
  destruct (Z.eqb_spec (zlen l) (zlen l')) as [Z|Z]; cbn [assert_ bind]; auto.
  destruct (Z.eqb_spec (zlen l) 0) as [Z0|Z0].
  { destruct (rep_zero _ _ R ltac:(lia)) as (-> & _). destruct (rep_zero _ _ R' ltac:(lia)) as (-> & _). now destruct eq. }
  pose proof (rep_same_blocks _ _ _ _ R R' Z) as Zb.
  destruct (rep_last d l R) as (b & Eb & _ & Rn & Eg & _ & En); [lia|]. destruct (rep_last d' l' R') as (b' & Eb' & _ & Rn' & Eg' & _ & En'); [lia|].
  assert (Nn : last_num d' = last_num d) by (rewrite <- Zb in En'; lia). rewrite Nn in Eg'. rewrite Eb, Eb'. cbn [bind]. rewrite Eg, Eg'. cbn [bind]. rewrite <- Zb.
  assert (Out : forall j, zlen (db_b d) - 1 < j -> wl l j = wl l' j) by (intros j Hj; rewrite !wl_out by lia; auto).
  destruct (Z.eqb_spec (wl l (zlen (db_b d) - 1)) (wl l' (zlen (db_b d) - 1))) as [Ew|Nw]; cbn [negb].
  - destruct (scan_down_ok (fun i => let* a := vget (db_b d) i in let* b := vget (db_b d') i in Ok (if negb (a =? b) then Some (a <? b) else None))
      (fun i => if negb (wl l i =? wl l' i) then Some (wl l i <? wl l' i) else None) 0 (zlen (db_b d) - 1)) as [(Es & H)|(i & r & Es & Hi & H & Hj)]; [lia| | |].
    + intros i Hi. rewrite (rep_mid d l), (rep_mid d' l') by (auto; lia). reflexivity.
    + rewrite Es. cbn [bind]. f_equal. assert (V : value l = value l').
      { apply wd_all. intros j Hj. destruct (Z_lt_le_dec j (zlen (db_b d) - 1)).
        - specialize (H j ltac:(lia)). unfold wl in H. destruct (Z.eqb_spec (wd (value l) j) (wd (value l') j)); auto. discriminate.
        - destruct (Z.eq_dec j (zlen (db_b d) - 1)) as [->|]; auto. apply Out. lia. }
      rewrite V. destruct eq; [now rewrite Z.leb_refl|now rewrite Z.ltb_irrefl].
    + rewrite Es. cbn [bind]. f_equal. destruct (Z.eqb_spec (wl l i) (wl l' i)) as [|Nw]; [discriminate|]. injection H as <-.
      destruct (wd_ltb (value l) (value l') i) as (W1 & W2); [lia| |auto|].
      * intros j Hj'. destruct (Z_lt_le_dec j (zlen (db_b d) - 1)).
        -- specialize (Hj j ltac:(lia)). unfold wl in Hj. destruct (Z.eqb_spec (wd (value l) j) (wd (value l') j)); auto. discriminate.
        -- destruct (Z.eq_dec j (zlen (db_b d) - 1)) as [->|]; auto. apply Out. lia.
      * rewrite W1, W2. now destruct eq.
  - destruct (wd_ltb (value l) (value l') (zlen (db_b d) - 1)) as (W1 & W2); [lia|exact Out|auto|]. rewrite W1, W2. now destruct eq.
Qed.
(* &=, |=, ^= *)
Lemma rep_pairwise f fb d l d' l' : rep d l -> rep d' l' ->
  (forall x y, word x -> word y -> word (f x y) /\ forall i, Z.testbit (f x y) i = fb (Z.testbit x i) (Z.testbit y i)) ->
  rr rep (db_blockwise f d d') (pairwise fb l l').
Proof.
  intros R R' F. pose proof (rep_n _ _ R) as (E & N0). pose proof (rep_n _ _ R') as (E' & N0'). pose proof (rep_len _ _ R) as Ln. unfold db_blockwise, pairwise, same_size. rewrite E, E'.
  destruct (Z.eqb_spec (zlen l) (zlen l')) as [Z|Z]; cbn [assert_ bind rr]; auto. pose proof (rep_same_blocks _ _ _ _ R R' Z) as Zb.
  destruct R as (Wf & _ & B), R' as (Wf' & _ & B'). pose proof Wf as (H0 & Zl & W). pose proof Wf' as (H0' & Zl' & W').
  destruct (for_inv (fun k bs => zlen bs = zlen (db_b d) /\ forall q, 0 <= q < zlen (db_b d) -> blk bs q = if q <? k then f (blk (db_b d) q) (blk (db_b d') q) else blk (db_b d) q)
    0 (zlen (db_b d')) (fun i bs => let* a := vget bs i in let* b := vget (db_b d') i in vset bs i (f a b)) (db_b d)) as (bs & Eb & Zs & Bs); [apply zlen_nonneg| | |].
  - split; auto. intros q Hq. destruct (Z.ltb_spec q 0); [lia|auto].
  - intros i bs Hi (Zi & Bi). rewrite !vget_blk by lia. cbn [bind]. rewrite vset_ok by lia. eexists. split; [reflexivity|]. split; [now rewrite zlen_zupd|].
    intros q Hq. rewrite blk_zupd by lia. rewrite !Bi by lia. rewrite Z.ltb_irrefl. destruct (Z.eqb_spec i q) as [->|]; [now rewrite (proj2 (Z.ltb_lt q (q + 1))) by lia|].
    destruct (Z.ltb_spec q i), (Z.ltb_spec q (i + 1)); auto; lia.
  - rewrite Eb. cbn [bind]. eexists. split; [reflexivity|].
    assert (Bq : forall q, 0 <= q < zlen (db_b d) -> blk bs q = f (blk (db_b d) q) (blk (db_b d') q)) by (intros q Hq; rewrite Bs by auto; now rewrite (proj2 (Z.ltb_lt q _)) by lia).
    split; [|split; [cbn [db_n]; rewrite zlen_tab; lia|]].
    + cbn [db_n db_b]. split; [lia|]. split; [congruence|]. intros q Hq. rewrite Zs in Hq. rewrite Bq by auto. apply F; [apply W|apply W']; lia.
    + cbn [db_n db_b]. intros p Hp. rewrite bitv_tab by lia. rewrite <- B, <- B' by lia. unfold tb. destruct (dm p) as (q & t & Ep & Ht & E1 & E2). rewrite E1, E2, Bq by lia.
      apply F; [apply W|apply W']; lia.
Qed.
(* ~ and set/reset of everything *)
Lemma rep_not d l : rep d l -> exists d', db_not d = Ok d' /\ rep d' (map negb l).
Proof.
  intros R. pose proof (rep_n _ _ R) as (E & N0). pose proof (rep_len _ _ R) as Ln. destruct R as (Wf & _ & B). pose proof Wf as (H0 & Zl & W).
  unfold db_not. destruct (wfb_new (db_n d) false H0) as ((_ & Zn & Wn) & _).
  destruct (for_inv (fun k bs => zlen bs = zlen (db_b d) /\ forall q, 0 <= q < k -> blk bs q = bnot (blk (db_b d) q))
    0 (zlen (db_b d)) (fun i bs => let* a := vget (db_b d) i in vset bs i (bnot a)) (db_b (db_new (db_n d) false))) as (bs & Eb & Zs & Bs); [apply zlen_nonneg| | |].
  - split; [congruence|]. intros q Hq. lia.
  - intros i bs Hi (Zi & Bi). rewrite !vget_blk by lia. cbn [bind]. rewrite vset_ok by lia. eexists. split; [reflexivity|]. split; [now rewrite zlen_zupd|].
    intros q Hq. rewrite blk_zupd by lia. destruct (Z.eqb_spec i q) as [->|]; auto. apply Bi. lia.
  - rewrite Eb. cbn [bind]. eexists. split; [reflexivity|]. split; [|split; [cbn [db_n]; rewrite zlen_map; lia|]].
    + cbn [db_n db_b]. split; [lia|]. split; [congruence|]. intros q Hq. rewrite Zs in Hq. rewrite Bs by auto. apply bnot_word.
    + cbn [db_n db_b]. intros p Hp. rewrite bitv_map by lia. rewrite <- B by lia. unfold tb. destruct (dm p) as (q & t & Ep & Ht & E1 & E2). rewrite E1, E2, Bs by lia.
      now rewrite bnot_bits.
Qed.
Lemma rep_fill d l v : rep d l -> rep (db_fill d v) (map (fun _ => v) l).
Proof.
  intros R. pose proof (rep_n _ _ R) as (E & N0). pose proof (rep_len _ _ R) as Ln. destruct R as (Wf & _ & B). pose proof Wf as (H0 & Zl & W).
  assert (Bq : forall q, 0 <= q < zlen (db_b d) -> blk (map (fun _ => if v then full else 0) (db_b d)) q = if v then full else 0).
  { intros q Hq. assert (Eg : vget (map (fun _ => if v then full else 0) (db_b d)) q = Ok (blk (map (fun _ => if v then full else 0) (db_b d)) q)) by (apply vget_blk; rewrite zlen_map; auto).
    rewrite vget_map, vget_blk in Eg by auto. cbn [bind] in Eg. congruence. }
  unfold db_fill. split; [|split; [cbn [db_n]; rewrite zlen_map; lia|]].
  - cbn [db_n db_b]. split; [lia|]. rewrite zlen_map. split; auto. intros q Hq. rewrite zlen_map in Hq. rewrite Bq by auto. destruct v; [apply full_word|apply word_0].
  - cbn [db_n db_b]. intros p Hp. rewrite bitv_map by lia. unfold tb. destruct (dm p) as (q & t & Ep & Ht & E1 & E2). rewrite E1, E2, Bq by lia.
    destruct v; [now apply full_bits|apply Z.bits_0].
Qed.

(* <<= *)
Definition shl_bit (x : list Z) (b s k q t : Z) : bool :=
  ((b <=? q) && (q <? b + k) && (s <=? t) && Z.testbit (blk x (q - b)) (t - s)) ||
  ((b + 1 <=? q) && (q <? b + 1 + k) && (t <? s) && Z.testbit (blk x (q - b - 1)) (t + 64 - s)).
Lemma rep_shl d l k : rep d l -> 0 <= k -> exists d', db_shl d k = Ok d' /\ rep d' (tab (zlen l) (fun j => (k <=? j) && bitv l (j - k))).
Proof.
  intros R Hk. pose proof (rep_n _ _ R) as (E & N0). pose proof (rep_len _ _ R) as Ln. unfold db_shl. rewrite E. destruct (Z.leb_spec (zlen l) k) as [L|L].
  { eexists. split; [reflexivity|]. assert (T : tab (zlen l) (fun j => (k <=? j) && bitv l (j - k)) = tab (zlen l) (fun _ => false)); [|rewrite T; now apply rep_new].
    apply bitv_ext; rewrite !zlen_tab by lia; auto. intros i Hi. rewrite !bitv_tab by lia. destruct (Z.leb_spec k i); [lia|auto]. }
  destruct R as (Wf & _ & B). pose proof Wf as (H0 & Zl & W). rewrite land63. rewrite Z.shiftr_div_pow2 by lia. change (2 ^ 6) with 64.
  destruct (dm k) as (b & s & Ek & Hs & E1 & E2). rewrite E1, E2.
  destruct (wfb_new (zlen l) false N0) as ((_ & Zn & Wn) & Bn). set (r0 := db_b (db_new (zlen l) false)) in *. cbn [db_n db_new] in Zn, Bn.
  set (x := db_b d) in *. assert (Zr : zlen r0 = zlen x) by congruence. rewrite Zr.
  destruct (for_inv (fun k bs => zlen bs = zlen x /\ words bs /\ forall q t, 0 <= q < zlen x -> 0 <= t < 64 -> Z.testbit (blk bs q) t = shl_bit x b s k q t)
    0 (zlen x - b) (fun i bs =>
      let* a := vget x i in
      if s =? 0 then vset bs (i + b) a else
      let* w := shl a s in let* c := vget bs (i + b) in let* bs := vset bs (i + b) (Z.lor c w) in
      if negb (i + b + 1 =? zlen x) then
        let* w := shr a (64 - s) in let* c := vget bs (i + b + 1) in vset bs (i + b + 1) (Z.lor c w)
      else Ok bs) r0) as (bs & Eb & Zs & Ws & Bs); [lia| | |].
  - split; auto. split; auto. intros q t Hq Ht. rewrite <- tb_at by auto. rewrite Bn by lia. unfold shl_bit. symmetry.
    destruct (Z.leb_spec b q), (Z.ltb_spec q (b + 0)); try lia; cbn [andb orb]; destruct (Z.leb_spec (b + 1) q), (Z.ltb_spec q (b + 1 + 0)); try lia; reflexivity.
  - intros i bs Hi (Zi & Wi & Bi). rewrite vget_blk by lia. cbn [bind]. assert (Wa : word (blk x i)) by (apply W; lia). destruct (Z.eqb_spec s 0) as [->|Ns].
    + rewrite vset_ok by lia. eexists. split; [reflexivity|]. split; [now rewrite zlen_zupd|]. split; [apply words_zupd; auto; lia|].
      intros q t Hq Ht. rewrite blk_zupd by lia. destruct (Z.eqb_spec (i + b) q) as [<-|Nq].
      * unfold shl_bit. replace (i + b - b) with i by lia. rewrite Z.sub_0_r.
        rewrite (proj2 (Z.leb_le b (i + b))), (proj2 (Z.ltb_lt (i + b) (b + (i + 1)))), (proj2 (Z.leb_le 0 t)), (proj2 (Z.ltb_ge t 0)) by lia. cbn [andb]. rewrite andb_false_r. cbn [andb]. now rewrite orb_false_r.
      * rewrite Bi by auto. unfold shl_bit. rewrite (proj2 (Z.ltb_ge t 0)) by lia. rewrite !andb_false_r. cbn [andb]. rewrite !orb_false_r.
        destruct (Z.leb_spec b q), (Z.ltb_spec q (b + i)), (Z.ltb_spec q (b + (i + 1))); cbn [andb]; auto; lia.
    + destruct (shl_ok (blk x i) s Wa ltac:(lia)) as (w & Ew & Ww & Bw). rewrite Ew. cbn [bind]. rewrite vget_blk by lia. cbn [bind]. rewrite vset_ok by lia. cbn [bind].
      assert (W1 : word (Z.lor (blk bs (i + b)) w)) by (apply lor_word; auto; apply Wi; lia).
      assert (Step1 : forall q t, 0 <= q < zlen x -> 0 <= t < 64 -> Z.testbit (blk (zupd bs (i + b) (Z.lor (blk bs (i + b)) w)) q) t =
        shl_bit x b s i q t || ((q =? i + b) && (s <=? t) && Z.testbit (blk x i) (t - s))).
      { intros q t Hq Ht. rewrite blk_zupd by lia. rewrite (Z.eqb_sym q). destruct (Z.eqb_spec (i + b) q) as [<-|Nq]; cbn [andb]; [|rewrite orb_false_r; now apply Bi].
        rewrite Z.lor_spec, Bi, Bw by lia. rewrite (proj2 (Z.ltb_lt t 64)) by lia. reflexivity. }
      destruct (Z.eqb_spec (i + b + 1) (zlen x)) as [Eq|Nq]; cbn [negb].
      * eexists. split; [reflexivity|]. split; [now rewrite zlen_zupd|]. split; [apply words_zupd; auto; lia|].
        intros q t Hq Ht. rewrite Step1 by auto. unfold shl_bit.
        destruct (Z.eqb_spec q (i + b)) as [->|Nq].
        -- replace (i + b - b) with i by lia. rewrite (proj2 (Z.leb_le b (i + b))), (proj2 (Z.ltb_lt (i + b) (b + (i + 1)))), (proj2 (Z.ltb_ge (i + b) (b + i))), (proj2 (Z.ltb_lt (i + b) (b + 1 + i))), (proj2 (Z.ltb_lt (i + b) (b + 1 + (i + 1)))) by lia.
           cbn [andb orb]. apply orb_comm.
        -- cbn [andb]. rewrite orb_false_r. replace (q <? b + (i + 1)) with (q <? b + i) by (destruct (Z.ltb_spec q (b + i)), (Z.ltb_spec q (b + (i + 1))); auto; lia).
           replace (q <? b + 1 + (i + 1)) with (q <? b + 1 + i) by (destruct (Z.ltb_spec q (b + 1 + i)), (Z.ltb_spec q (b + 1 + (i + 1))); auto; lia). reflexivity.
      * destruct (shr_ok (blk x i) (64 - s) Wa ltac:(lia)) as (w2 & Ew2 & Ww2 & Bw2). rewrite Ew2. cbn [bind]. rewrite vget_blk by (rewrite zlen_zupd; lia). cbn [bind]. rewrite vset_ok by (rewrite zlen_zupd; lia).
        set (bs1 := zupd bs (i + b) (Z.lor (blk bs (i + b)) w)) in *. assert (Z2 : zlen bs1 = zlen x) by (unfold bs1; now rewrite zlen_zupd).
        assert (W2 : words bs1) by (apply words_zupd; auto; lia).
        eexists. split; [reflexivity|]. split; [now rewrite zlen_zupd|]. split; [apply words_zupd; [auto|apply lor_word; auto; apply W2; lia|lia]|].
        intros q t Hq Ht. rewrite blk_zupd by lia.
        assert (Hi2 : Z.testbit w2 t = (t <? s) && Z.testbit (blk x i) (t + 64 - s)).
        { rewrite Bw2 by lia. destruct (Z.ltb_spec t s); cbn [andb]; [f_equal; lia|]. apply word_high; auto. lia. }
        assert (G : Z.testbit (if i + b + 1 =? q then Z.lor (blk bs1 (i + b + 1)) w2 else blk bs1 q) t = Z.testbit (blk bs1 q) t || ((q =? i + b + 1) && (t <? s) && Z.testbit (blk x i) (t + 64 - s))).
        { rewrite (Z.eqb_sym q). destruct (Z.eqb_spec (i + b + 1) q) as [<-|]; cbn [andb]; [|now rewrite orb_false_r]. rewrite Z.lor_spec, Hi2. reflexivity. }
        rewrite G, Step1 by auto. unfold shl_bit.
        destruct (Z.eqb_spec q (i + b)) as [->|N1]; [|destruct (Z.eqb_spec q (i + b + 1)) as [->|N2]].
        -- replace (i + b - b) with i by lia. rewrite (proj2 (Z.eqb_neq (i + b) (i + b + 1))) by lia. cbn [andb]. rewrite orb_false_r.
           rewrite (proj2 (Z.leb_le b (i + b))), (proj2 (Z.ltb_lt (i + b) (b + (i + 1)))), (proj2 (Z.ltb_ge (i + b) (b + i))), (proj2 (Z.ltb_lt (i + b) (b + 1 + i))), (proj2 (Z.ltb_lt (i + b) (b + 1 + (i + 1)))) by lia.
           cbn [andb orb]. apply orb_comm.
        -- cbn [andb]. rewrite orb_false_r. replace (i + b + 1 - b - 1) with i by lia.
           rewrite (proj2 (Z.ltb_ge (i + b + 1) (b + i))), (proj2 (Z.ltb_ge (i + b + 1) (b + (i + 1)))), (proj2 (Z.ltb_ge (i + b + 1) (b + 1 + i))), (proj2 (Z.ltb_lt (i + b + 1) (b + 1 + (i + 1)))), (proj2 (Z.leb_le (b + 1) (i + b + 1))) by lia.
           rewrite !andb_false_r. cbn [andb orb]. reflexivity.
        -- cbn [andb]. rewrite !orb_false_r. replace (q <? b + (i + 1)) with (q <? b + i) by (destruct (Z.ltb_spec q (b + i)), (Z.ltb_spec q (b + (i + 1))); auto; lia).
           replace (q <? b + 1 + (i + 1)) with (q <? b + 1 + i) by (destruct (Z.ltb_spec q (b + 1 + i)), (Z.ltb_spec q (b + 1 + (i + 1))); auto; lia). reflexivity.
  - cbv zeta in Eb |- *. rewrite Eb. cbn [bind]. eexists. split; [reflexivity|]. split; [|split; [cbn [db_n]; rewrite zlen_tab; lia|]].
    + cbn [db_n db_b]. split; [lia|]. split; [congruence|auto].
    + cbn [db_n db_b]. intros p Hp. rewrite bitv_tab by auto. destruct (dm p) as (q & t & Ep & Ht & F1 & F2). unfold tb. rewrite F1, F2. rewrite Bs by lia. unfold shl_bit.
      rewrite (proj2 (Z.ltb_lt q (b + (zlen x - b)))) by lia. rewrite (proj2 (Z.ltb_lt q (b + 1 + (zlen x - b)))) by lia. rewrite !andb_true_r.
      destruct (Z.leb_spec k p) as [Lp|Lp]; cbn [andb].
      * rewrite <- B by lia. destruct (Z.leb_spec s t).
        -- rewrite (proj2 (Z.leb_le b q)) by lia. rewrite (proj2 (Z.ltb_ge t s)) by lia. rewrite !andb_false_r. cbn [andb]. rewrite orb_false_r.
           replace (p - k) with (64 * (q - b) + (t - s)) by lia. now rewrite tb_at by lia.
        -- rewrite !andb_false_r. cbn [andb orb]. rewrite (proj2 (Z.leb_le (b + 1) q)), (proj2 (Z.ltb_lt t s)) by lia. cbn [andb].
           replace (p - k) with (64 * (q - b - 1) + (t + 64 - s)) by lia. now rewrite tb_at by lia.
      * destruct (Z.leb_spec b q), (Z.leb_spec s t), (Z.leb_spec (b + 1) q), (Z.ltb_spec t s); cbn [andb orb]; auto; lia.
Qed.

(* >>= *)
Lemma rep_shr d l k : rep d l -> 0 <= k -> exists d', db_shr d k = Ok d' /\ rep d' (tab (zlen l) (fun j => bitv l (j + k))).
Proof.
  intros R Hk. pose proof (rep_n _ _ R) as (E & N0). pose proof (rep_len _ _ R) as Ln. unfold db_shr. rewrite E. destruct (Z.leb_spec (zlen l) k) as [L|L].
  { eexists. split; [reflexivity|]. assert (T : tab (zlen l) (fun j => bitv l (j + k)) = tab (zlen l) (fun _ => false)); [|rewrite T; now apply rep_new].
    apply bitv_ext; rewrite !zlen_tab by lia; auto. intros i Hi. rewrite !bitv_tab by lia. apply bitv_out. lia. }
  destruct R as (Wf & _ & B). pose proof Wf as (H0 & Zl & W). rewrite land63. rewrite Z.shiftr_div_pow2 by lia. change (2 ^ 6) with 64.
  destruct (dm k) as (b & s & Ek & Hs & E1 & E2). rewrite E1, E2.
  destruct (wfb_new (zlen l) false N0) as ((_ & Zn & Wn) & Bn). set (r0 := db_b (db_new (zlen l) false)) in *. cbn [db_n db_new] in Zn, Bn.
  set (x := db_b d) in *. assert (Zr : zlen r0 = zlen x) by congruence.
  destruct (for_inv (fun k bs => zlen bs = zlen x /\ words bs /\
      (forall q t, 0 <= q < k -> 0 <= t < 64 -> 64 * (q + b) + s + t < 64 * zlen x -> Z.testbit (blk bs q) t = tb x (64 * (q + b) + s + t)) /\
      (forall q, k <= q < zlen x -> blk bs q = 0))
    0 (zlen x - b) (fun i bs =>
      let* a := vget x (i + b) in
      if s =? 0 then vset bs i a else
      let* w := shr a s in let* c := vget bs i in let* bs := vset bs i (Z.lor c w) in
      if negb (i + b + 1 =? zlen x) then
        let* a := vget x (i + b + 1) in
        let* w := shl a (64 - s) in let* c := vget bs i in vset bs i (Z.lor c w)
      else Ok bs) r0) as (bs & Eb & Zs & Ws & Bs & _); [lia| | |].
  - split; auto. split; auto. split; [intros; lia|]. intros q Hq. apply word_zero; [apply Wn; lia|]. intros t Ht. rewrite <- tb_at by auto. apply Bn. lia.
  - intros i bs Hi (Zi & Wi & Bi & Bz). rewrite vget_blk by lia. cbn [bind]. assert (Wa : word (blk x (i + b))) by (apply W; lia).
    assert (Fin : forall y, word y -> (forall t, 0 <= t < 64 -> 64 * (i + b) + s + t < 64 * zlen x -> Z.testbit y t = tb x (64 * (i + b) + s + t)) ->
      zlen (zupd bs i y) = zlen x /\ words (zupd bs i y) /\
      (forall q t, 0 <= q < i + 1 -> 0 <= t < 64 -> 64 * (q + b) + s + t < 64 * zlen x -> Z.testbit (blk (zupd bs i y) q) t = tb x (64 * (q + b) + s + t)) /\
      (forall q, i + 1 <= q < zlen x -> blk (zupd bs i y) q = 0)).
    { intros y Wy By. rewrite zlen_zupd. split; auto. split; [apply words_zupd; auto; lia|]. split.
      - intros q t Hq Ht Hl. rewrite blk_zupd by lia. destruct (Z.eqb_spec i q) as [<-|]; auto. apply Bi; lia.
      - intros q Hq. rewrite blk_zupd by lia. destruct (Z.eqb_spec i q); [lia|]. apply Bz. lia. }
    destruct (Z.eqb_spec s 0) as [->|Ns].
    + rewrite vset_ok by lia. eexists. split; [reflexivity|]. apply Fin; auto. intros t Ht _. rewrite Z.add_0_r, tb_at by auto. reflexivity.
    + destruct (shr_ok (blk x (i + b)) s Wa ltac:(lia)) as (w & Ew & Ww & Bw). rewrite Ew. cbn [bind]. rewrite vget_blk by lia. cbn [bind]. rewrite vset_ok by lia. cbn [bind].
      rewrite (Bz i) by lia. rewrite Z.lor_0_l.
      assert (Bw' : forall t, 0 <= t < 64 -> Z.testbit w t = (t + s <? 64) && tb x (64 * (i + b) + s + t)).
      { intros t Ht. rewrite Bw by lia. destruct (Z.ltb_spec (t + s) 64); cbn [andb]; [|apply word_high; auto]. replace (64 * (i + b) + s + t) with (64 * (i + b) + (t + s)) by lia. now rewrite tb_at by lia. }
      destruct (Z.eqb_spec (i + b + 1) (zlen x)) as [Eq|Nq]; cbn [negb].
      * eexists. split; [reflexivity|]. apply Fin; auto. intros t Ht Hl. rewrite Bw' by auto. now rewrite (proj2 (Z.ltb_lt _ _)) by lia.
      * rewrite vget_blk by lia. cbn [bind]. destruct (shl_ok (blk x (i + b + 1)) (64 - s) ltac:(apply W; lia) ltac:(lia)) as (w2 & Ew2 & Ww2 & Bw2). rewrite Ew2. cbn [bind].
        rewrite vget_zupd_same by lia. cbn [bind]. rewrite vset_ok by (rewrite zlen_zupd; lia). rewrite zupd_zupd_same. eexists. split; [reflexivity|].
        apply Fin; [now apply lor_word|]. intros t Ht Hl. rewrite Z.lor_spec, Bw', Bw2 by lia. rewrite (proj2 (Z.ltb_lt t 64)) by lia. cbn [andb].
        destruct (Z.ltb_spec (t + s) 64); cbn [andb orb].
        -- rewrite (proj2 (Z.leb_gt (64 - s) t)) by lia. cbn [andb]. apply orb_false_r.
        -- rewrite (proj2 (Z.leb_le (64 - s) t)) by lia. cbn [andb]. replace (64 * (i + b) + s + t) with (64 * (i + b + 1) + (t - (64 - s))) by lia. now rewrite tb_at by lia.
  - cbv zeta in Eb |- *. rewrite Eb. cbn [bind].
    assert (Wfb : wfb (zlen l) bs) by (split; [lia|]; split; [congruence|auto]).
    destruct (range_raw _ _ _ (zlen l) bs (zlen l - k) (zlen l) acts_reset Wfb ltac:(lia) ltac:(lia)) as (bs2 & E3 & W3 & Z3 & B3). unfold range_reset. rewrite E3. eexists. split; [reflexivity|].
    split; [exact W3|]. split; [cbn [db_n]; rewrite zlen_tab; lia|]. cbn [db_n db_b]. intros p Hp. rewrite bitv_tab by auto. rewrite B3 by lia.
    destruct (Z.leb_spec (zlen l - k) p), (Z.ltb_spec p (zlen l)); cbn [andb]; try lia; [symmetry; apply bitv_out; lia|].
    rewrite <- B by lia. destruct (dm p) as (q & t & Ep & Ht & F1 & F2). unfold tb at 1. rewrite F1, F2. rewrite Bs by lia. f_equal. lia.
Qed.

(* questions about the whole set *)
Lemma rep_none d l : rep d l -> db_none d = Ok (forallb negb l).
Proof.
  intros R. pose proof (rep_n _ _ R) as (E & N0). pose proof (rep_len _ _ R) as Ln. unfold db_none. rewrite E. destruct (Z.eqb_spec (zlen l) 0) as [Z0|Z0].
  { destruct (rep_zero _ _ R ltac:(lia)) as (-> & _). reflexivity. }
  destruct (rep_last d l R) as (b & Eb & _ & Rn & Eg & _ & En); [lia|].
  destruct (scan_ok (fun i => let* a := vget (db_b d) i in Ok (if negb (a =? 0) then Some false else None))
    (fun i => if negb (wl l i =? 0) then Some false else None) 0 (zlen (db_b d) - 1)) as [(Es & H)|(i & r & Es & Hi & H & _)]; [lia| | |].
  - intros i Hi. rewrite (rep_mid d l) by (auto; lia). reflexivity.
  - rewrite Es. cbn [bind]. rewrite Eb. cbn [bind]. rewrite Eg. cbn [bind]. f_equal. apply eq_true_iff_eq. rewrite forallb_bits, Z.eqb_eq, word_zero by apply wd_word. split.
    + intros Hw p Hp. destruct (dm p) as (q & t & -> & Ht & _). rewrite <- wl_bits by lia. destruct (Z_lt_le_dec q (zlen (db_b d) - 1)).
      * specialize (H q ltac:(lia)). destruct (Z.eqb_spec (wl l q) 0) as [->|]; [now rewrite Z.bits_0|discriminate].
      * replace q with (zlen (db_b d) - 1) by lia. now rewrite Hw.
    + intros Hw t Ht. fold (wl l (zlen (db_b d) - 1)). rewrite wl_bits by lia. destruct (Z_lt_le_dec (64 * (zlen (db_b d) - 1) + t) (zlen l)); [|apply bitv_out; lia].
      apply negb_true_iff. apply Hw. lia.
  - rewrite Es. cbn [bind]. destruct (Z.eqb_spec (wl l i) 0) as [|Nw]; [discriminate|]. injection H as <-. f_equal. symmetry. apply not_true_is_false. rewrite forallb_bits. intros Hw.
    apply Nw. apply word_zero; [apply wd_word|]. intros t Ht. fold (wl l i). rewrite wl_bits by lia. apply negb_true_iff, Hw. lia.
Qed.
Lemma any_none l : existsb (fun c : bool => c) l = negb (forallb negb l).
Proof. induction l as [|x l IH]; auto. cbn [existsb forallb]. rewrite IH. now destruct x. Qed.
Lemma rep_all d l : rep d l -> (zlen l =? 0) || negb (zlen l mod 64 =? 0) = true -> db_all d = Ok (forallb (fun c => c) l).
Proof.
  intros R G. pose proof (rep_n _ _ R) as (E & N0). pose proof (rep_len _ _ R) as Ln. unfold db_all. rewrite E. destruct (Z.eqb_spec (zlen l) 0) as [Z0|Z0].
  { destruct (rep_zero _ _ R ltac:(lia)) as (-> & _). reflexivity. }
  cbn [orb] in G. destruct (rep_last d l R) as (b & Eb & Wb & Rn & _ & Bb & En); [lia|].
  assert (Hn : 1 <= last_num d <= 63).
  { apply negb_true_iff, Z.eqb_neq in G. destruct (Z.eq_dec (last_num d) 64); [|lia]. destruct G. symmetry. apply Z.mod_unique with (zlen (db_b d)); lia. }
  destruct (scan_ok (fun i => let* a := vget (db_b d) i in Ok (if negb (a =? full) then Some false else None))
    (fun i => if negb (wl l i =? full) then Some false else None) 0 (zlen (db_b d) - 1)) as [(Es & H)|(i & r & Es & Hi & H & _)]; [lia| | |].
  - intros i Hi. rewrite (rep_mid d l) by (auto; lia). reflexivity.
  - rewrite Es. cbn [bind]. rewrite (proj2 (Z.eqb_neq (last_num d) 0)) by lia. cbn [negb assert_ bind].
    destruct (shl_ok 1 (64 - last_num d) (b2z_word true) ltac:(lia)) as (u & Eu & Wu & Bu). rewrite Eu. cbn [bind].
    assert (Uv : u = 2 ^ (64 - last_num d)).
    { apply Z.bits_inj'. intros j Hj. rewrite Bu by auto. rewrite one_bit by lia. rewrite Z.pow2_bits_eqb by lia. rewrite (Z.eqb_sym j).
      destruct (Z.eqb_spec (64 - last_num d) j); [|now rewrite andb_false_r]. rewrite (proj2 (Z.ltb_lt j 64)), (proj2 (Z.leb_le _ j)) by lia. reflexivity. }
    destruct (shl_ok (u64 (u - 1)) (last_num d) (u64_word _) ltac:(lia)) as (m & Em & Wm & Bm). rewrite Em. cbn [bind]. rewrite Eb. cbn [bind]. f_equal.
    assert (Bm' : forall t, 0 <= t < 64 -> Z.testbit m t = (last_num d <=? t)).
    { intros t Ht. rewrite Bm by lia. rewrite (proj2 (Z.ltb_lt t 64)) by lia. cbn [andb]. destruct (Z.leb_spec (last_num d) t); cbn [andb]; auto.
      rewrite u64_bits by lia. rewrite (proj2 (Z.ltb_lt (t - last_num d) 64)) by lia. cbn [andb]. rewrite Uv.
      replace (2 ^ (64 - last_num d) - 1) with (Z.ones (64 - last_num d)) by (rewrite Z.ones_equiv; lia). apply Z.ones_spec_low. lia. }
    apply eq_true_iff_eq. rewrite forallb_bits, Z.eqb_eq, word_full by (now apply lor_word). split.
    + intros Hw p Hp. destruct (dm p) as (q & t & -> & Ht & _). destruct (Z_lt_le_dec q (zlen (db_b d) - 1)).
      * specialize (H q ltac:(lia)). rewrite <- wl_bits by lia. destruct (Z.eqb_spec (wl l q) full) as [->|]; [now apply full_bits|discriminate].
      * replace q with (zlen (db_b d) - 1) in * by lia. rewrite <- Bb by lia. specialize (Hw t Ht). rewrite Z.lor_spec, Bm' in Hw by auto.
        rewrite (proj2 (Z.leb_gt (last_num d) t)) in Hw by lia. exact Hw.
    + intros Hw t Ht. rewrite Z.lor_spec, Bm' by auto. destruct (Z.leb_spec (last_num d) t); cbn [orb]; auto. rewrite Bb by lia. apply Hw. lia.
  - rewrite Es. cbn [bind]. destruct (Z.eqb_spec (wl l i) full) as [|Nw]; [discriminate|]. injection H as <-. f_equal. symmetry. apply not_true_is_false. rewrite forallb_bits. intros Hw.
    apply Nw. apply word_full; [apply wd_word|]. intros t Ht. fold (wl l i). rewrite wl_bits by lia. apply Hw. lia.
Qed.
Lemma wl_count l i k : 0 <= i -> 0 <= k <= 64 -> count_upto (Z.testbit (wl l i)) k = count_upto (bitv l) (64 * i + k) - count_upto (bitv l) (64 * i).
Proof. intros. rewrite <- count_shift by lia. apply count_ext. intros t Ht. now rewrite wl_bits by lia. Qed.
Lemma count_out l k : 0 <= k -> count_upto (bitv l) (zlen l + k) = count_upto (bitv l) (zlen l).
Proof.
  intros Hk. pose proof (zlen_nonneg l). revert k Hk. apply natlike_ind; [f_equal; lia|]. intros k Hk IH. unfold Z.succ. rewrite Z.add_assoc, count_S by lia. rewrite IH, bitv_out by lia. cbn. lia.
Qed.
Lemma rep_count d l : rep d l -> db_count d = Ok (ones l).
Proof.
  intros R. pose proof (rep_n _ _ R) as (E & N0). pose proof (rep_len _ _ R) as Ln. unfold db_count. rewrite E. destruct (Z.eqb_spec (zlen l) 0) as [Z0|Z0].
  { destruct (rep_zero _ _ R ltac:(lia)) as (-> & _). reflexivity. }
  destruct (rep_last d l R) as (b & Eb & _ & Rn & Eg & _ & En); [lia|].
  destruct (for_inv (fun i c => c = count_upto (bitv l) (64 * i)) 0 (zlen (db_b d) - 1) (fun i c => let* a := vget (db_b d) i in Ok (c + popcountll a)) 0) as (c & Ec & ->); [lia| | |].
  - now rewrite Z.mul_0_r, count_0.
  - intros i c Hi ->. rewrite (rep_mid d l) by (auto; lia). cbn [bind]. eexists. split; [reflexivity|]. rewrite pop_count, wl_count by lia. replace (64 * i + 64) with (64 * (i + 1)) by lia. lia.
  - rewrite Ec. cbn [bind]. rewrite Eb. cbn [bind]. rewrite Eg. cbn [bind]. f_equal. rewrite pop_count, wl_count by lia. rewrite ones_all.
    replace (64 * (zlen (db_b d) - 1) + 64) with (zlen l + (64 * zlen (db_b d) - zlen l)) by lia. rewrite count_out by lia. lia.
Qed.

(* find_first, find_next *)
Lemma find_scan d l lo : rep d l -> 0 <= lo <= zlen (db_b d) ->
  exists r, (let* o := scan lo (zlen (db_b d)) (fun i => let* a := vget (db_b d) i in
      Ok (if negb (a =? 0) then Some (Z.min (db_n d) (Z.lor (ctz a) (Z.shiftl i 6))) else None)) in
    Ok (match o with Some r => r | None => db_n d end)) = Ok r /\
  Z.min (64 * lo) (zlen l) <= r <= zlen l /\ (forall i, 64 * lo <= i < r -> bitv l i = false) /\ (r < zlen l -> bitv l r = true).
Proof.
  intros R Hlo. pose proof (rep_n _ _ R) as (E & N0). pose proof (rep_len _ _ R) as Ln. destruct R as (Wf & _ & B). pose proof Wf as (_ & _ & W). rewrite E in *.
  assert (Zb : forall q p, 0 <= q < zlen (db_b d) -> blk (db_b d) q = 0 -> p / 64 = q -> 0 <= p < zlen l -> bitv l p = false).
  { intros q p Hq Eb Ep Hp. rewrite <- B by auto. unfold tb. rewrite Ep, Eb. apply Z.bits_0. }
  destruct (scan_ok (fun i => let* a := vget (db_b d) i in Ok (if negb (a =? 0) then Some (Z.min (zlen l) (Z.lor (ctz a) (Z.shiftl i 6))) else None))
    (fun i => if negb (blk (db_b d) i =? 0) then Some (Z.min (zlen l) (Z.lor (ctz (blk (db_b d) i)) (Z.shiftl i 6))) else None) lo (zlen (db_b d))) as [(Es & H)|(i & r & Es & Hi & H & Hj)]; [lia| | |].
  - intros i Hi. rewrite vget_blk by lia. reflexivity.
  - rewrite Es. cbn [bind]. exists (zlen l). split; auto. split; [lia|]. split; [|lia]. intros p Hp. apply (Zb (p / 64)); auto; [|specialize (H (p / 64)); destruct (Z.eqb_spec (blk (db_b d) (p / 64)) 0); auto|]; destruct (dm p) as (q & t & Ep & Ht & E1 & E2); rewrite ?E1 in *; try lia.
    cbn [negb] in H. discriminate H. lia.
  - rewrite Es. cbn [bind]. exists r. split; auto. destruct (Z.eqb_spec (blk (db_b d) i) 0) as [|Ne]; cbn [negb] in H; [discriminate|].
    assert (Hr : Z.min (zlen l) (Z.lor (ctz (blk (db_b d) i)) (Z.shiftl i 6)) = r) by congruence. clear H. subst r. rewrite ctz_index by (auto; try lia; apply W; lia). destruct (ctz_bits _ (W i ltac:(lia)) Ne) as (C0 & C1 & C2). split; [lia|]. split.
    + intros p Hp. destruct (dm p) as (q & t & Ep & Ht & E1 & E2). destruct (Z.eq_dec q i) as [->|].
      * rewrite <- B by lia. unfold tb. rewrite E1, E2. apply C2. lia.
      * apply (Zb q); auto; try lia. specialize (Hj q ltac:(lia)). destruct (Z.eqb_spec (blk (db_b d) q) 0); auto. discriminate.
    + intros Lr. rewrite Z.min_r by lia. rewrite <- B by lia. rewrite tb_at by lia. exact C1.
Qed.
Lemma rep_find_first d l : rep d l -> db_find_first d = Ok (first_true l).
Proof.
  intros R. pose proof (rep_n _ _ R) as (E & N0). unfold db_find_first. destruct (Z.eqb_spec (db_n d) 0) as [Z0|Z0].
  { destruct (rep_zero _ _ R ltac:(lia)) as (-> & _). now rewrite Z0. }
  destruct (find_scan d l 0 R) as (r & Er & H1 & H2 & H3); [pose proof (zlen_nonneg (db_b d)); lia|]. cbv zeta in Er |- *. rewrite Er. f_equal. symmetry. apply first_unique; auto; lia.
Qed.
Lemma rep_find_next d l pos : rep d l -> 0 <= pos ->
  db_find_next d pos = Ok (Z.min (pos + 1) (zlen l) + first_true (skipn (Z.to_nat (Z.min (pos + 1) (zlen l))) l)).
Proof.
  intros R Hp. pose proof (rep_n _ _ R) as (E & N0). pose proof (rep_len _ _ R) as Ln. unfold db_find_next. rewrite block_div, bit_mod.
  destruct (dm (pos + 1)) as (q & t & Ep & Ht & E1 & E2). rewrite E1, E2. destruct (Z.leb_spec (zlen (db_b d)) q) as [L|L].
  { f_equal. rewrite E. symmetry. apply next_unique; try lia. }
  pose proof R as (Wf & _ & B). pose proof Wf as (_ & _ & W). rewrite vget_blk by lia. cbn [bind].
  destruct (mask_upper_ok (blk (db_b d) q) (64 - t) (W q ltac:(lia)) ltac:(lia)) as (u & Eu & Wu & Bu). rewrite Eu. cbn [bind].
  assert (Bu' : forall s, 0 <= s < 64 -> 64 * q + s < zlen l -> Z.testbit u s = (t <=? s) && bitv l (64 * q + s)).
  { intros s Hs Hl. rewrite Bu by auto. replace (64 - (64 - t)) with t by lia. f_equal. rewrite <- B by lia. now rewrite tb_at. }
  destruct (Z.eqb_spec u 0) as [->|Ne]; cbn [negb].
  - destruct (find_scan d l (q + 1) R ltac:(lia)) as (r & Er & H1 & H2 & H3). cbv zeta in Er |- *. rewrite Er. f_equal. symmetry. apply next_unique; auto; try lia.
    intros i Hi. destruct (Z_lt_le_dec i (64 * (q + 1))) as [Li|Li]; [|apply H2; lia].
    pose proof (Bu' (i - 64 * q) ltac:(lia) ltac:(lia)) as Hb. rewrite Z.bits_0 in Hb. replace (64 * q + (i - 64 * q)) with i in Hb by lia. rewrite (proj2 (Z.leb_le t _)) in Hb by lia. now symmetry.
  - rewrite ctz_index by (auto; lia). destruct (ctz_bits u Wu Ne) as (C0 & C1 & C2). rewrite E. f_equal. symmetry.
    assert (Ct : t <= ctz u).
    { destruct (Z_le_gt_dec t (ctz u)); auto. rewrite Bu in C1 by auto. rewrite (proj2 (Z.leb_gt _ _)) in C1 by lia. discriminate. }
    apply next_unique; try lia.
    + intros i Hi. assert (Hb := C2 (i - 64 * q) ltac:(lia)). rewrite Bu' in Hb by lia. rewrite (proj2 (Z.leb_le t _)) in Hb by lia. cbn [andb] in Hb. rewrite <- Hb. f_equal. lia.
    + intros Lr. rewrite Z.min_r by lia. rewrite Bu' in C1 by lia. rewrite (proj2 (Z.leb_le t _)) in C1 by lia. exact C1.
Qed.

(* has_intersection *)
Lemma rep_intersects d l d' l' : rep d l -> rep d' l' -> zlen l <= zlen l' -> intersects d d' = Ok (meet l l').
Proof.
  intros R R' Z. pose proof (rep_n _ _ R) as (E & N0). pose proof (rep_n _ _ R') as (E' & N0'). pose proof (rep_len _ _ R) as Ln. pose proof (rep_len _ _ R') as Ln'. unfold intersects. rewrite E.
  destruct (Z.eqb_spec (zlen l) 0) as [Z0|Z0].
  { destruct (rep_zero _ _ R ltac:(lia)) as (-> & _). reflexivity. }
  destruct (rep_last d l R) as (b & Eb & _ & Rn & Eg & _ & En); [lia|]. pose proof R' as (Wf' & _ & B'). pose proof Wf' as (_ & _ & W').
  assert (Bt : forall i t, 0 <= i -> 0 <= t < 64 -> 64 * i + t < zlen l -> Z.testbit (blk (db_b d') i) t = bitv l' (64 * i + t)).
  { intros i t Hi Ht Hl. rewrite <- B' by lia. now rewrite tb_at. }
  assert (Bw : forall i, 0 <= i < zlen (db_b d) -> Z.land (wl l i) (blk (db_b d') i) = 0 <-> forall t, 0 <= t < 64 -> bitv l (64 * i + t) && bitv l' (64 * i + t) = false).
  { intros i Hi. rewrite word_zero by (apply land_word; [apply wd_word|apply W'; lia]). split; intros H t Ht; specialize (H t Ht).
    - rewrite Z.land_spec in H. fold (wl l i) in H. rewrite wl_bits in H by lia. destruct (Z_lt_le_dec (64 * i + t) (zlen l)); [rewrite Bt in H by lia; exact H|]. rewrite bitv_out by lia. reflexivity.
    - rewrite Z.land_spec, wl_bits by lia. destruct (Z_lt_le_dec (64 * i + t) (zlen l)); [rewrite Bt by lia; exact H|]. rewrite bitv_out by lia. reflexivity. }
  destruct (scan_ok (fun i => let* a := vget (db_b d) i in let* b := vget (db_b d') i in Ok (if negb (Z.land a b =? 0) then Some true else None))
    (fun i => if negb (Z.land (wl l i) (blk (db_b d') i) =? 0) then Some true else None) 0 (zlen (db_b d) - 1)) as [(Es & H)|(i & r & Es & Hi & H & _)]; [lia| | |].
  - intros i Hi. rewrite (rep_mid d l) by (auto; lia). rewrite vget_blk by lia. reflexivity.
  - rewrite Es. cbn [bind]. rewrite Eb. cbn [bind]. rewrite Eg. cbn [bind]. rewrite vget_blk by lia. cbn [bind]. f_equal.
    destruct (Z.eqb_spec (Z.land (wl l (zlen (db_b d) - 1)) (blk (db_b d') (zlen (db_b d) - 1))) 0) as [E0|Ne]; cbn [negb]; symmetry.
    + apply not_true_is_false. rewrite meet_bits. intros (p & Hp & A1 & A2). assert (Lp : p < zlen l) by (destruct (Z_lt_le_dec p (zlen l)); auto; rewrite bitv_out in A1 by auto; discriminate).
      destruct (dm p) as (q & t & -> & Ht & _). assert (Ez : Z.land (wl l q) (blk (db_b d') q) = 0).
      { destruct (Z_lt_le_dec q (zlen (db_b d) - 1)); [|replace q with (zlen (db_b d) - 1) by lia; auto]. specialize (H q ltac:(lia)). destruct (Z.eqb_spec (Z.land (wl l q) (blk (db_b d') q)) 0); auto. discriminate. }
      rewrite Bw in Ez by lia. specialize (Ez t Ht). rewrite A1, A2 in Ez. discriminate.
    + destruct (meet l l') eqn:Em; auto. destruct Ne. apply Bw; [lia|]. intros t Ht. apply not_true_is_false. intros A. apply andb_true_iff in A as [A1 A2].
      assert (meet l l' = true); [|congruence]. apply meet_bits. exists (64 * (zlen (db_b d) - 1) + t). split; [lia|auto].
  - rewrite Es. cbn [bind]. f_equal. destruct (Z.eqb_spec (Z.land (wl l i) (blk (db_b d') i)) 0) as [|Ne]; [discriminate|]. injection H as <-. symmetry.
    destruct (meet l l') eqn:Em; auto. destruct Ne. apply Bw; [lia|]. intros t Ht. apply not_true_is_false. intros A. apply andb_true_iff in A as [A1 A2].
    assert (meet l l' = true); [|congruence]. apply meet_bits. exists (64 * i + t). split; [lia|auto].
Qed.
Lemma rep_meet d l d' l' : rep d l -> rep d' l' -> db_has_intersection d d' = Ok (meet l l').
Proof.
  intros R R'. pose proof (rep_n _ _ R) as (E & N0). pose proof (rep_n _ _ R') as (E' & N0'). unfold db_has_intersection. rewrite E, E'.
  destruct (Z.ltb_spec (zlen l') (zlen l)); [rewrite meet_sym|]; apply rep_intersects; auto; lia.
Qed.
