(* BitVector *)
From Verif Require Import Base BaseLemmas Seq Wheel BitVector_model BitVector_spec.

Lemma count_0 f : count_upto f 0 = 0.
Proof. reflexivity. Qed.
Lemma count_S f i : 0 <= i -> count_upto f (i + 1) = count_upto f i + Z.b2z (f i).
Proof.
  intro H. unfold count_upto. rewrite zrange_S, filter_app, zlen_app by auto. cbn [filter]. destruct (f i); reflexivity.
Qed.
Lemma count_mono f i k : 0 <= i -> 0 <= k -> count_upto f i <= count_upto f (i + k) <= count_upto f i + k.
Proof.
  intros Hi Hk. pattern k. apply natlike_ind; auto.
  - rewrite Z.add_0_r. lia.
  - intros x Hx IH. replace (i + Z.succ x) with (i + x + 1) by lia. rewrite count_S by lia. destruct (f (i + x)); cbn [Z.b2z]; lia.
Qed.
Lemma count_ext f g i : (forall j, 0 <= j < i -> f j = g j) -> count_upto f i = count_upto g i.
Proof. intro H. unfold count_upto. f_equal. apply filter_ext_in. intros a Ha. apply In_zrange in Ha. auto. Qed.
Lemma count_neg f i : 0 <= i -> count_upto (fun j => negb (f j)) i = i - count_upto f i.
Proof.
  intro H. pattern i. apply natlike_ind; auto. intros x Hx IH. unfold Z.succ. rewrite !count_S, IH by lia. destruct (f x); cbn; lia.
Qed.
Lemma count_eqb f b i : 0 <= i -> count_upto (fun j => Bool.eqb (f j) b) i = if b then count_upto f i else i - count_upto f i.
Proof.
  intro H. destruct b.
  - apply count_ext. intros j _. now destruct (f j).
  - rewrite <- count_neg by auto. apply count_ext. intros j _. now destruct (f j).
Qed.

(* packed bits *)
Fixpoint pack (f : Z -> bool) (k : nat) : Z :=
  match k with O => 0 | S k => Z.lor (pack f k) (Z.shiftl (Z.b2z (f (Z.of_nat k))) (Z.of_nat k)) end.
Lemma pack_bit f k t : 0 <= t -> Z.testbit (pack f k) t = (t <? Z.of_nat k) && f t.
Proof.
  intro Ht. induction k as [|k IH]; cbn [pack].
  - rewrite Z.bits_0. replace (t <? Z.of_nat 0) with false by lia. reflexivity.
  - rewrite Z.lor_spec, IH, Z.shiftl_spec by lia. destruct (Z.eq_dec t (Z.of_nat k)) as [->|N].
    + rewrite Z.sub_diag. replace (Z.of_nat k <? Z.of_nat k) with false by lia. replace (Z.of_nat k <? Z.of_nat (S k)) with true by lia.
      now destruct (f (Z.of_nat k)).
    + assert (Z.testbit (Z.b2z (f (Z.of_nat k))) (t - Z.of_nat k) = false) as ->.
      { destruct (Z_lt_ge_dec t (Z.of_nat k)); [apply Z.testbit_neg_r; lia|]. destruct (f (Z.of_nat k)); cbn [Z.b2z]; [|apply Z.bits_0].
        apply Z.bits_above_log2; cbn; lia. }
      rewrite orb_false_r. destruct (t <? Z.of_nat k) eqn:?; destruct (t <? Z.of_nat (S k)) eqn:?; auto; lia.
Qed.
Lemma pack_range f k : 0 <= pack f k < 2 ^ Z.of_nat k.
Proof.
  assert (0 <= pack f k).
  { apply Z.bits_iff_nonneg_ex. exists (Z.of_nat k). intros t Ht. rewrite pack_bit by lia. replace (t <? Z.of_nat k) with false by lia. reflexivity. }
  split; auto. destruct (Z.eq_dec (pack f k) 0) as [->|N]; [apply Z.pow_pos_nonneg; lia|].
  apply Z.log2_lt_pow2; [lia|]. destruct (Z_lt_ge_dec (Z.log2 (pack f k)) (Z.of_nat k)) as [|G]; auto.
  pose proof (Z.bit_log2 (pack f k) ltac:(lia)) as B. pose proof (Z.log2_nonneg (pack f k)). rewrite pack_bit in B by lia.
  replace (Z.log2 (pack f k) <? Z.of_nat k) with false in B by lia. discriminate.
Qed.
Lemma pack_ext f g k : (forall t, 0 <= t < Z.of_nat k -> f t = g t) -> pack f k = pack g k.
Proof. induction k as [|k IH]; intro H; cbn [pack]; auto. rewrite IH, H by (intros; try apply H; lia). reflexivity. Qed.
(* popcount of a masked byte, by computation *)
Fixpoint low_bits (w : Z) (k : nat) : Z := match k with O => 0 | S k => low_bits w k + Z.b2z (Z.testbit w (Z.of_nat k)) end.
Lemma popcount_table w m : 0 <= w < 256 -> 0 <= m < 8 -> popcount8 (u8 (Z.land w (Z.shiftl 1 m - 1))) = low_bits w (Z.to_nat m).
Proof.
  intros Hw Hm. apply Z.eqb_eq.
  apply (allb2 (fun w m => popcount8 (u8 (Z.land w (Z.shiftl 1 m - 1))) =? low_bits w (Z.to_nat m)) 256 8); [vm_compute; reflexivity|auto|auto].
Qed.
Lemma low_bits_count f k b m : (m <= k)%nat -> 0 <= b -> low_bits (pack (fun t => f (b + t)) k) m = count_upto f (b + Z.of_nat m) - count_upto f b.
Proof.
  intros L Hb. induction m as [|m IH]; cbn [low_bits].
  - rewrite Z.add_0_r. lia.
  - rewrite IH, pack_bit by lia. replace (Z.of_nat m <? Z.of_nat k) with true by lia. cbn [andb].
    replace (b + Z.of_nat (S m)) with (b + Z.of_nat m + 1) by lia. rewrite count_S by lia. lia.
Qed.

Lemma land7 i : Z.land i MASK_S = i mod 8.
Proof. change MASK_S with (Z.ones 3). rewrite Z.land_ones by lia. reflexivity. Qed.

Section Build.
  Variable n : Z.
  Variable f : Z -> bool.
  Variable gen : Z -> res bool.
  Hypothesis Hn : 0 <= n.
  Hypothesis Hg : forall i, 0 <= i < n -> gen i = Ok (f i).
  Let ns := n / 8 + 1.
  Let nl := n / 256 + 1.
  (* contents of the blocks when i bits have been written *)
  Definition blk (i j : Z) : Z := pack (fun t => f (8 * j + t)) (Z.to_nat (Z.max 0 (Z.min 8 (i - 8 * j)))).
  Lemma put_ok bt i : 0 <= i < n -> rep bt ns (blk i) -> exists bt', put_bit bt (i / 8) i (f i) = Ok bt' /\ rep bt' ns (blk (i + 1)).
  Proof.
    intros Hi R. assert (Hj : 0 <= i / 8 < ns) by (unfold ns; lia). unfold put_bit.
    rewrite (rep_get _ _ _ _ R Hj). cbn [bind]. rewrite (rep_set _ _ _ _ _ R Hj). eexists; split; [reflexivity|].
    eapply rep_ext; [eapply rep_upd; eauto|]. intros j Hj'. unfold fupd. destruct (j =? i / 8) eqn:E.
    - apply Z.eqb_eq in E. subst j. rewrite land7. unfold blk.
      replace (Z.to_nat (Z.max 0 (Z.min 8 (i - 8 * (i / 8))))) with (Z.to_nat (i mod 8)) by lia.
      replace (Z.to_nat (Z.max 0 (Z.min 8 (i + 1 - 8 * (i / 8))))) with (S (Z.to_nat (i mod 8))) by lia. cbn [pack].
      rewrite !Z2Nat.id by lia. replace (8 * (i / 8) + i mod 8) with i by lia. unfold u8. apply Z.mod_small.
      pose proof (pack_range (fun t => f (8 * (i / 8) + t)) (S (Z.to_nat (i mod 8)))) as PR. cbn [pack] in PR.
      rewrite !Z2Nat.id in PR by lia. replace (8 * (i / 8) + i mod 8) with i in PR by lia.
      assert (2 ^ Z.of_nat (S (Z.to_nat (i mod 8))) <= 2 ^ 8) by (apply Z.pow_le_mono_r; lia). change (2 ^ 8) with 256 in *. lia.
    - unfold blk. f_equal. f_equal. lia.
  Qed.
  Lemma puts_ok lo hi bt : 0 <= lo <= hi -> hi <= n -> lo / 8 = Z.max lo (hi - 1) / 8 -> rep bt ns (blk lo) ->
    forall c, exists bt', for_ lo hi (fun i '(count, bt) => let* b := gen i in let* bt := put_bit bt (lo / 8) i b in Ok (count + Z.b2z b, bt)) (c, bt)
      = Ok (c + (count_upto f hi - count_upto f lo), bt') /\ rep bt' ns (blk hi).
  Proof.
    intros H1 H2 H3 R c.
    destruct (for_inv (fun i '(count, bt) => count = c + (count_upto f i - count_upto f lo) /\ rep bt ns (blk i)) lo hi
      (fun i '(count, bt) => let* b := gen i in let* bt := put_bit bt (lo / 8) i b in Ok (count + Z.b2z b, bt)) (c, bt)) as ((c', bt') & E & Ec & R').
    - lia.
    - split; [lia|auto].
    - intros i (c', bt') Hi (-> & R'). rewrite Hg by lia. cbn [bind].
      destruct (put_ok bt' i ltac:(lia) R') as (bt2 & E2 & R2). replace (lo / 8) with (i / 8) by lia. rewrite E2. cbn [bind].
      eexists; split; [reflexivity|]. split; auto. rewrite count_S by lia. lia.
    - exists bt'. rewrite E, Ec. auto.
  Qed.
  Definition cs_at (s j : Z) : Z := if j <? s then count_upto f (8 * j) - count_upto f (256 * (j / 32)) else 0.
  Definition cl_at (s l : Z) : Z := if 32 * l <? s then count_upto f (256 * l) else 0.
  Definition good (v : bitvec) : Prop :=
    bv_n v = n /\ rep (cum_l v) nl (cl_at ns) /\ rep (cum_s v) ns (cs_at ns) /\ rep (bits v) ns (blk n).
  Lemma make_ok : exists v, bv_make n gen = Ok v /\ good v.
  Proof.
    unfold bv_make, bv_build, bv_new. cbn [bv_n bv_nl bv_ns cum_l cum_s bits].
    unfold LOG_BLOCK_L, LOG_BLOCK_S. rewrite !Z.shiftr_div_pow2 by lia. change (2 ^ 8) with 256. change (2 ^ 3) with 8. fold ns nl.
    match goal with |- context [for_ 1 ns ?bo ?st] =>
      destruct (for_inv (fun s '(i, cl, cs, bt) => i = 8 * (s - 1) /\ rep cl nl (cl_at s) /\ rep cs ns (cs_at s) /\ rep bt ns (blk i)) 1 ns bo st)
        as ((((i, cl), cs), bt) & E & Ei & Rl & Rs & Rb) end.
    - unfold ns. lia.
    - split; [lia|]. split; [|split].
      + eapply rep_ext; [apply rep_vrep; unfold nl; lia|]. intros j Hj. unfold cl_at. destruct (32 * j <? 1) eqn:F; auto. replace j with 0 by lia. reflexivity.
      + eapply rep_ext; [apply rep_vrep; unfold ns; lia|]. intros j Hj. unfold cs_at. destruct (j <? 1) eqn:F; auto. replace j with 0 by lia. reflexivity.
      + eapply rep_ext; [apply rep_vrep; unfold ns; lia|]. intros j Hj. unfold blk. replace (Z.to_nat (Z.max 0 (Z.min 8 (0 - 8 * j)))) with 0%nat by lia. reflexivity.
    - intros s (((i, cl), cs), bt) Hs (Ei & Rl & Rs & Rb). cbv beta iota. subst i.
      assert (Hn8 : 8 * s <= n) by (unfold ns in Hs; lia).
      rewrite (rep_get _ _ _ _ Rs) by lia. cbn [bind]. rewrite Z.shiftl_mul_pow2 by lia. change (2 ^ 3) with 8.
      destruct (puts_ok (8 * (s - 1)) (s * 8) bt ltac:(lia) ltac:(lia) ltac:(lia) Rb (cs_at s (s - 1))) as (bt' & Ep & Rb').
      replace (8 * (s - 1) / 8) with (s - 1) in Ep by lia. rewrite Ep. cbn [bind].
      replace (Z.max (8 * (s - 1)) (s * 8)) with (8 * s) by lia. replace (s * 8) with (8 * s) in * by lia.
      change (Z.shiftl 1 (8 - 3) - 1) with (Z.ones 5). rewrite Z.land_ones by lia. change (2 ^ 5) with 32.
      assert (EC : cs_at s (s - 1) + (count_upto f (8 * s) - count_upto f (8 * (s - 1))) = count_upto f (8 * s) - count_upto f (256 * ((s - 1) / 32))).
      { unfold cs_at. replace (s - 1 <? s) with true by lia. lia. }
      rewrite EC. destruct (s mod 32 =? 0) eqn:E0; cbn [negb].
      + apply Z.eqb_eq in E0. assert (S32 : s = 32 * (s / 32)) by (clear - E0; lia).
        assert (SB : 0 < s / 32 /\ s / 32 <= n / 256) by (clear - S32 Hs Hn8; lia).
        cbv zeta. assert (Z.shiftr (8 * s) 8 = s / 32) as -> by (rewrite Z.shiftr_div_pow2 by lia; change (2 ^ 8) with 256; clear; lia). rewrite (rep_get _ _ _ _ Rl) by (unfold nl; lia). cbn [bind].
        rewrite (rep_set _ _ _ _ _ Rl) by (unfold nl; lia). cbn [bind]. eexists; split; [reflexivity|].
        split; [lia|]. split; [|split; [|auto]].
        * eapply rep_ext; [eapply rep_upd; eauto; unfold nl; lia|]. intros j Hj. unfold fupd. destruct (j =? s / 32) eqn:F.
          -- unfold cl_at. replace (32 * (s / 32 - 1) <? s) with true by lia. replace (32 * j <? s + 1) with true by lia.
             replace ((s - 1) / 32) with (s / 32 - 1) by lia. replace (256 * j) with (8 * s) by lia. lia.
          -- unfold cl_at. destruct (32 * j <? s) eqn:F1; destruct (32 * j <? s + 1) eqn:F2; auto; lia.
        * eapply rep_ext; [exact Rs|]. intros j Hj. unfold cs_at. destruct (j <? s) eqn:F1; destruct (j <? s + 1) eqn:F2; auto; try lia.
          replace j with s by lia. replace (256 * (s / 32)) with (8 * s) by lia. lia.
      + rewrite (rep_set _ _ _ _ _ Rs) by lia. cbn [bind]. eexists; split; [reflexivity|].
        split; [lia|]. split; [|split; [|auto]].
        * eapply rep_ext; [exact Rl|]. intros j Hj. unfold cl_at. destruct (32 * j <? s) eqn:F1; destruct (32 * j <? s + 1) eqn:F2; auto; lia.
        * eapply rep_ext; [eapply rep_upd; eauto; lia|]. intros j Hj. unfold fupd. destruct (j =? s) eqn:F.
          -- unfold cs_at. replace (j <? s + 1) with true by lia. replace j with s by lia. replace ((s - 1) / 32) with (s / 32) by lia.
             unfold u8. apply Z.mod_small. pose proof (count_mono f (256 * (s / 32)) (8 * s - 256 * (s / 32)) ltac:(lia) ltac:(lia)) as CM.
             replace (256 * (s / 32) + (8 * s - 256 * (s / 32))) with (8 * s) in CM by lia. lia.
          -- unfold cs_at. destruct (j <? s) eqn:F1; destruct (j <? s + 1) eqn:F2; auto; lia.
    - cbn zeta in E |- *. rewrite E. cbn [bind].
      match goal with |- context [for_ i n ?bo bt] =>
        destruct (for_inv (fun i bt => rep bt ns (blk i)) i n bo bt) as (bt' & E2 & Rb') end.
      + unfold ns in Ei. lia.
      + exact Rb.
      + intros k b Hk Rk. rewrite Hg by (unfold ns in Ei; lia). cbn [bind]. replace (ns - 1) with (k / 8) by (unfold ns in *; lia).
        apply put_ok; auto. unfold ns in Ei; lia.
      + rewrite E2. cbn [bind]. eexists; split; [reflexivity|]. unfold good. cbn [bv_n bv_nl bv_ns cum_l cum_s bits]. auto.
  Qed.
  Lemma access_ok v i : good v -> 0 <= i < n -> bv_access v i = Ok (f i).
  Proof.
    intros (_ & _ & _ & R) Hi. unfold bv_access. unfold LOG_BLOCK_S. rewrite Z.shiftr_div_pow2 by lia. change (2 ^ 3) with 8.
    rewrite (rep_get _ _ _ _ R) by (unfold ns; lia). cbn [bind]. rewrite land7. f_equal.
    assert (T : Z.testbit (blk n (i / 8)) (i mod 8) = f i).
    { unfold blk. rewrite pack_bit by lia. replace (8 * (i / 8) + i mod 8) with i by lia.
      replace (i mod 8 <? Z.of_nat (Z.to_nat (Z.max 0 (Z.min 8 (n - 8 * (i / 8)))))) with true by lia. reflexivity. }
    rewrite Z.testbit_spec' in T || idtac.
    assert (Z.land (Z.shiftr (blk n (i / 8)) (i mod 8)) 1 = Z.b2z (f i)) as ->.
    { change 1 with (Z.ones 1). rewrite Z.land_ones by lia. change (2 ^ 1) with 2. rewrite Z.shiftr_div_pow2 by lia.
      rewrite <- T. symmetry. rewrite Z.testbit_spec' by lia. reflexivity. }
    now destruct (f i).
  Qed.
  Lemma rank_ok v b i : good v -> 0 <= i <= n -> bv_rank v b i = Ok (count_upto (fun j => Bool.eqb (f j) b) i).
  Proof.
    intros (_ & Rl & Rs & R) Hi. unfold bv_rank. unfold LOG_BLOCK_S, LOG_BLOCK_L. rewrite !Z.shiftr_div_pow2 by lia. change (2 ^ 3) with 8. change (2 ^ 8) with 256.
    rewrite (rep_get _ _ _ _ Rl) by (unfold nl; lia). rewrite (rep_get _ _ _ _ Rs) by (unfold ns; lia).
    rewrite (rep_get _ _ _ _ R) by (unfold ns; lia). cbn [bind]. rewrite land7. 
    rewrite popcount_table.
    - unfold blk. rewrite low_bits_count by lia. rewrite Z2Nat.id by lia. replace (8 * (i / 8) + i mod 8) with i by lia.
      unfold cl_at, cs_at. replace (32 * (i / 256) <? ns) with true by (unfold ns; lia). replace (i / 8 <? ns) with true by (unfold ns; lia).
      replace (i / 8 / 32) with (i / 256) by lia. rewrite count_eqb by lia. f_equal. destruct b; lia.
    - unfold blk. pose proof (pack_range (fun t => f (8 * (i / 8) + t)) (Z.to_nat (Z.max 0 (Z.min 8 (n - 8 * (i / 8)))))) as PR.
      assert (2 ^ Z.of_nat (Z.to_nat (Z.max 0 (Z.min 8 (n - 8 * (i / 8))))) <= 2 ^ 8) by (apply Z.pow_le_mono_r; lia). change (2 ^ 8) with 256 in *. lia.
    - lia.
  Qed.
  Lemma rank_range_ok v b l r : good v -> 0 <= l <= n -> 0 <= r <= n ->
    bv_rank_range v b l r = Ok (count_upto (fun j => Bool.eqb (f j) b) r - count_upto (fun j => Bool.eqb (f j) b) l).
  Proof. intros G Hl Hr. unfold bv_rank_range. rewrite !rank_ok by auto. reflexivity. Qed.
  (* the least r with at least num hits among the first r bits *)
  Lemma select_ok v b num d : good v ->
    exists r, bv_select v b num d = Ok r /\
      ((count_upto (fun j => Bool.eqb (f j) b) n < num /\ r = d) \/
       (0 <= r <= n /\ num <= count_upto (fun j => Bool.eqb (f j) b) r /\ forall i, 0 <= i < r -> count_upto (fun j => Bool.eqb (f j) b) i < num)).
  Proof.
    intro G. unfold bv_select. assert (bv_n v = n) as -> by apply G. set (c := count_upto (fun j => Bool.eqb (f j) b)).
    assert (MO : forall i j, 0 <= i <= j -> c i <= c j).
    { intros i j H. unfold c. pose proof (count_mono (fun j => Bool.eqb (f j) b) i (j - i) ltac:(lia) ltac:(lia)) as M. replace (i + (j - i)) with j in M by lia. lia. }
    match goal with |- context [loop ?fu ?bo ?st] =>
      destruct (loop_inv (fun '(l, r) => -1 <= l < r /\ r <= n + 1 /\ (0 <= l -> c l < num) /\ (r <= n -> num <= c r))
        (fun s => Z.to_nat (snd s - fst s)) (fun r => 0 <= r <= n + 1 /\ (r <= n -> num <= c r) /\ (1 <= r -> c (r - 1) < num)) bo fu st) as (r & E & Q) end.
    - split; [lia|]. split; [lia|]. split; lia.
    - cbn [fst snd]. lia.
    - intros (l, r) (B1 & B2 & B3 & B4). cbv beta iota. destruct (1 <? r - l) eqn:E0.
      + cbv zeta. rewrite Z.shiftr_div_pow2 by lia. change (2 ^ 1) with 2. set (m := (l + r) / 2). assert (Hm : l < m < r) by (unfold m; lia). clearbody m.
        rewrite rank_ok by (auto; lia). cbn [bind]. fold c. eexists; split; [reflexivity|]. cbv beta iota.
        destruct (num <=? c m) eqn:E1; cbn [fst snd]; (split; [|lia]); repeat split; try lia.
      + eexists; split; [reflexivity|]. cbv beta iota. split; [lia|]. split; auto. intro. replace (r - 1) with l by lia. apply B3. lia.
    - cbn zeta in E |- *. rewrite E. cbn [bind]. eexists; split; [reflexivity|]. destruct Q as (Q1 & Q2 & Q3).
      destruct (r =? n + 1) eqn:E1.
      + left. split; auto. specialize (Q3 ltac:(lia)). replace (r - 1) with n in Q3 by lia. auto.
      + right. split; [lia|]. split; [apply Q2; lia|]. intros i Hi. specialize (Q3 ltac:(lia)). specialize (MO i (r - 1) ltac:(lia)). lia.
  Qed.
End Build.

Lemma select_spec n f gen v b num d : 0 <= n -> (forall i, 0 <= i < n -> gen i = Ok (f i)) -> bv_make n gen = Ok v ->
  (count_upto (fun j => Bool.eqb (f j) b) n < num -> bv_select v b num d = Ok d) /\
  (forall p, 0 <= p < n -> f p = b -> count_upto (fun j => Bool.eqb (f j) b) p = num - 1 -> bv_select v b num d = Ok (p + 1)) /\
  (num <= 0 -> bv_select v b num d = Ok 0).
Proof.
  intros Hn Hg Hv. destruct (make_ok n f gen Hn Hg) as (v' & E & G). assert (v' = v) by congruence. subst v'.
  destruct (select_ok n f gen Hn Hg v b num d G) as (r & -> & H). set (c := count_upto (fun j => Bool.eqb (f j) b)) in *.
  assert (MO : forall i j, 0 <= i <= j -> c i <= c j).
  { intros i j H'. unfold c. pose proof (count_mono (fun j => Bool.eqb (f j) b) i (j - i) ltac:(lia) ltac:(lia)) as M. replace (i + (j - i)) with j in M by lia. lia. }
  assert (C0 : c 0 = 0) by reflexivity.
  split; [|split].
  - intro L. destruct H as [(_ & ->)|(B & H & _)]; auto. specialize (MO r n ltac:(lia)). lia.
  - intros p Hp Fp Cp. assert (Cp1 : c (p + 1) = num) by (unfold c in *; rewrite count_S, Fp, Bool.eqb_reflx by lia; cbn [Z.b2z]; lia).
    destruct H as [(L & _)|(B & H & H')].
    + specialize (MO (p + 1) n ltac:(lia)). lia.
    + f_equal. assert (~ r < p + 1) by (intro; specialize (MO r p ltac:(lia)); lia). assert (~ p + 1 < r) by (intro; specialize (H' (p + 1) ltac:(lia)); lia). lia.
  - intro L. destruct H as [(L' & _)|(B & H & H')].
    + specialize (MO 0 n ltac:(lia)). lia.
    + f_equal. destruct (Z.eq_dec r 0); auto. specialize (H' 0 ltac:(lia)). lia.
Qed.

Lemma count_range f l k : 0 <= l -> 0 <= k -> zlen (filter (fun j => (l <=? j) && f j) (zrange (l + k))) = count_upto f (l + k) - count_upto f l.
Proof.
  intros Hl Hk. pattern k. apply natlike_ind; auto; clear k Hk.
  - rewrite Z.add_0_r, Z.sub_diag. rewrite (filter_ext_in _ (fun _ => false)).
    + generalize (zrange l). intro t. induction t; auto.
    + intros j Hj. apply In_zrange in Hj. destruct (Z.leb_spec l j); auto. lia.
  - intros k Hk IH. unfold Z.succ. rewrite Z.add_assoc, count_S by lia. rewrite zrange_S by lia. rewrite filter_app, zlen_app, IH. cbn [filter].
    destruct (Z.leb_spec l (l + k)); [|lia]. cbn [andb]. destruct (f (l + k)); [change (zlen [l + k]) with 1|change (zlen (@nil Z)) with 0]; cbn [Z.b2z]; lia.
Qed.
Lemma bit_vector_all n f : 0 <= n ->
    exists v, bv_make n (fun i => Ok (f i)) = Ok v /\
      (forall i, 0 <= i < n -> bv_access v i = Ok (f i)) /\
      (forall b i, 0 <= i <= n -> bv_rank v b i = Ok (count_upto (fun j => Bool.eqb (f j) b) i)) /\
      (forall b l r, 0 <= l <= r -> r <= n ->
         bv_rank_range v b l r = Ok (zlen (filter (fun j => (l <=? j) && Bool.eqb (f j) b) (zrange r)))) /\
      (forall b num d, count_upto (fun j => Bool.eqb (f j) b) n < num -> bv_select v b num d = Ok d) /\
      (forall b num d p, 0 <= p < n -> f p = b -> count_upto (fun j => Bool.eqb (f j) b) p = num - 1 ->
         bv_select v b num d = Ok (p + 1)).
Proof.
  intro Hn. set (gen := fun i => Ok (f i)). assert (Hg : forall i, 0 <= i < n -> gen i = Ok (f i)) by reflexivity.
  destruct (make_ok n f gen Hn Hg) as (v & Ev & G). exists v. split; [exact Ev|].
  split. { intros. eapply access_ok; eauto. } split. { intros. eapply rank_ok; eauto. }
  split. { intros b l r H1 H2. rewrite (rank_range_ok n f gen Hg v b l r G) by lia. f_equal.
    pose proof (count_range (fun j => Bool.eqb (f j) b) l (r - l) ltac:(lia) ltac:(lia)) as C. replace (l + (r - l)) with r in C by lia. symmetry. exact C. }
  split.
  - intros b num d H. apply (select_spec n f gen v b num d Hn Hg Ev). exact H.
  - intros b num d p Hp Fp C. destruct (select_spec n f gen v b num d Hn Hg Ev) as (_ & S & _). apply S; auto.
Qed.
Lemma bit_vector_select_wrong n f b num d p :
    0 <= p < n -> f p = b -> count_upto (fun j => Bool.eqb (f j) b) p = num - 1 ->
    exists v, bv_make n (fun i => Ok (f i)) = Ok v /\ bv_select v b num d <> Ok p.
Proof.
  intros Hp Fp C. destruct (bit_vector_all n f ltac:(lia)) as (v & Ev & _ & _ & _ & _ & S). exists v. split; auto.
  rewrite (S b num d p Hp Fp C). intro E. injection E. lia.
Qed.
