From Verif Require Import Base BaseLemmas Bits Seq Hist SegTree_model SegTree_spec SegTree_run SegTree_proof.

(* q is in the subtree of k / strictly below k *)
Definition sub_ (k q : Z) : bool := (Z.log2 k <=? Z.log2 q) && (q / 2 ^ (Z.log2 q - Z.log2 k) =? k).
Definition sdesc (k q : Z) : bool := (Z.log2 k <? Z.log2 q) && (q / 2 ^ (Z.log2 q - Z.log2 k) =? k).
Lemma log2_child q b : 1 <= q -> 0 <= b <= 1 -> Z.log2 (2 * q + b) = Z.log2 q + 1.
Proof.
  intros Hq Hb. assert (b = 0 \/ b = 1) as [->| ->] by lia.
  - rewrite Z.add_0_r. rewrite Z.log2_double by lia. lia.
  - rewrite Z.log2_succ_double by lia. lia.
Qed.
Lemma sdesc_child k q b : 1 <= k -> 1 <= q -> 0 <= b <= 1 -> sdesc k (2 * q + b) = sub_ k q.
Proof.
  intros Hk Hq Hb. unfold sdesc, sub_. rewrite log2_child by auto.
  destruct (Z.log2 k <=? Z.log2 q) eqn:B.
  - replace (Z.log2 k <? Z.log2 q + 1) with true by lia. cbn [andb].
    replace (Z.log2 q + 1 - Z.log2 k) with (1 + (Z.log2 q - Z.log2 k)) by lia. rewrite Z.pow_add_r by lia.
    change (2 ^ 1) with 2. rewrite <- Z.div_div by (try lia; apply Z.pow_pos_nonneg; lia).
    replace ((2 * q + b) / 2) with q; auto. apply Z.div_unique with b; lia.
  - now replace (Z.log2 k <? Z.log2 q + 1) with false by lia.
Qed.
Lemma sub_self k : sub_ k k = true.
Proof. unfold sub_. rewrite Z.sub_diag, Z.pow_0_r, Z.div_1_r. lia. Qed.
Lemma sdesc_self k : sdesc k k = false.
Proof. unfold sdesc. lia. Qed.
Lemma sub_other k q : q <> k -> sub_ k q = sdesc k q.
Proof.
  intro H. unfold sub_, sdesc. destruct (Z.eq_dec (Z.log2 k) (Z.log2 q)) as [E|E].
  - rewrite E, Z.sub_diag, Z.pow_0_r, Z.div_1_r. lia.
  - f_equal. lia.
Qed.
Lemma level_log2 h j k : 0 <= j <= h -> 2 ^ (h - j) <= k < 2 * 2 ^ (h - j) -> Z.log2 k = h - j.
Proof. intros Hj Hk. apply Z.log2_unique; [lia|]. rewrite Z.pow_succ_r by lia. lia. Qed.
Lemma sub_leaf h j k i : 0 <= j <= h -> 2 ^ (h - j) <= k < 2 * 2 ^ (h - j) -> 0 <= i < 2 ^ h ->
  sub_ k (2 ^ h + i) = (k * 2 ^ j <=? 2 ^ h + i) && (2 ^ h + i <? (k + 1) * 2 ^ j).
Proof.
  intros Hj Hk Hi. unfold sub_. rewrite (level_log2 h j k) by auto.
  replace (Z.log2 (2 ^ h + i)) with h by (symmetry; apply Z.log2_unique; [lia|rewrite Z.pow_succ_r by lia; lia]).
  replace (h - (h - j)) with j by lia. replace (h - j <=? h) with true by lia. cbn [andb].
  pose proof (Z.pow_pos_nonneg 2 j ltac:(lia) ltac:(lia)).
  pose proof (Z.div_mod (2 ^ h + i) (2 ^ j) ltac:(lia)). pose proof (Z.mod_pos_bound (2 ^ h + i) (2 ^ j) ltac:(lia)).
  set (d := (2 ^ h + i) / 2 ^ j) in *. destruct (d =? k) eqn:B.
  - nia.
  - destruct (Z.lt_ge_cases d k); nia.
Qed.

Lemma cdiv_unique L j q : 0 <= j -> L <= q * 2 ^ j < L + 2 ^ j -> q = cdiv L j.
Proof.
  intros Hj H. pose proof (cdiv_bound L j Hj). pose proof (Z.pow_pos_nonneg 2 j ltac:(lia) Hj). nia.
Qed.
Lemma div_bound x j : 0 <= j -> x / 2 ^ j * 2 ^ j <= x < (x / 2 ^ j + 1) * 2 ^ j.
Proof.
  intro H. pose proof (Z.pow_pos_nonneg 2 j ltac:(lia) H). pose proof (Z.div_mod x (2 ^ j) ltac:(lia)).
  pose proof (Z.mod_pos_bound x (2 ^ j) ltac:(lia)). lia.
Qed.
Lemma div_unique2 x j q : 0 <= j -> q * 2 ^ j <= x < (q + 1) * 2 ^ j -> x / 2 ^ j = q.
Proof. intros Hj H. pose proof (div_bound x j Hj). pose proof (Z.pow_pos_nonneg 2 j ltac:(lia) Hj). nia. Qed.

Lemma if_eq {X} (b b' : bool) (x y : X) : b = b' -> (if b then x else y) = (if b' then x else y).
Proof. now intros ->. Qed.

Section LP.
  Context {T F : Type}.
  Variables (op : T -> T -> T) (e : T) (mapping : F -> T -> T) (comp : F -> F -> F) (idf : F).
  Hypothesis M : is_monoid op e.
  Hypothesis Act : is_action op mapping comp idf.
  Notation lseg := (lseg T F).

  Record LI (D S : Z -> Prop) (n h : Z) (s : lseg) (g : Z -> T) (z : Z -> F) (A : Z -> T -> T) (a : Z -> T) : Prop := {
    li_n : ls_n s = n;
    li_m : ls_m s = 2 ^ h;
    li_lg : ls_lg s = h;
    li_data : rep (ls_data s) (2 * 2 ^ h) g;
    li_lazy : rep (ls_lazy s) (2 ^ h) z;
    li_A1 : forall x, A 1 x = x;
    li_A : forall k b x, 1 <= k < 2 ^ h -> 0 <= b <= 1 -> A (2 * k + b) x = A k (mapping (z k) x);
    li_leaf : forall i, 0 <= i < 2 ^ h -> A (2 ^ h + i) (g (2 ^ h + i)) = a i;
    li_tree : forall k, 1 <= k < 2 ^ h -> ~ D k -> g k = mapping (z k) (op (g (2 * k)) (g (2 * k + 1)));
    li_S : forall k, S k -> 1 <= k < 2 ^ h /\ (k = 1 \/ S (k / 2)) /\ forall x, mapping (z k) x = x
  }.
  Definition none (k : Z) : Prop := False.
  Definition LJ D S n h s a : Prop := exists g z A, LI D S n h s g z A a.

  Lemma LJ_weaken (D D' S S' : Z -> Prop) n h s a a' : LJ D S n h s a -> (forall k, 1 <= k < 2 ^ h -> D k -> D' k) -> (forall k, S k <-> S' k) ->
    (forall i, 0 <= i < 2 ^ h -> a i = a' i) -> LJ D' S' n h s a'.
  Proof.
    intros (g & z & A & [I1 I2 I3 I4 I5 I6 I7 I8 I9 I10]) HD HS Ha. exists g, z, A. constructor; auto.
    - intros. rewrite I8; auto.
    - intros k Sk. apply HS in Sk. destruct (I10 k Sk) as (B & P & Q). split; auto. split; auto.
      destruct P as [P|P]; auto. right. now apply HS.
  Qed.
  Lemma LJ_forget D S n h s a : LJ D S n h s a -> LJ D none n h s a.
  Proof.
    intros (g & z & A & [I1 I2 I3 I4 I5 I6 I7 I8 I9 I10]). exists g, z, A. constructor; auto. intros k [].
  Qed.

  Section Facts.
    Variables (D S : Z -> Prop) (n h : Z) (s : lseg) (g : Z -> T) (z : Z -> F) (A : Z -> T -> T) (a : Z -> T).
    Hypothesis Hh : 0 <= h.
    Hypothesis I : LI D S n h s g z A a.

    Lemma A_dist k : 1 <= k < 2 * 2 ^ h -> forall x y, A k (op x y) = op (A k x) (A k y).
    Proof.
      intros Hk. assert (G : forall N k, (Z.to_nat k <= N)%nat -> 1 <= k < 2 * 2 ^ h -> forall x y, A k (op x y) = op (A k x) (A k y)).
      { clear k Hk. induction N as [|N IH]; intros k HN Hk x y; [lia|].
        destruct (Z.eq_dec k 1) as [->|N1]; [now rewrite !(li_A1 _ _ _ _ _ _ _ _ _ I)|].
        replace k with (2 * (k / 2) + k mod 2) by (pose proof (Z.div_mod k 2); lia).
        pose proof (Z.mod_pos_bound k 2 ltac:(lia)).
        rewrite !(li_A _ _ _ _ _ _ _ _ _ I) by lia. rewrite (act_op _ _ _ _ Act). apply IH; lia. }
      apply (G (Z.to_nat k)); auto.
    Qed.
    Lemma A_id k : 1 <= k < 2 * 2 ^ h -> k = 1 \/ S (k / 2) -> forall x, A k x = x.
    Proof.
      intros Hk HS. assert (G : forall N k, (Z.to_nat k <= N)%nat -> 1 <= k < 2 * 2 ^ h -> k = 1 \/ S (k / 2) -> forall x, A k x = x).
      { clear k Hk HS. induction N as [|N IH]; intros k HN Hk HS x; [lia|].
        destruct (Z.eq_dec k 1) as [->|N1]; [apply I|].
        destruct HS as [?|HS]; [lia|]. destruct (li_S _ _ _ _ _ _ _ _ _ I _ HS) as (B & P & Q).
        replace k with (2 * (k / 2) + k mod 2) by (pose proof (Z.div_mod k 2); lia).
        pose proof (Z.mod_pos_bound k 2 ltac:(lia)).
        rewrite (li_A _ _ _ _ _ _ _ _ _ I) by lia. rewrite Q. apply IH; auto; lia. }
      apply (G (Z.to_nat k)); auto.
    Qed.
    (* true values *)
    Lemma tv_tree : (forall k, ~ D k) -> forall k, 1 <= k < 2 ^ h -> A k (g k) = op (A (2 * k) (g (2 * k))) (A (2 * k + 1) (g (2 * k + 1))).
    Proof.
      intros HD k Hk. rewrite <- (Z.add_0_r (2 * k)) at 1. rewrite !(li_A _ _ _ _ _ _ _ _ _ I) by lia.
      rewrite <- A_dist by lia. rewrite <- (act_op _ _ _ _ Act). rewrite <- (li_tree _ _ _ _ _ _ _ _ _ I) by auto. auto.
    Qed.
  End Facts.

  Lemma push_ok S n h s a k : 0 <= h -> LJ none S n h s a -> 1 <= k < 2 ^ h -> k = 1 \/ S (k / 2) ->
    exists s', lpush mapping comp idf s k = Ok s' /\ LJ none (fun q => S q \/ q = k) n h s' a.
  Proof.
    intros Hh (g & z & A & I) Hk HS. pose proof I as [I1 I2 I3 I4 I5 I6 I7 I8 I9 I10].
    unfold lpush, all_apply. rewrite (rep_get _ _ _ _ I5) by lia. cbn [bind].
    rewrite (rep_get _ _ _ _ I4) by lia. cbn [bind]. rewrite (rep_set _ _ _ _ _ I4) by lia. cbn [bind]. rewrite I2.
    set (f := z k).
    pose proof (rep_upd _ _ _ (2 * k) (mapping f (g (2 * k))) I4 ltac:(lia)) as J4.
    assert (HZ : forall lz zz, rep lz (2 ^ h) zz -> forall c, 2 <= c ->
      exists lz', (if c <? 2 ^ h then let* g0 := vget lz c in let* lazy := vset lz c (comp f g0) in Ok lazy else Ok lz) = Ok lz' /\
        rep lz' (2 ^ h) (fupd zz c (comp f (zz c)))).
    { intros lz zz Rz c Hc. destruct (c <? 2 ^ h) eqn:B.
      - rewrite (rep_get _ _ _ _ Rz) by lia. cbn [bind]. rewrite (rep_set _ _ _ _ _ Rz) by lia. eexists; split; [reflexivity|].
        apply rep_upd; auto; lia.
      - eexists; split; [reflexivity|]. eapply rep_ext; eauto. intros i Hi. rewrite fupd_diff; auto. lia. }
    destruct (HZ (ls_lazy s) z I5 (2 * k) ltac:(lia)) as (z1 & E1 & R1).
    assert (X1 : (if 2 * k <? 2 ^ h
      then let* g0 := vget (ls_lazy s) (2 * k) in let* lazy := vset (ls_lazy s) (2 * k) (comp f g0) in
           Ok (ls_put s (zupd (ls_data s) (2 * k) (mapping f (g (2 * k)))) lazy)
      else Ok (ls_put s (zupd (ls_data s) (2 * k) (mapping f (g (2 * k)))) (ls_lazy s))) =
      Ok (ls_put s (zupd (ls_data s) (2 * k) (mapping f (g (2 * k)))) z1)).
    { destruct (2 * k <? 2 ^ h); [|congruence]. destruct (vget (ls_lazy s) (2 * k)); cbn [bind] in *; try discriminate.
      destruct (vset (ls_lazy s) (2 * k) (comp f a0)); cbn [bind] in *; congruence. }
    rewrite X1. cbn [bind ls_put ls_lazy ls_data ls_m ls_n ls_lg]. rewrite (rep_get _ _ _ _ R1) by lia. cbn [bind].
    rewrite fupd_diff by lia. fold f. rewrite (rep_get _ _ _ _ J4) by lia. cbn [bind]. rewrite (rep_set _ _ _ _ _ J4) by lia. cbn [bind].
    rewrite fupd_diff by lia. rewrite I2.
    pose proof (rep_upd _ _ _ (2 * k + 1) (mapping f (g (2 * k + 1))) J4 ltac:(lia)) as J5.
    destruct (HZ z1 _ R1 (2 * k + 1) ltac:(lia)) as (z2 & E2 & R2).
    set (d2 := zupd (zupd (ls_data s) (2 * k) (mapping f (g (2 * k)))) (2 * k + 1) (mapping f (g (2 * k + 1)))) in *.
    match goal with |- context [if 2 * k + 1 <? 2 ^ h then ?u else ?w] =>
      assert (X2 : (if 2 * k + 1 <? 2 ^ h then u else w) = Ok (ls_put s d2 z2)) end.
    { unfold ls_put. cbn [ls_lazy ls_data ls_m ls_n ls_lg]. destruct (2 * k + 1 <? 2 ^ h); [|now injection E2 as <-].
      destruct (vget z1 (2 * k + 1)); cbn [bind] in *; try discriminate.
      destruct (vset z1 (2 * k + 1) (comp f a0)); cbn [bind] in *; congruence. }
    rewrite X2. cbn [bind ls_put ls_lazy ls_data ls_m ls_n ls_lg].
    rewrite (rep_set _ _ _ _ _ R2) by lia. cbn [bind]. eexists; split; [reflexivity|].
    pose proof (rep_upd _ _ _ k idf R2 ltac:(lia)) as R3.
    set (g' := fupd (fupd g (2 * k) (mapping f (g (2 * k)))) (2 * k + 1) (mapping f (g (2 * k + 1)))) in *.
    set (z' := fupd (fupd (fupd z (2 * k) (comp f (z (2 * k)))) (2 * k + 1) (comp f (fupd z (2 * k) (comp f (z (2 * k))) (2 * k + 1)))) k idf) in *.
    assert (Z0 : z' k = idf) by (unfold z'; now rewrite fupd_same).
    assert (Z1 : forall b, 0 <= b <= 1 -> z' (2 * k + b) = comp f (z (2 * k + b))).
    { intros b Hb. unfold z'. rewrite fupd_diff by lia. assert (b = 0 \/ b = 1) as [->| ->] by lia.
      - rewrite Z.add_0_r. rewrite fupd_diff by lia. now rewrite fupd_same.
      - rewrite fupd_same. now rewrite fupd_diff by lia. }
    assert (Z2 : forall q, q <> k -> q <> 2 * k -> q <> 2 * k + 1 -> z' q = z q).
    { intros q Q1 Q2 Q3. unfold z'. now rewrite !fupd_diff by auto. }
    assert (G1 : forall b, 0 <= b <= 1 -> g' (2 * k + b) = mapping f (g (2 * k + b))).
    { intros b Hb. unfold g'. assert (b = 0 \/ b = 1) as [->| ->] by lia.
      - rewrite Z.add_0_r. rewrite fupd_diff by lia. now rewrite fupd_same.
      - now rewrite fupd_same. }
    assert (G2 : forall q, q <> 2 * k -> q <> 2 * k + 1 -> g' q = g q).
    { intros q Q1 Q2. unfold g'. now rewrite !fupd_diff by auto. }
    set (A' := fupd (fupd A (2 * k) (A k)) (2 * k + 1) (A k)).
    assert (A1 : forall b, 0 <= b <= 1 -> A' (2 * k + b) = A k).
    { intros b Hb. unfold A'. assert (b = 0 \/ b = 1) as [->| ->] by lia.
      - rewrite Z.add_0_r. rewrite fupd_diff by lia. now rewrite fupd_same.
      - now rewrite fupd_same. }
    assert (A2 : forall q, q <> 2 * k -> q <> 2 * k + 1 -> A' q = A q).
    { intros q Q1 Q2. unfold A'. now rewrite !fupd_diff by auto. }
    exists g', z', A'. constructor; cbn [ls_put ls_lazy ls_data ls_m ls_n ls_lg]; auto.
    - intro x. rewrite A2 by lia. auto.
    - intros q b x Hq Hb. destruct (Z.eq_dec q k) as [->|Nk].
      + rewrite A1 by lia. rewrite Z0, (act_id _ _ _ _ Act). rewrite A2 by lia. auto.
      + rewrite (A2 (2 * q + b)) by lia. rewrite I7 by auto.
        destruct (Z.eq_dec q (2 * k)) as [->|N1]; [|destruct (Z.eq_dec q (2 * k + 1)) as [->|N2]].
        * pose proof (A1 0 ltac:(lia)) as AA. pose proof (Z1 0 ltac:(lia)) as ZZ. rewrite Z.add_0_r in AA, ZZ. rewrite AA, ZZ.
          rewrite (act_comp _ _ _ _ Act). rewrite <- (Z.add_0_r (2 * k)) at 1. rewrite I7 by lia. auto.
        * rewrite A1, Z1 by lia. rewrite (act_comp _ _ _ _ Act). rewrite I7 by lia. auto.
        * rewrite A2, Z2 by lia. auto.
    - intros i Hi. destruct (Z.eq_dec ((2 ^ h + i) / 2) k) as [Ek|Nk].
      + pose proof (Z.div_mod (2 ^ h + i) 2 ltac:(lia)) as Q. pose proof (Z.mod_pos_bound (2 ^ h + i) 2 ltac:(lia)).
        rewrite <- (I8 i Hi). rewrite Q, Ek. rewrite A1, G1, I7 by lia. auto.
      + assert (2 ^ h + i <> 2 * k) by (intro Q; apply Nk; rewrite Q, Z.mul_comm; apply Z.div_mul; lia).
        assert (2 ^ h + i <> 2 * k + 1) by (intro Q; apply Nk; rewrite Q; symmetry; apply Z.div_unique with 1; lia).
        rewrite A2, G2 by auto. auto.
    - intros q Hq _. destruct (Z.eq_dec q k) as [->|Nk].
      + rewrite Z0, (act_id _ _ _ _ Act). pose proof (G1 0 ltac:(lia)) as GG. rewrite Z.add_0_r in GG. rewrite GG, G1, G2 by lia.
        rewrite <- (act_op _ _ _ _ Act). apply I9; auto.
      + rewrite (G2 (2 * q)), (G2 (2 * q + 1)) by lia.
        destruct (Z.eq_dec q (2 * k)) as [->|N1]; [|destruct (Z.eq_dec q (2 * k + 1)) as [->|N2]].
        * pose proof (G1 0 ltac:(lia)) as GG. pose proof (Z1 0 ltac:(lia)) as ZZ. rewrite Z.add_0_r in GG, ZZ. rewrite GG, ZZ.
          rewrite (act_comp _ _ _ _ Act). f_equal. apply I9; auto.
        * rewrite G1, Z1 by lia. rewrite (act_comp _ _ _ _ Act). f_equal. apply I9; auto.
        * rewrite G2, Z2 by lia. apply I9; auto.
    - intros q [Sq| ->].
      + destruct (I10 q Sq) as (B & P & Q). split; auto. split; [tauto|]. intro x.
        destruct (Z.eq_dec q k) as [->|Nk]; [rewrite Z0; apply Act|].
        destruct (Z.eq_dec (q / 2) k) as [Ek|Nk2].
        * assert (S k) as Sk by (destruct P as [->|P]; [exfalso; change (1 / 2) with 0 in Ek; lia|now rewrite <- Ek]).
          destruct (I10 k Sk) as (_ & _ & Qk).
          pose proof (Z.div_mod q 2 ltac:(lia)) as Dq. pose proof (Z.mod_pos_bound q 2 ltac:(lia)). rewrite Ek in Dq.
          rewrite Dq. rewrite Z1 by lia. rewrite <- Dq. rewrite (act_comp _ _ _ _ Act). unfold f. now rewrite Qk.
        * assert (q <> 2 * k) by (intro Qe; apply Nk2; rewrite Qe, Z.mul_comm; apply Z.div_mul; lia).
          assert (q <> 2 * k + 1) by (intro Qe; apply Nk2; rewrite Qe; symmetry; apply Z.div_unique with 1; lia).
          rewrite Z2 by auto. auto.
      + split; auto. split; [tauto|]. intro x. rewrite Z0. apply Act.
  Qed.

  Lemma all_apply_ok (D S : Z -> Prop) n h s a k j f : 0 <= h -> LJ D S n h s a -> 0 <= j <= h -> 2 ^ (h - j) <= k < 2 * 2 ^ (h - j) ->
    k = 1 \/ S (k / 2) -> ~ S k -> (forall q, S q -> D q) ->
    exists s', all_apply mapping comp s k f = Ok s' /\
      LJ D S n h s' (fun i => if (k * 2 ^ j <=? 2 ^ h + i) && (2 ^ h + i <? (k + 1) * 2 ^ j) then mapping f (a i) else a i).
  Proof.
    intros Hh (g & z & A & I) Hj Hk HS NS HD. pose proof I as [I1 I2 I3 I4 I5 I6 I7 I8 I9 I10].
    assert (Pk : 1 <= k < 2 * 2 ^ h).
    { pose proof (Z.pow_pos_nonneg 2 (h - j) ltac:(lia) ltac:(lia)). assert (2 ^ (h - j) <= 2 ^ h) by (apply Z.pow_le_mono_r; lia). lia. }
    pose proof (A_id _ _ _ _ _ _ _ _ _ Hh I k Pk HS) as Ak.
    assert (X : exists lz, all_apply mapping comp s k f = Ok (ls_put s (zupd (ls_data s) k (mapping f (g k))) lz) /\
       rep lz (2 ^ h) (fupd z k (comp f (z k)))).
    { unfold all_apply. rewrite (rep_get _ _ _ _ I4) by lia. cbn [bind]. rewrite (rep_set _ _ _ _ _ I4) by lia. cbn [bind].
      rewrite I2. destruct (k <? 2 ^ h) eqn:B.
      - rewrite (rep_get _ _ _ _ I5) by lia. cbn [bind]. rewrite (rep_set _ _ _ _ _ I5) by lia. cbn [bind].
        eexists; split; [reflexivity|]. apply rep_upd; auto; lia.
      - eexists; split; [reflexivity|]. eapply rep_ext; eauto. intros i Hi. rewrite fupd_diff; auto; lia. }
    destruct X as (lz & E & Rz). rewrite E. eexists; split; [reflexivity|].
    exists (fupd g k (mapping f (g k))), (fupd z k (comp f (z k))), (fun q x => if sdesc k q then mapping f (A q x) else A q x).
    constructor; cbn [ls_put ls_lazy ls_data ls_m ls_n ls_lg]; auto.
    - apply rep_upd; auto; lia.
    - intro x. replace (sdesc k 1) with false; auto. unfold sdesc. change (Z.log2 1) with 0. pose proof (Z.log2_nonneg k). lia.
    - intros q b x Hq Hb. rewrite sdesc_child by lia. destruct (Z.eq_dec q k) as [->|Nk].
      + rewrite sub_self, sdesc_self, fupd_same. rewrite (act_comp _ _ _ _ Act). rewrite I7 by lia. now rewrite !Ak.
      + rewrite sub_other by auto. rewrite fupd_diff by auto. rewrite I7 by auto. auto.
    - intros i Hi. rewrite <- (sub_leaf h j k i) by auto. destruct (Z.eq_dec (2 ^ h + i) k) as [Ek|Nk].
      + rewrite <- (I8 i Hi), Ek, sub_self, sdesc_self, fupd_same. now rewrite !Ak.
      + rewrite sub_other by auto. rewrite fupd_diff by auto. now rewrite I8.
    - intros q Hq ND.
      assert (k / 2 <> q).
      { intro Qe; subst q. destruct HS as [->|HS]; [change (1 / 2) with 0 in Hq; lia|]. auto. }
      assert (2 * q <> k) by (intro Qe; apply H; rewrite <- Qe, Z.mul_comm; apply Z.div_mul; lia).
      assert (2 * q + 1 <> k) by (intro Qe; apply H; rewrite <- Qe; symmetry; apply Z.div_unique with 1; lia).
      rewrite (fupd_diff _ _ _ (2 * q)), (fupd_diff _ _ _ (2 * q + 1)) by auto. destruct (Z.eq_dec q k) as [->|Nk].
      + rewrite !fupd_same. rewrite (act_comp _ _ _ _ Act). f_equal. apply I9; auto.
      + rewrite !fupd_diff by auto. apply I9; auto.
    - intros q Sq. destruct (I10 q Sq) as (B & P & Q). split; auto. split; auto. intro x.
      rewrite fupd_diff; auto. intros ->; auto.
  Qed.

  Lemma lupdate_ok (D S : Z -> Prop) n h s a k : LJ D S n h s a -> S k ->
    exists s', lupdate op s k = Ok s' /\ LJ (fun q => (D q /\ q <> k) \/ (q = k / 2 /\ 1 <= q)) S n h s' a.
  Proof.
    intros (g & z & A & I) HS. pose proof I as [I1 I2 I3 I4 I5 I6 I7 I8 I9 I10].
    destruct (I10 k HS) as (B & P & Q). unfold lupdate. rewrite (node_update_ok op _ _ _ _ I4) by lia. cbn [bind].
    eexists; split; [reflexivity|]. exists (fupd g k (op (g (2 * k)) (g (2 * k + 1)))), z, A.
    constructor; cbn [ls_put ls_lazy ls_data ls_m ls_n ls_lg]; auto.
    - apply rep_upd; auto; lia.
    - intros i Hi. rewrite fupd_diff by lia. auto.
    - intros q Hq ND. 
      assert (k / 2 <> q) by (intro Qe; subst q; apply ND; right; split; auto; lia).
      assert (2 * q <> k) by (intro Qe; apply H; rewrite <- Qe, Z.mul_comm; apply Z.div_mul; lia).
      assert (2 * q + 1 <> k) by (intro Qe; apply H; rewrite <- Qe; symmetry; apply Z.div_unique with 1; lia).
      rewrite (fupd_diff _ _ _ (2 * q)), (fupd_diff _ _ _ (2 * q + 1)) by auto. destruct (Z.eq_dec q k) as [->|Nk].
      + rewrite fupd_same. now rewrite Q.
      + rewrite fupd_diff by auto. apply I9; auto.
  Qed.

  Lemma leaf_set_ok (D S : Z -> Prop) n h s a p v : 0 <= h -> LJ none S n h s a -> 0 <= p < 2 ^ h -> (2 ^ h + p = 1 \/ S ((2 ^ h + p) / 2)) ->
    (forall q, S q -> D q) ->
    exists d, vset (ls_data s) (p + ls_m s) v = Ok d /\ LJ D S n h (ls_put s d (ls_lazy s)) (fupd a p v).
  Proof.
    intros Hh (g & z & A & I) Hp HS HD. pose proof I as [I1 I2 I3 I4 I5 I6 I7 I8 I9 I10].
    pose proof (Z.pow_pos_nonneg 2 h ltac:(lia) Hh).
    pose proof (A_id _ _ _ _ _ _ _ _ _ Hh I (2 ^ h + p) ltac:(lia) HS) as Ak. rewrite I2.
    rewrite (rep_set _ _ _ _ _ I4) by lia. eexists; split; [reflexivity|].
    exists (fupd g (p + 2 ^ h) v), z, A. constructor; cbn [ls_put ls_lazy ls_data ls_m ls_n ls_lg]; auto.
    - apply rep_upd; auto; lia.
    - intros i Hi. unfold fupd. destruct (2 ^ h + i =? p + 2 ^ h) eqn:B.
      + replace (i =? p) with true by lia. replace i with p by lia. apply Ak.
      + replace (i =? p) with false by lia. auto.
    - intros q Hq ND. 
      assert ((2 ^ h + p) / 2 <> q).
      { intro Qe; subst q. destruct HS as [HS|HS]; [rewrite HS in Hq; change (1 / 2) with 0 in Hq; lia|]. auto. }
      assert (2 * q <> p + 2 ^ h) by (intros Q; apply H0; rewrite Z.add_comm, <- Q, Z.mul_comm; apply Z.div_mul; lia).
      assert (2 * q + 1 <> p + 2 ^ h) by (intros Q; apply H0; rewrite Z.add_comm, <- Q; symmetry; apply Z.div_unique with 1; lia).
      rewrite !fupd_diff by lia. apply I9; auto.
  Qed.

  (* the proper ancestors of p of index > lo *)
  Definition path (h p lo q : Z) : Prop := exists i, lo < i <= h /\ q = p / 2 ^ i.

  Lemma path_range h p i : 0 <= h -> 2 ^ h <= p < 2 * 2 ^ h -> 0 <= i <= h -> 2 ^ (h - i) <= p / 2 ^ i < 2 * 2 ^ (h - i).
  Proof.
    intros Hh Hp Hi. pose proof (div_bound p i ltac:(lia)). 
    assert (E : 2 ^ h = 2 ^ (h - i) * 2 ^ i) by (rewrite <- Z.pow_add_r by lia; f_equal; lia).
    pose proof (Z.pow_pos_nonneg 2 i ltac:(lia) ltac:(lia)). rewrite E in Hp.
    set (P := 2 ^ i) in *. set (Q := 2 ^ (h - i)) in *. set (d := p / P) in *. clearbody d P Q. nia.
  Qed.
  Lemma path_top h p : 0 <= h -> 2 ^ h <= p < 2 * 2 ^ h -> p / 2 ^ h = 1.
  Proof. intros Hh Hp. pose proof (path_range h p h Hh Hp ltac:(lia)). rewrite Z.sub_diag in H. change (2 ^ 0) with 1 in H. lia. Qed.

  Lemma push_path_ok S n h s a p lo : 0 <= h -> LJ none S n h s a -> 0 <= lo -> (lo < h -> 2 ^ h <= p < 2 * 2 ^ h) ->
    exists s', push_path mapping comp idf s p lo = Ok s' /\ LJ none (fun q => S q \/ path h p lo q) n h s' a.
  Proof.
    intros Hh I Hlo Hp. unfold push_path.
    assert (Elg : ls_lg s = h) by (destruct I as (? & ? & ? & I); apply I). rewrite Elg.
    destruct (Z.lt_ge_cases lo h) as [B|B].
    - specialize (Hp B).
      destruct (ford_inv (fun i s' => LJ none (fun q => S q \/ path h p i q) n h s' a) h lo
        (fun i s => lpush mapping comp idf s (p / 2 ^ i)) s) as (s' & E & I').
      + lia.
      + eapply LJ_weaken; eauto. intro q. split; [tauto|]. intros [?|(i & Hi & _)]; auto; lia.
      + intros i s' Hi I'. pose proof (path_range h p i Hh Hp ltac:(lia)) as Rg.
        pose proof (Z.pow_pos_nonneg 2 (h - i) ltac:(lia) ltac:(lia)).
        assert (2 * 2 ^ (h - i) <= 2 ^ h) by (rewrite <- Z.pow_succ_r by lia; apply Z.pow_le_mono_r; lia).
        destruct (push_ok _ n h s' a (p / 2 ^ i) Hh I' ltac:(lia)) as (s2 & E2 & I2).
        * destruct (Z.eq_dec i h) as [->|Ni]; [left; now apply path_top|]. right. right. exists (i + 1). split; [lia|].
          apply div_S; lia.
        * exists s2. split; auto. eapply LJ_weaken; eauto. intro q. cbn. split.
          { intros [[?|(i' & Hi' & ->)]| ->]; auto; right; [exists i'|exists i]; split; auto; lia. }
          { intros [?|(i' & Hi' & ->)]; auto. destruct (Z.eq_dec i' i) as [->|Ni]; auto. left. right. exists i'. split; auto; lia. }
      + rewrite E. exists s'. split; auto.
    - unfold ford_. replace (Z.to_nat (h - lo)) with O by lia. cbn [for_dn]. eexists; split; [reflexivity|].
      eapply LJ_weaken; eauto. intro q. split; [tauto|]. intros [?|(i & Hi & _)]; auto; lia.
  Qed.

  Lemma update_path_ok (D S : Z -> Prop) n h s a p lo : 0 <= h -> LJ D S n h s a -> 0 <= lo -> (lo < h -> 2 ^ h <= p < 2 * 2 ^ h) ->
    (forall q, path h p lo q -> S q) ->
    exists s', update_path op s p lo = Ok s' /\ LJ (fun q => D q /\ ~ path h p lo q) S n h s' a.
  Proof.
    intros Hh I Hlo Hp HS. unfold update_path.
    assert (Elg : ls_lg s = h) by (destruct I as (? & ? & ? & I); apply I). rewrite Elg.
    destruct (Z.lt_ge_cases lo h) as [B|B].
    - specialize (Hp B).
      destruct (for_inv (fun i s' => LJ (fun q => (D q /\ forall i', lo < i' < i -> q <> p / 2 ^ i') \/ (exists i', lo + 1 < i /\ i <= i' <= h /\ q = p / 2 ^ i')) S n h s' a)
        (lo + 1) (h + 1) (fun i s => lupdate op s (p / 2 ^ i)) s) as (s' & E & I').
      + lia.
      + eapply LJ_weaken; eauto; [|tauto]. intros q _ Dq. left. split; auto. intros; lia.
      + intros i s' Hi I'. destruct (lupdate_ok _ S n h s' a (p / 2 ^ i) I' ltac:(apply HS; exists i; split; auto; lia)) as (s2 & E2 & I2).
        exists s2. split; auto. eapply LJ_weaken; eauto; [|tauto]. cbn. intros q Hq [[[[Dq NQ]|(i' & _ & Hi' & ->)] Nq]|[-> Q1]].
        * left. split; auto. intros i' Hi' ->. destruct (Z.eq_dec i' i) as [->|]; [tauto|]. apply (NQ i'); auto; lia.
        * right. exists i'. split; [lia|]. split; auto. assert (i' <> i) by (intros ->; tauto). lia.
        * right. exists (i + 1). split; [lia|]. rewrite div_S in * by lia. split; auto. split; [lia|].
          destruct (Z.le_gt_cases (i + 1) h); auto. exfalso. replace (i + 1) with (h + 1) in Q1 by lia.
          rewrite <- div_S in Q1 by lia. rewrite path_top in Q1 by auto. change (1 / 2) with 0 in Q1. lia.
      + rewrite E. exists s'. split; auto. eapply LJ_weaken; eauto; [|tauto]. cbn. intros q Hq [[Dq NQ]|(i' & _ & Hi' & _)]; [|lia].
        split; auto. intros (i & Hi & ->). apply (NQ i); auto; lia.
    - rewrite for_empty by lia. eexists; split; [reflexivity|]. eapply LJ_weaken; eauto; [|tauto].
      cbn. intros q _ Dq. split; auto. intros (i & Hi & _). lia.
  Qed.

  (* ---- decomposition of [L, R) ------------------------------------------- *)
  Definition Spair (h L R q : Z) : Prop := path h L (ctz L) q \/ path h R (ctz R) q.

  Lemma pow_split h j : 0 <= j <= h -> 2 ^ h = 2 ^ (h - j) * 2 ^ j.
  Proof. intro H. rewrite <- Z.pow_add_r by lia. f_equal; lia. Qed.

  Lemma odd_parent L j : 0 <= j -> 1 <= L -> Z.odd (cdiv L j) = true -> cdiv L j / 2 = L / 2 ^ (j + 1) /\ ctz L < j + 1.
  Proof.
    intros Hj HL Ho. pose proof (cdiv_bound L j Hj) as B. pose proof (Z.pow_pos_nonneg 2 j ltac:(lia) Hj) as P.
    pose proof (odd_div _ Ho) as E. set (l := cdiv L j) in *. set (t := l / 2) in *.
    split.
    - symmetry. apply div_unique2; [lia|]. rewrite Z.pow_add_r by lia. change (2 ^ 1) with 2. set (w := 2 ^ j) in *. clearbody w. nia.
    - destruct (Z.lt_ge_cases (ctz L) (j + 1)) as [|G]; auto. exfalso. apply (proj2 (ctz_mod L (j + 1) ltac:(lia) ltac:(lia))) in G.
      pose proof (Z.div_mod L (2 ^ (j + 1)) ltac:(pose proof (Z.pow_pos_nonneg 2 (j + 1)); lia)) as Q. rewrite G in Q.
      rewrite Z.pow_add_r in Q by lia. change (2 ^ 1) with 2 in Q. set (u := L / (2 ^ j * 2)) in *. set (w := 2 ^ j) in *. clearbody u w l t.
      assert (2 * u <= l < 2 * u + 1) by (clear G Ho E; nia). lia.
  Qed.
  Lemma odd_parent_r R j : 0 <= j -> 1 <= R -> Z.odd (R / 2 ^ j) = true -> (R / 2 ^ j - 1) / 2 = R / 2 ^ (j + 1) /\ ctz R < j + 1.
  Proof.
    intros Hj HR Ho. pose proof (odd_div _ Ho) as E. rewrite div_S in E by lia. split.
    - rewrite E. replace (2 * (R / 2 ^ (j + 1)) + 1 - 1) with (R / 2 ^ (j + 1) * 2) by lia. apply Z.div_mul. lia.
    - destruct (Z.lt_ge_cases (ctz R) (j + 1)) as [|G]; auto. exfalso. apply (proj2 (ctz_mod R (j + 1) ltac:(lia) ltac:(lia))) in G.
      pose proof (Z.div_mod R (2 ^ (j + 1)) ltac:(pose proof (Z.pow_pos_nonneg 2 (j + 1)); lia)) as Q. rewrite G in Q.
      pose proof (div_bound R j Hj) as B. pose proof (Z.pow_pos_nonneg 2 j ltac:(lia) Hj).
      rewrite Z.pow_add_r in * by lia. change (2 ^ 1) with 2 in *. set (u := R / (2 ^ j * 2)) in *. set (w := 2 ^ j) in *. set (t := R / w) in *.
      clearbody u w t. nia.
  Qed.
  Lemma not_path h L j k : 0 <= h -> 2 ^ h <= L <= 2 * 2 ^ h -> 0 <= j <= h -> 2 ^ (h - j) <= k < 2 * 2 ^ (h - j) ->
    path h L (ctz L) k -> k = L / 2 ^ j /\ ctz L < j.
  Proof.
    intros Hh HL Hj Hk (i & Hi & ->).
    assert (L <> 2 * 2 ^ h).
    { intros ->. rewrite <- Z.pow_succ_r in Hi by lia. replace (2 ^ Z.succ h) with (2 ^ Z.succ h * (2 * 0 + 1)) in Hi by lia.
      rewrite ctz_unique in Hi by lia. lia. }
    pose proof (ctz_nonneg L).
    pose proof (path_range h L i Hh ltac:(lia) ltac:(lia)) as B.
    pose proof (level_log2 h j _ Hj Hk). pose proof (level_log2 h i _ ltac:(lia) B). assert (i = j) by lia. subst. split; auto. lia.
  Qed.

  Lemma decomp h L R j : 0 <= h -> 2 ^ h <= L -> L <= R <= 2 * 2 ^ h -> 0 <= j -> cdiv L j < R / 2 ^ j ->
    j <= h /\ 2 ^ (h - j) <= cdiv L j /\ R / 2 ^ j <= 2 * 2 ^ (h - j) /\
    (Z.odd (cdiv L j) = true -> (cdiv L j = 1 \/ Spair h L R (cdiv L j / 2)) /\ ~ Spair h L R (cdiv L j)) /\
    (Z.odd (R / 2 ^ j) = true -> (R / 2 ^ j - 1 = 1 \/ Spair h L R ((R / 2 ^ j - 1) / 2)) /\ ~ Spair h L R (R / 2 ^ j - 1)).
  Proof.
    intros Hh HL HR Hj Hlt. pose proof (Z.pow_pos_nonneg 2 h ltac:(lia) Hh). pose proof (Z.pow_pos_nonneg 2 j ltac:(lia) Hj) as Pj.
    pose proof (cdiv_pos L j Hj ltac:(lia)) as Pl. pose proof (div_bound R j Hj) as BR. pose proof (cdiv_bound L j Hj) as BL.
    assert (j <= h) as Hjh.
    { destruct (Z.le_gt_cases j h) as [|G]; auto. exfalso. assert (2 * 2 ^ h <= 2 ^ j) by (rewrite <- Z.pow_succ_r by lia; apply Z.pow_le_mono_r; lia).
      assert (2 <= R / 2 ^ j) by lia. set (w := 2 ^ j) in *. set (r := R / w) in *. clearbody w r. nia. }
    pose proof (Z.pow_pos_nonneg 2 (h - j) ltac:(lia) ltac:(lia)) as PQ.
    pose proof (pow_split h j ltac:(lia)) as Eh.
    assert (2 ^ (h - j) <= cdiv L j).
    { rewrite Eh in HL. set (w := 2 ^ j) in *. set (q := 2 ^ (h - j)) in *. set (l := cdiv L j) in *. clearbody w q l. nia. }
    assert (R / 2 ^ j <= 2 * 2 ^ (h - j)).
    { rewrite Eh in HR. set (w := 2 ^ j) in *. set (q := 2 ^ (h - j)) in *. set (r := R / w) in *. clearbody w q r. nia. }
    split; auto. split; auto. split; auto.
    assert (FL : ctz L < j -> L / 2 ^ j < cdiv L j).
    { intro C. pose proof (div_bound L j Hj) as BL2.
      assert (L mod 2 ^ j <> 0) by (intro Q; apply (ctz_mod L j) in Q; lia).
      pose proof (Z.div_mod L (2 ^ j) ltac:(lia)). set (w := 2 ^ j) in *. set (l := cdiv L j) in *. set (u := L / w) in *.
      assert (u * w < L) by (pose proof (Z.mod_pos_bound L w); nia). clearbody w l u. nia. }
    split.
    - intro Ho. destruct (odd_parent L j Hj ltac:(lia) Ho) as [E C]. split.
      + destruct (Z.eq_dec j h) as [->|Nj].
        * left. rewrite Z.sub_diag in *. change (2 ^ 0) with 1 in *. lia.
        * right. left. exists (j + 1). split; auto. lia.
      + intros [P|P].
        * destruct (not_path h L j (cdiv L j) Hh ltac:(lia) ltac:(lia) ltac:(lia) P) as [P2 C2]. specialize (FL C2). lia.
        * destruct (not_path h R j (cdiv L j) Hh ltac:(lia) ltac:(lia) ltac:(lia) P) as [P2 C2]. lia.
    - intro Ho. destruct (odd_parent_r R j Hj ltac:(lia) Ho) as [E C]. split.
      + destruct (Z.eq_dec j h) as [->|Nj].
        * rewrite Z.sub_diag in *. change (2 ^ 0) with 1 in *. pose proof (odd_div _ Ho). lia.
        * right. right. exists (j + 1). split; auto. lia.
      + intros [P|P].
        * destruct (not_path h L j (R / 2 ^ j - 1) Hh ltac:(lia) ltac:(lia) ltac:(lia) P) as [P2 C2]. specialize (FL C2). lia.
        * destruct (not_path h R j (R / 2 ^ j - 1) Hh ltac:(lia) ltac:(lia) ltac:(lia) P) as [P2 C2]. lia.
  Qed.

  Lemma push_to2_ok n h s a l r : 0 <= h -> LJ none none n h s a -> 0 <= l -> l <= r <= 2 ^ h ->
    exists s', push_to2 mapping comp idf s l r = Ok s' /\ LJ none (Spair h (l + 2 ^ h) (r + 2 ^ h)) n h s' a.
  Proof.
    intros Hh I Hl Hr. unfold push_to2. assert (Em : ls_m s = 2 ^ h) by (destruct I as (? & ? & ? & I); apply I). rewrite Em.
    pose proof (Z.pow_pos_nonneg 2 h ltac:(lia) Hh).
    unfold ctz_. replace (l + 2 ^ h =? 0) with false by lia. replace (r + 2 ^ h =? 0) with false by lia. cbn [bind].
    assert (C : forall x, 0 <= x <= 2 ^ h -> ctz (x + 2 ^ h) < h -> 2 ^ h <= x + 2 ^ h < 2 * 2 ^ h).
    { intros x Hx C. destruct (Z.eq_dec x (2 ^ h)) as [->|]; [|lia]. exfalso.
      replace (2 ^ h + 2 ^ h) with (2 ^ (h + 1) * (2 * 0 + 1)) in C by (rewrite Z.pow_add_r by lia; change (2 ^ 1) with 2; lia).
      rewrite ctz_unique in C; lia. }
    destruct (push_path_ok none n h s a (l + 2 ^ h) (ctz (l + 2 ^ h)) Hh I (ctz_nonneg _) (C l ltac:(lia))) as (s1 & E1 & I1).
    rewrite E1; cbn [bind].
    destruct (push_path_ok _ n h s1 a (r + 2 ^ h) (ctz (r + 2 ^ h)) Hh I1 (ctz_nonneg _) (C r ltac:(lia))) as (s2 & E2 & I2).
    exists s2. split; auto. eapply LJ_weaken; eauto. intro q. unfold Spair, none. tauto.
  Qed.
  Lemma update_from2_ok n h s a l r : 0 <= h -> let S := Spair h (l + 2 ^ h) (r + 2 ^ h) in LJ S S n h s a -> 0 <= l -> l <= r <= 2 ^ h ->
    exists s', update_from2 op s l r = Ok s' /\ LJ none none n h s' a.
  Proof.
    intros Hh S I Hl Hr. unfold update_from2. assert (Em : ls_m s = 2 ^ h) by (destruct I as (? & ? & ? & I); apply I). rewrite Em.
    pose proof (Z.pow_pos_nonneg 2 h ltac:(lia) Hh).
    unfold ctz_. replace (l + 2 ^ h =? 0) with false by lia. replace (r + 2 ^ h =? 0) with false by lia. cbn [bind].
    assert (C : forall x, 0 <= x <= 2 ^ h -> ctz (x + 2 ^ h) < h -> 2 ^ h <= x + 2 ^ h < 2 * 2 ^ h).
    { intros x Hx C. destruct (Z.eq_dec x (2 ^ h)) as [->|]; [|lia]. exfalso.
      replace (2 ^ h + 2 ^ h) with (2 ^ (h + 1) * (2 * 0 + 1)) in C by (rewrite Z.pow_add_r by lia; change (2 ^ 1) with 2; lia).
      rewrite ctz_unique in C; lia. }
    destruct (update_path_ok S S n h s a (l + 2 ^ h) (ctz (l + 2 ^ h)) Hh I (ctz_nonneg _) (C l ltac:(lia))) as (s1 & E1 & I1).
    { intros q Hq. now left. }
    rewrite E1; cbn [bind].
    destruct (update_path_ok _ S n h s1 a (r + 2 ^ h) (ctz (r + 2 ^ h)) Hh I1 (ctz_nonneg _) (C r ltac:(lia))) as (s2 & E2 & I2).
    { intros q Hq. now right. }
    exists s2. split; auto. apply LJ_forget with S. eapply LJ_weaken; eauto; [|tauto]. cbn. unfold S, Spair, none. tauto.
  Qed.

  Lemma apply_walk_ok n h s a l r f : 0 <= h -> let S := Spair h (l + 2 ^ h) (r + 2 ^ h) in LJ S S n h s a -> 0 <= l -> l <= r <= 2 ^ h ->
    exists s', apply_walk mapping comp s (l + 2 ^ h) (r + 2 ^ h) f = Ok s' /\
      LJ S S n h s' (fun i => if (l <=? i) && (i <? r) then mapping f (a i) else a i).
  Proof.
    intros Hh S I Hl Hr. pose proof (Z.pow_pos_nonneg 2 h ltac:(lia) Hh). set (L := l + 2 ^ h) in *. set (R := r + 2 ^ h) in *.
    unfold apply_walk.
    set (upd := fun l2 r2 w i => if ((L <=? 2 ^ h + i) && (2 ^ h + i <? l2 * w)) || ((r2 * w <=? 2 ^ h + i) && (2 ^ h + i <? R)) then mapping f (a i) else a i).
    match goal with |- context [loop ?fu ?bo ?st] =>
      destruct (loop_inv (fun '(l2, r2, s') => exists j, 0 <= j /\ l2 = cdiv L j /\ r2 = R / 2 ^ j /\ (0 < j -> l2 <= r2) /\ LJ S S n h s' (upd l2 r2 (2 ^ j)))
        (fun '(l2, r2, _) => Z.to_nat r2) (fun s' => LJ S S n h s' (fun i => if (l <=? i) && (i <? r) then mapping f (a i) else a i)) bo fu st) as (s' & E & I')
    end.
    - exists 0. rewrite cdiv_0, Z.pow_0_r, Z.div_1_r. repeat split; try lia. eapply LJ_weaken; eauto; [tauto|].
      intros i Hi. unfold upd. replace (_ || _) with false by lia. auto.
    - lia.
    - intros [[l2 r2] s'] (j & Hj & -> & -> & Hlr & I'). set (l2 := cdiv L j) in *. set (r2 := R / 2 ^ j) in *.
      pose proof (Z.pow_pos_nonneg 2 j ltac:(lia) Hj) as Pw.
      pose proof (cdiv_bound L j Hj) as BL. pose proof (div_bound R j Hj) as BR. fold l2 in BL. fold r2 in BR.
      destruct (l2 <? r2) eqn:B.
      + destruct (decomp h L R j Hh ltac:(lia) ltac:(lia) Hj ltac:(fold l2 r2; lia)) as (Hjh & Bl & Br & Pl & Pr). fold l2 r2 in Bl, Br, Pl, Pr.
        set (w := 2 ^ j) in *.
        assert (X1 : exists s1, (if Z.odd l2 then let* s := all_apply mapping comp s' l2 f in Ok (l2 + 1, s) else Ok (l2, s')) = Ok (2 * ((l2 + 1) / 2), s1) /\
          LJ S S n h s1 (upd (2 * ((l2 + 1) / 2)) r2 w)).
        { destruct (Z.odd l2) eqn:Ol.
          - destruct (Pl eq_refl) as [P1 P2]. destruct (all_apply_ok S S n h s' _ l2 j f Hh I' ltac:(lia) ltac:(lia) P1 P2 ltac:(auto)) as (s1 & E1 & I1).
            rewrite E1; cbn [bind]. pose proof (odd_div _ Ol). replace (2 * ((l2 + 1) / 2)) with (l2 + 1) by lia.
            exists s1. split; auto. eapply LJ_weaken; eauto; [tauto|]. cbn. fold w. intros i Hi. unfold upd.
            assert ((l2 + 1) * w <= r2 * w) by (apply Z.mul_le_mono_nonneg_r; lia).
            replace ((l2 + 1) * w) with (l2 * w + w) in * by lia.
            destruct (l2 * w <=? 2 ^ h + i) eqn:U1; destruct (2 ^ h + i <? l2 * w + w) eqn:U2; cbn [andb].
            + replace (((L <=? 2 ^ h + i) && (2 ^ h + i <? l2 * w)) || ((r2 * w <=? 2 ^ h + i) && (2 ^ h + i <? R))) with false by lia.
              replace (((L <=? 2 ^ h + i) && (true)) || ((r2 * w <=? 2 ^ h + i) && (2 ^ h + i <? R))) with true by lia. auto.
            + apply if_eq. lia.
            + apply if_eq. lia.
            + exfalso; lia.
          - pose proof (even_div _ Ol). replace (2 * ((l2 + 1) / 2)) with l2 by lia. eauto. }
        destruct X1 as (s1 & E1 & I1). rewrite E1; cbn [bind]. clear E1.
        assert (Lr : 2 * ((l2 + 1) / 2) <= 2 * (r2 / 2)).
        { destruct (Z.odd l2) eqn:Ol; [pose proof (odd_div _ Ol)|pose proof (even_div _ Ol)]; lia. }
        set (l3 := 2 * ((l2 + 1) / 2)) in *.
        assert (X2 : exists s2, (if Z.odd r2 then let* s := all_apply mapping comp s1 (r2 - 1) f in Ok (r2 - 1, s) else Ok (r2, s1)) = Ok (2 * (r2 / 2), s2) /\
          LJ S S n h s2 (upd l3 (2 * (r2 / 2)) w)).
        { destruct (Z.odd r2) eqn:Or.
          - destruct (Pr eq_refl) as [P1 P2]. destruct (all_apply_ok S S n h s1 _ (r2 - 1) j f Hh I1 ltac:(lia) ltac:(lia) P1 P2 ltac:(auto)) as (s2 & E2 & I2).
            rewrite E2; cbn [bind]. pose proof (odd_div _ Or). replace (2 * (r2 / 2)) with (r2 - 1) in * by lia.
            exists s2. split; auto. eapply LJ_weaken; eauto; [tauto|]. cbn. fold w. intros i Hi. unfold upd.
            assert (l3 * w <= (r2 - 1) * w) by (apply Z.mul_le_mono_nonneg_r; lia).
            replace ((r2 - 1 + 1) * w) with (r2 * w) in * by lia. replace ((r2 - 1) * w) with (r2 * w - w) in * by lia.
            destruct (r2 * w - w <=? 2 ^ h + i) eqn:U1; destruct (2 ^ h + i <? r2 * w) eqn:U2; cbn [andb].
            + replace (((L <=? 2 ^ h + i) && (2 ^ h + i <? l3 * w)) || ((r2 * w <=? 2 ^ h + i) && (2 ^ h + i <? R))) with false by lia.
              replace (((L <=? 2 ^ h + i) && (2 ^ h + i <? l3 * w)) || (2 ^ h + i <? R)) with true by lia. auto.
            + apply if_eq. lia.
            + apply if_eq. lia.
            + exfalso; lia.
          - pose proof (even_div _ Or). replace (2 * (r2 / 2)) with r2 by lia. eauto. }
        destruct X2 as (s2 & E2 & I2). rewrite E2; cbn [bind]. clear E2.
        eexists; split; [reflexivity|]. cbn. unfold l3 in *. rewrite !(Z.mul_comm 2), !Z.div_mul by lia.
        pose proof (cdiv_pos L j Hj ltac:(lia)) as Pl2. fold l2 in Pl2. split; [|lia].
        exists (j + 1). split; [lia|]. split; [now apply cdiv_S|]. split; [now apply div_S|]. split; [lia|].
        rewrite Z.pow_add_r by lia. change (2 ^ 1) with 2. fold w.
        eapply LJ_weaken; eauto; [tauto|]. intros i Hi. unfold upd. rewrite !(Z.mul_comm 2), <- !Z.mul_assoc, !(Z.mul_comm 2). auto.
      + eexists; split; [reflexivity|]. cbn. eapply LJ_weaken; eauto; [tauto|]. intros i Hi. unfold upd.
        destruct (Z.eq_dec j 0) as [->|Nj].
        * rewrite Z.pow_0_r in *. assert (l2 = L) by (unfold l2; apply cdiv_0). assert (r2 = R) by (unfold r2; rewrite Z.pow_0_r; apply Z.div_1_r).
          apply if_eq. lia.
        * assert (Elr : l2 = r2) by lia. rewrite <- Elr in *. set (w := 2 ^ j) in *. apply if_eq. lia.
    - rewrite E. exists s'. auto.
  Qed.

  (* ---- against the plain vector -------------------------------------------- *)
  Definition LS (s : lseg) (v : list T) : Prop :=
    exists h, 0 <= h /\ zlen v <= 2 ^ h /\ LJ none none (zlen v) h s (fun i => nth (Z.to_nat i) v e).

  Lemma nth_map_range l r (f : T -> T) v i : 0 <= l <= r -> r <= zlen v -> 0 <= i ->
    nth (Z.to_nat i) (map_range l r f v) e = if (l <=? i) && (i <? r) then f (nth (Z.to_nat i) v e) else nth (Z.to_nat i) v e.
  Proof.
    intros Hl Hr Hi. unfold map_range, slice, zlen in *.
    assert (L1 : length (firstn (Z.to_nat l) v) = Z.to_nat l) by (rewrite firstn_length; lia).
    assert (L2 : length (map f (firstn (Z.to_nat (r - l)) (skipn (Z.to_nat l) v))) = Z.to_nat (r - l)) by (rewrite map_length, firstn_length, skipn_length; lia).
    destruct (l <=? i) eqn:A; cbn [andb].
    - rewrite app_nth2 by lia. rewrite L1. destruct (i <? r) eqn:B.
      + rewrite app_nth1 by lia. rewrite (nth_indep _ e (f e)) by lia. rewrite map_nth. f_equal.
        rewrite <- (firstn_skipn (Z.to_nat l) v) at 2. rewrite app_nth2 by lia. rewrite L1.
        rewrite <- (firstn_skipn (Z.to_nat (r - l)) (skipn (Z.to_nat l) v)) at 2. rewrite app_nth1; auto.
        rewrite map_length in L2. lia.
      + rewrite app_nth2 by lia. rewrite L2. rewrite <- (firstn_skipn (Z.to_nat r) v) at 2.
        rewrite app_nth2 by (rewrite firstn_length; lia). f_equal. rewrite firstn_length. lia.
    - rewrite app_nth1 by lia. rewrite <- (firstn_skipn (Z.to_nat l) v) at 2. rewrite app_nth1 by lia. auto.
  Qed.
  Lemma zlen_map_range l r (f : T -> T) v : 0 <= l <= r -> r <= zlen v -> zlen (map_range l r f v) = zlen v.
  Proof. intros Hl Hr. unfold map_range, slice, zlen in *. rewrite !app_length, map_length, !firstn_length, !skipn_length. lia. Qed.
  Lemma nth_zupd v i (x : T) j : 0 <= i < zlen v -> 0 <= j -> nth (Z.to_nat j) (zupd v i x) e = fupd (fun i => nth (Z.to_nat i) v e) i x j.
  Proof.
    intros Hi Hj. unfold fupd. destruct (Z.lt_ge_cases j (zlen v)).
    - assert (V : vget (zupd v i x) j = Ok (nth (Z.to_nat j) (zupd v i x) e)) by (apply vget_nth; rewrite zlen_zupd; lia).
      rewrite vget_zupd in V by auto. rewrite (Z.eqb_sym j i). destruct (i =? j); [congruence|]. rewrite (vget_nth e) in V by lia. congruence.
    - replace (j =? i) with false by lia. rewrite !nth_overflow; auto; pose proof (zlen_zupd v i x); unfold zlen in *; lia.
  Qed.

  Lemma lseg_apply_ok s v l r f : LS s v -> 0 <= l <= r -> r <= zlen v ->
    exists s', lseg_apply op mapping comp idf s l r f = Ok s' /\ LS s' (map_range l r (mapping f) v).
  Proof.
    intros (h & Hh & Hn & I) Hl Hr. unfold lseg_apply.
    assert (En : ls_n s = zlen v) by (destruct I as (? & ? & ? & I); apply I). rewrite En.
    replace ((0 <=? l) && (l <=? r) && (r <=? zlen v)) with true by lia. cbn [assert_ bind].
    destruct (push_to2_ok _ h s _ l r Hh I ltac:(lia) ltac:(lia)) as (s1 & E1 & I1). rewrite E1; cbn [bind].
    assert (Em : ls_m s1 = 2 ^ h) by (destruct I1 as (? & ? & ? & I1); apply I1). rewrite Em.
    set (S := Spair h (l + 2 ^ h) (r + 2 ^ h)) in *.
    assert (I1' : LJ S S (zlen v) h s1 (fun i => nth (Z.to_nat i) v e)) by (eapply LJ_weaken; eauto; [intros ? ? []|tauto]).
    destruct (apply_walk_ok _ h s1 _ l r f Hh I1' ltac:(lia) ltac:(lia)) as (s2 & E2 & I2). fold S in I2. rewrite E2; cbn [bind].
    destruct (update_from2_ok _ h s2 _ l r Hh I2 ltac:(lia) ltac:(lia)) as (s3 & E3 & I3). rewrite E3.
    exists s3. split; auto. exists h. rewrite zlen_map_range by auto. split; auto. split; auto.
    eapply LJ_weaken; eauto; [tauto|]. intros i Hi. cbn. now rewrite nth_map_range by lia.
  Qed.

  Lemma reads_ok n h s a l r g z A : 0 <= h -> let S := Spair h (l + 2 ^ h) (r + 2 ^ h) in LI none S n h s g z A a -> 0 <= l -> l <= r <= 2 ^ h ->
    seg_walk op e (ls_data s) (l + 2 ^ h) (r + 2 ^ h) = Ok (prod_ op e (fun k => A k (g k)) (l + 2 ^ h) (r + 2 ^ h)).
  Proof.
    intros Hh S I Hl Hr. pose proof (Z.pow_pos_nonneg 2 h ltac:(lia) Hh).
    apply (walk_ok op e M _ (fun k => A k (g k)) (2 ^ h)); try lia.
    - eapply tv_tree; eauto.
    - intros j Hj Hlt. destruct (decomp h (l + 2 ^ h) (r + 2 ^ h) j Hh ltac:(lia) ltac:(lia) Hj Hlt) as (Hjh & Bl & Br & Pl & Pr).
      pose proof (Z.pow_pos_nonneg 2 (h - j) ltac:(lia) ltac:(lia)). assert (2 ^ (h - j) <= 2 ^ h) by (apply Z.pow_le_mono_r; lia).
      pose proof (li_data _ _ _ _ _ _ _ _ _ I) as Rd.
      split; intro Ho.
      + destruct (Pl Ho) as [P _]. rewrite (rep_get _ _ _ _ Rd) by lia. f_equal. symmetry. apply (A_id _ _ _ _ _ _ _ _ _ Hh I); [lia|exact P].
      + destruct (Pr Ho) as [P _]. rewrite (rep_get _ _ _ _ Rd) by lia. f_equal. symmetry. apply (A_id _ _ _ _ _ _ _ _ _ Hh I); [lia|exact P].
  Qed.

  Lemma lseg_prod_ok s v l r : LS s v -> 0 <= l <= r -> r <= zlen v ->
    exists s', lseg_prod op e mapping comp idf s l r = Ok (fold_right op e (slice l r v), s') /\ LS s' v.
  Proof.
    intros (h & Hh & Hn & I) Hl Hr. unfold lseg_prod.
    assert (En : ls_n s = zlen v) by (destruct I as (? & ? & ? & I); apply I). rewrite En.
    replace ((0 <=? l) && (l <=? r) && (r <=? zlen v)) with true by lia. cbn [assert_ bind].
    destruct (push_to2_ok _ h s _ l r Hh I ltac:(lia) ltac:(lia)) as (s1 & E1 & I1). rewrite E1; cbn [bind].
    assert (Em : ls_m s1 = 2 ^ h) by (destruct I1 as (? & ? & ? & I1); apply I1). rewrite Em.
    exists s1. split.
    - destruct I1 as (g & z & A & I1). rewrite (reads_ok _ h s1 _ l r g z A Hh I1) by lia. cbn [bind]. f_equal. f_equal.
      apply (prod_pad op e v _ (2 ^ h)); try lia. intros i Hi. apply (li_leaf _ _ _ _ _ _ _ _ _ I1). auto.
    - exists h. split; auto. split; auto. eapply LJ_forget; eauto.
  Qed.

  Lemma path_leaf h p : 0 <= h -> 0 <= p < 2 ^ h -> 2 ^ h + p = 1 \/ path h (p + 2 ^ h) 0 ((2 ^ h + p) / 2).
  Proof.
    intros Hh Hp. destruct (Z.eq_dec h 0) as [->|N].
    - left. change (2 ^ 0) with 1 in *. lia.
    - right. exists 1. split; [lia|]. change (2 ^ 1) with 2. f_equal. lia.
  Qed.
  Lemma lseg_get_ok s v p : LS s v -> 0 <= p < zlen v ->
    exists s', lseg_get mapping comp idf s p = Ok (nth (Z.to_nat p) v e, s') /\ LS s' v.
  Proof.
    intros (h & Hh & Hn & I) Hp. unfold lseg_get, push_to1.
    assert (En : ls_n s = zlen v) by (destruct I as (? & ? & ? & I); apply I). rewrite En.
    assert (Em : ls_m s = 2 ^ h) by (destruct I as (? & ? & ? & I); apply I). rewrite Em.
    replace ((0 <=? p) && (p <? zlen v)) with true by lia. cbn [assert_ bind].
    destruct (push_path_ok none _ h s _ (p + 2 ^ h) 0 Hh I ltac:(lia) ltac:(lia)) as (s1 & E1 & I1). rewrite E1; cbn [bind].
    assert (Em1 : ls_m s1 = 2 ^ h) by (destruct I1 as (? & ? & ? & I1); apply I1). rewrite Em1.
    exists s1. split.
    - destruct I1 as (g & z & A & I1). rewrite (rep_get _ _ _ _ (li_data _ _ _ _ _ _ _ _ _ I1)) by lia. cbn [bind]. f_equal. f_equal.
      rewrite <- (li_leaf _ _ _ _ _ _ _ _ _ I1 p) by lia. rewrite (A_id _ _ _ _ _ _ _ _ _ Hh I1); [f_equal; lia|lia|].
      destruct (path_leaf h p Hh ltac:(lia)); tauto.
    - exists h. split; auto. split; auto. eapply LJ_forget; eauto.
  Qed.
  Lemma lseg_set_ok s v p x : LS s v -> 0 <= p < zlen v ->
    exists s', lseg_set op mapping comp idf s p x = Ok s' /\ LS s' (zupd v p x).
  Proof.
    intros (h & Hh & Hn & I) Hp. unfold lseg_set, push_to1, update_from1.
    assert (En : ls_n s = zlen v) by (destruct I as (? & ? & ? & I); apply I). rewrite En.
    assert (Em : ls_m s = 2 ^ h) by (destruct I as (? & ? & ? & I); apply I). rewrite Em.
    replace ((0 <=? p) && (p <? zlen v)) with true by lia. cbn [assert_ bind].
    destruct (push_path_ok none _ h s _ (p + 2 ^ h) 0 Hh I ltac:(lia) ltac:(lia)) as (s1 & E1 & I1). rewrite E1; cbn [bind].
    assert (Em1 : ls_m s1 = 2 ^ h) by (destruct I1 as (? & ? & ? & I1); apply I1).
    set (S := fun q => none q \/ path h (p + 2 ^ h) 0 q) in *.
    destruct (leaf_set_ok S S _ h s1 _ p x Hh I1 ltac:(lia)) as (d & E2 & I2).
    { unfold S. destruct (path_leaf h p Hh ltac:(lia)); tauto. }
    { auto. }
    rewrite E2; cbn [bind]. cbn [ls_put ls_m]. rewrite Em1.
    destruct (update_path_ok S S _ h _ _ (p + 2 ^ h) 0 Hh I2 ltac:(lia) ltac:(lia)) as (s3 & E3 & I3).
    { unfold S. auto. }
    rewrite E3. exists s3. split; auto. exists h. rewrite zlen_zupd. split; auto. split; auto.
    apply LJ_forget with S. eapply LJ_weaken; eauto; try tauto.
    - cbn. unfold S, none. tauto.
    - intros i Hi. cbn. symmetry. apply nth_zupd; lia.
  Qed.
  Lemma lseg_all_ok s v : LS s v -> lseg_all s = Ok (fold_right op e v).
  Proof.
    intros (h & Hh & Hn & (g & z & A & I)). unfold lseg_all. pose proof (Z.pow_pos_nonneg 2 h ltac:(lia) Hh).
    rewrite (rep_get _ _ _ _ (li_data _ _ _ _ _ _ _ _ _ I)) by lia. f_equal.
    rewrite <- (li_A1 _ _ _ _ _ _ _ _ _ I (g 1)). pose proof (zlen_nonneg v).
    etransitivity; [apply (root_ok op e M (fun k => A k (g k)) h Hh)|].
    - eapply tv_tree; eauto.
    - pose proof (prod_pad2 op e M v (fun k => A k (g k)) (2 ^ h) 0) as P. rewrite Z.add_0_l in P. rewrite P; try lia.
      + now rewrite slice_all.
      + intros i Hi. apply (li_leaf _ _ _ _ _ _ _ _ _ I); auto.
  Qed.
  Lemma lseg_of_ok v : exists s, lseg_of op e idf v = Ok s /\ LS s v.
  Proof.
    unfold lseg_of. destruct (ceil_pow2_ok (zlen v)) as (h & Hh & E & Hn). rewrite E; cbn [bind].
    pose proof (Z.pow_pos_nonneg 2 h ltac:(lia) Hh). pose proof (zlen_nonneg v).
    unfold ctz_. replace (2 ^ h =? 0) with false by lia. cbn [bind].
    replace (ctz (2 ^ h)) with h by (replace (2 ^ h) with (2 ^ h * (2 * 0 + 1)) by lia; rewrite ctz_unique; lia).
    destruct (copy_at_ok e v (vrep (2 * 2 ^ h) e) (2 ^ h) (fun _ => e) (2 * 2 ^ h)) as (d & E1 & R1); try lia.
    { apply rep_vrep; lia. }
    rewrite E1; cbn [bind].
    destruct (rebuild_ok op d (2 ^ h) _ ltac:(lia) R1) as (d2 & g & E2 & R2 & Hl & Ht). rewrite E2; cbn [bind].
    eexists; split; [reflexivity|]. exists h. split; auto. split; auto. exists g, (fun _ => idf), (fun _ x => x).
    constructor; cbn [ls_n ls_m ls_lg ls_data ls_lazy]; auto.
    - apply rep_vrep; lia.
    - intros. now rewrite (act_id _ _ _ _ Act).
    - intros i Hi. rewrite Hl by lia. destruct (2 ^ h + i <? 2 ^ h + zlen v) eqn:B.
      + replace (2 ^ h <=? 2 ^ h + i) with true by lia. cbn [andb]. do 2 f_equal. lia.
      + rewrite andb_false_r. symmetry. apply nth_overflow. unfold zlen in *. lia.
    - intros k Hk _. rewrite (act_id _ _ _ _ Act). auto.
    - intros k [].
  Qed.
End LP.
