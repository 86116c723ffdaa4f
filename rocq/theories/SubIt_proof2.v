From Verif Require Import Base BaseLemmas ListZ Bits SubIt_spec SubIt_model SubIt_proof.
From Coq Require Import Sorted.
Import ListNotations.
Open Scope Z_scope.

Lemma p2 m : 0 <= m -> 0 < 2 ^ m. Proof. intros. apply Z.pow_pos_nonneg; lia. Qed.
(* the next number with the same number of ones *)
Lemma parts t : 0 < t -> exists i j h, 0 <= i /\ 1 <= j /\ 0 <= h /\ i = ctz t /\ t = 2 ^ i * (2 ^ (j + 1) * h + 2 ^ j - 1).
Proof.
  intros Ht. destruct (ctz_decomp t Ht) as (q & Hq & E). destruct (ctz_decomp (2 * q + 2)) as (h & Hh & E2); [lia|].
  assert (J : 1 <= ctz (2 * q + 2)). { replace (2 * q + 2) with (2 * (q + 1)) by ring. rewrite ctz_double by lia. pose proof (ctz_nonneg (q + 1)). lia. }
  set (j := ctz (2 * q + 2)) in *. clearbody j. exists (ctz t), j, h. split; [apply ctz_nonneg|]. split; auto. split; auto. split; auto. rewrite E at 1. f_equal. rewrite Z.pow_add_r by lia. change (2 ^ 1) with 2. clear E. lia.
Qed.
Lemma gosper_card i j h : 0 <= i -> 1 <= j -> 0 <= h ->
  let t := 2 ^ i * (2 ^ (j + 1) * h + 2 ^ j - 1) in let t' := 2 ^ (i + j) * (2 * h + 1) + (2 ^ (j - 1) - 1) in
  card t = card h + j /\ card t' = card h + j /\ t < t' /\ forall x, t < x < t' -> card x <> card h + j.
Proof.
  intros Hi Hj Hh t t'. pose proof (p2 i Hi) as Pi. pose proof (p2 (j - 1) ltac:(lia)) as Pj1. assert (Ej : 2 ^ j = 2 * 2 ^ (j - 1)) by (rewrite <- Z.pow_succ_r by lia; f_equal; lia).
  assert (Eij : 2 ^ (i + j) = 2 ^ i * 2 ^ j) by (apply Z.pow_add_r; lia). assert (Ej1 : 2 ^ (j + 1) = 2 * 2 ^ j) by (rewrite <- Z.pow_succ_r by lia; f_equal; lia).
  assert (Et : t = 2 ^ (i + j) * (2 * h) + 2 ^ i * (2 ^ j - 1)) by (unfold t; rewrite Eij, Ej1; ring).
  assert (Lo : 0 <= 2 ^ i * (2 ^ j - 1) < 2 ^ (i + j)) by (rewrite Eij; nia).
  assert (Cl : card (2 ^ i * (2 ^ j - 1)) = j). { replace (2 ^ i * (2 ^ j - 1)) with (2 ^ i * (2 ^ j - 1) + 0) by ring. rewrite card_cat by lia. rewrite card_full by lia. rewrite card0. lia. }
  assert (L1 : 0 <= 2 ^ (j - 1) - 1 < 2 ^ (i + j)) by (rewrite Eij; nia).
  split; [|split; [|split]].
  - rewrite Et, card_cat, Cl, card_even by lia. lia.
  - unfold t'. rewrite card_cat, card_full, card_odd by lia. lia.
  - rewrite Et. unfold t'. rewrite Z.mul_add_distr_l. lia.
  - intros x (X1 & X2) F. rewrite Et in X1. unfold t' in X2. clear Et t t'.
    pose proof (p2 (i + j) ltac:(lia)) as Pm. pose proof (Z.div_mod x (2 ^ (i + j)) ltac:(lia)) as D. pose proof (Z.mod_pos_bound x (2 ^ (i + j)) Pm) as Bm.
    set (u := x / 2 ^ (i + j)) in *. set (l := x mod 2 ^ (i + j)) in *. clearbody u l. set (m := 2 ^ (i + j)) in *.
    assert (U : u = 2 * h \/ u = 2 * h + 1). { clear F Cl. clearbody m. clear Eij. assert (2 * h <= u) by nia. assert (u < 2 * h + 2) by nia. lia. }
    assert (C : card x = card u + card l). { rewrite D. unfold m. apply card_cat; lia. }
    destruct U as [-> | ->].
    + rewrite card_even in C. assert (Ll : 2 ^ i * (2 ^ j - 1) < l) by (clearbody m; lia).
      pose proof (Z.div_mod l (2 ^ i) ltac:(lia)) as D2. pose proof (Z.mod_pos_bound l (2 ^ i) Pi) as B2. set (a := l / 2 ^ i) in *. set (b := l mod 2 ^ i) in *. clearbody a b.
      assert (Ea : a = 2 ^ j - 1). { clear F C Cl. assert (2 ^ j - 1 <= a) by nia. assert (a < 2 ^ j) by (rewrite Eij in Bm; nia). lia. }
      assert (Pb : 0 < b) by (rewrite D2, Ea in Ll; clear - Ll; lia).
      assert (C2 : card l = j + card b). { rewrite D2, Ea, card_cat, card_full by lia. reflexivity. }
      pose proof (card_pos b Pb). clear - C C2 F H. lia.
    + rewrite card_odd in C by lia. assert (Ll : l < 2 ^ (j - 1) - 1) by (clearbody m; lia).
      destruct (card_le (j - 1) ltac:(lia) l) as (A & B); [lia|]. assert (card l <> j - 1) by (intros G; apply B in G; lia). clear - C F A H. lia.
Qed.
Section W.
  Variable W : Z.
  Hypothesis HW : 3 <= W.
  Lemma gosper_val i j h k : 0 <= i -> 1 <= j -> 0 <= h -> 0 < k ->
    let t := 2 ^ i * (2 ^ (j + 1) * h + 2 ^ j - 1) in t < 2 ^ (W - 1) -> i <= W - 3 ->
    ksub_next W k t = Ok (2 ^ (i + j) * (2 * h + 1) + (2 ^ (j - 1) - 1)).
  Proof.
    intros Hi Hj Hh Hk t Lt Li. unfold ksub_next. destruct (Z.eqb_spec k 0); [lia|]. cbv zeta.
    pose proof (p2 i Hi) as Pi. pose proof (p2 (j - 1) ltac:(lia)) as Pj1. assert (Ej : 2 ^ j = 2 * 2 ^ (j - 1)) by (rewrite <- Z.pow_succ_r by lia; f_equal; lia).
    assert (Eij : 2 ^ (i + j) = 2 ^ i * 2 ^ j) by (apply Z.pow_add_r; lia). assert (Ej1 : 2 ^ (j + 1) = 2 * 2 ^ j) by (rewrite <- Z.pow_succ_r by lia; f_equal; lia).
    assert (Ew : 2 ^ W = 2 * 2 ^ (W - 1)) by (rewrite <- Z.pow_succ_r by lia; f_equal; lia).
    set (q := 2 ^ j * h + 2 ^ (j - 1) - 1). assert (Hq : 0 <= q) by (unfold q; rewrite Ej; nia).
    assert (Et : t = 2 ^ i * (2 * q + 1)) by (unfold t, q; rewrite Ej1, Ej; ring).
    assert (Pt : 0 < t) by (rewrite Et; apply Z.mul_pos_pos; lia).
    assert (Ct : ctz t = i) by (rewrite Et; apply ctz_unique; auto).
    rewrite lowbit_ctz by auto. rewrite Ct.
    assert (Lb : 2 ^ i <= t) by (rewrite Et; nia).
    assert (Ey : uw W (t + 2 ^ i) = 2 ^ (i + j) * (2 * h + 1)). { unfold uw. rewrite Z.mod_small by lia. rewrite Et, Eij. unfold q. rewrite Ej. ring. }
    rewrite Ey.
    assert (Etz : tzcnt W (uw W (4 * t)) = i + 2).
    { unfold uw. assert (Ew2 : 2 ^ W = 2 ^ (i + 2) * 2 ^ (W - 2 - i)) by (rewrite <- Z.pow_add_r by lia; f_equal; lia).
      assert (E4 : 4 * t = 2 ^ (i + 2) * (2 * q + 1)) by (rewrite Et, Z.pow_add_r by lia; change (2 ^ 2) with 4; ring).
      rewrite E4, Ew2, Z.mul_mod_distr_l by (pose proof (p2 (i + 2)); pose proof (p2 (W - 2 - i)); lia).
      assert (Ee : 2 ^ (W - 2 - i) = 2 * 2 ^ (W - 3 - i)) by (rewrite <- Z.pow_succ_r by lia; f_equal; lia).
      pose proof (p2 (W - 3 - i) ltac:(lia)) as Pe.
      assert (Eo : (2 * q + 1) mod 2 ^ (W - 2 - i) = 2 * (q mod 2 ^ (W - 3 - i)) + 1).
      { rewrite Ee. symmetry. pose proof (Z.mod_pos_bound q _ Pe). apply Z.mod_unique with (q / 2 ^ (W - 3 - i)); [left; lia|]. pose proof (Z.div_mod q (2 ^ (W - 3 - i)) ltac:(lia)) as Dq. rewrite Dq at 1. ring. }
      rewrite Eo. pose proof (Z.mod_pos_bound q _ Pe). unfold tzcnt.
      destruct (Z.eqb_spec (2 ^ (i + 2) * (2 * (q mod 2 ^ (W - 3 - i)) + 1)) 0) as [F|F]; [exfalso; apply Z.mul_eq_0 in F; pose proof (p2 (i + 2)); lia|]. apply ctz_unique; lia. }
    rewrite Etz. destruct (Z.leb_spec W (i + 2)); [lia|]. f_equal.
    assert (Ex : Z.lxor (2 ^ (i + j) * (2 * h + 1)) t = 2 ^ i * (2 ^ (j + 1) - 1)).
    { replace (2 ^ (i + j) * (2 * h + 1)) with (2 ^ i * (2 ^ (j + 1) * h + 2 ^ j)) by (rewrite Eij, Ej1; ring). unfold t. rewrite lxor_shift by auto. rewrite lxor_carry by lia. reflexivity. }
    rewrite Ex, Z.shiftr_div_pow2 by lia. assert (Ed : 2 ^ i * (2 ^ (j + 1) - 1) / 2 ^ (i + 2) = 2 ^ (j - 1) - 1).
    { rewrite (Z.pow_add_r 2 i 2) by lia. rewrite Z.div_mul_cancel_l by lia. change (2 ^ 2) with 4. symmetry. apply Z.div_unique with 3; lia. }
    rewrite Ed. apply lor_cat; [lia|]. rewrite Eij. nia.
  Qed.
  Lemma next_ok k t c : 0 <= k -> 0 <= t -> c <= W - 1 -> 0 <= c -> t < 2 ^ c -> card t = k -> (k <> 1 \/ c < W - 1) ->
    exists t', ksub_next W k t = Ok t' /\ t < t' /\ (t' < 2 ^ c -> card t' = k) /\ forall x, t < x < t' -> x < 2 ^ c -> card x <> k.
  Proof.
    intros Hk Ht Hc Hc0 Lt Ck Ex. assert (Pw : 2 ^ c <= 2 ^ (W - 1)) by (apply Z.pow_le_mono_r; lia). assert (Ew : 2 ^ W = 2 * 2 ^ (W - 1)) by (rewrite <- Z.pow_succ_r by lia; f_equal; lia). pose proof (p2 (W - 1) ltac:(lia)) as Pp.
    destruct (Z.eq_dec t 0) as [->|Nt].
    { rewrite card0 in Ck. subst k. exists (2 ^ W - 1). split; [reflexivity|]. split; [|split].
      - assert (P4 : 2 ^ 2 <= 2 ^ (W - 1)) by (apply Z.pow_le_mono_r; lia). change (2 ^ 2) with 4 in P4. lia.
      - lia.
      - intros x Hx _ F. pose proof (card_pos x ltac:(lia)). lia. }
    assert (K1 : 0 < k) by (pose proof (card_pos t ltac:(lia)); lia).
    destruct (parts t ltac:(lia)) as (i & j & h & Hi & Hj & Hh & Ei & Et).
    assert (Li : i <= W - 3).
    { pose proof (p2 i Hi) as Pi. destruct (ctz_decomp t ltac:(lia)) as (q & Hq & Eq). rewrite <- Ei in Eq.
      destruct (Z.le_gt_cases i (W - 3)) as [|G]; auto. exfalso. destruct (Z.eq_dec i (W - 2)) as [Ei2|].
      - assert (Ew2 : 2 ^ (W - 1) = 2 * 2 ^ i) by (rewrite Ei2, <- Z.pow_succ_r by lia; f_equal; lia). assert (q = 0) by nia. subst q. rewrite Z.mul_1_r in Eq.
        destruct Ex as [Ex|Ex].
        + apply Ex. rewrite <- Ck, Eq. replace (2 ^ i) with (2 ^ i * 1 + 0) by ring. rewrite card_cat by lia. reflexivity.
        + assert (P3 : 2 ^ c <= 2 ^ (W - 2)) by (apply Z.pow_le_mono_r; lia). rewrite <- Ei2 in P3. lia.
      - assert (P3 : 2 ^ (W - 1) <= 2 ^ i) by (apply Z.pow_le_mono_r; lia). nia. }
    pose proof (gosper_card i j h Hi Hj Hh) as (C1 & C2 & L & Nx). rewrite <- Et in *.
    exists (2 ^ (i + j) * (2 * h + 1) + (2 ^ (j - 1) - 1)). split.
    - rewrite Et. apply gosper_val; auto. rewrite <- Et. lia.
    - split; auto. split; [intros _; lia|]. intros x Hx _. specialize (Nx x Hx). lia.
  Qed.
End W.
(* PDEP *)
Lemma pdep_even t s : pdep t (2 * s) = 2 * pdep t s. Proof. destruct s; reflexivity. Qed.
Lemma pdep_odd t s : 0 <= s -> pdep t (2 * s + 1) = 2 * pdep (t / 2) s + t mod 2. Proof. destruct s; intros; [|reflexivity|lia]. cbn [pdep Z.mul Z.add pdep_pos]. reflexivity. Qed.
Lemma card_pow s : 0 <= s -> 2 ^ card (2 * s + 1) = 2 * 2 ^ card s.
Proof. intros H. rewrite card_odd by auto. rewrite Z.add_comm. change (card s + 1) with (Z.succ (card s)). apply Z.pow_succ_r. apply card_nonneg. Qed.
Lemma pdep_ok s : 0 <= s -> forall t, 0 <= t < 2 ^ card s -> subset (pdep t s) s /\ card (pdep t s) = card t.
Proof.
  revert s. apply (bin_ind (fun s => forall t, 0 <= t < 2 ^ card s -> subset (pdep t s) s /\ card (pdep t s) = card t)).
  - intros t Ht. rewrite card0, Z.pow_0_r in Ht. replace t with 0 by lia. split; [split; [cbn; lia|reflexivity]|reflexivity].
  - intros s Hs IH t Ht. rewrite card_even in Ht. destruct (IH t Ht) as (A & B). rewrite pdep_even, card_even. split; auto. replace (2 * pdep t s) with (2 * pdep t s + 0) by ring. replace (2 * s) with (2 * s + 0) by ring. apply subset2; [lia|lia|]. split; auto. lia.
  - intros s Hs IH t Ht. rewrite card_pow in Ht by auto. rewrite pdep_odd by auto. destruct (split2 t) as (q & b & E & Hb & Eq & Eb). rewrite <- Eq, <- Eb. destruct (IH q) as (A & B); [lia|]. split.
    + apply subset2; [lia|lia|]. split; auto. lia.
    + rewrite card_b by (auto; apply A). rewrite B. rewrite E. rewrite card_b by lia. reflexivity.
Qed.
Lemma pdep_mono s : 0 <= s -> forall t t', 0 <= t < t' -> t' < 2 ^ card s -> pdep t s < pdep t' s.
Proof.
  revert s. apply (bin_ind (fun s => forall t t', 0 <= t < t' -> t' < 2 ^ card s -> pdep t s < pdep t' s)).
  - intros t t' H1 H2. rewrite card0, Z.pow_0_r in H2. lia.
  - intros s Hs IH t t' H1 H2. rewrite card_even in H2. rewrite !pdep_even. specialize (IH t t' H1 H2). lia.
  - intros s Hs IH t t' H1 H2. rewrite card_pow in H2 by auto. rewrite !pdep_odd by auto. destruct (split2 t) as (q & b & E & Hb & Eq & Eb). destruct (split2 t') as (q' & b' & E' & Hb' & Eq' & Eb'). rewrite <- Eq, <- Eb, <- Eq', <- Eb'.
    destruct (Z.eq_dec q q') as [->|N]; [lia|]. assert (pdep q s < pdep q' s) by (apply IH; lia). lia.
Qed.
Lemma pdep_surj s : 0 <= s -> forall x, subset x s -> exists t, 0 <= t < 2 ^ card s /\ pdep t s = x.
Proof.
  revert s. apply (bin_ind (fun s => forall x, subset x s -> exists t, 0 <= t < 2 ^ card s /\ pdep t s = x)).
  - intros x (_ & B). rewrite Z.land_0_r in B. exists 0. split; [rewrite card0; cbn; lia|]. subst. reflexivity.
  - intros s Hs IH x H. destruct (split2 x) as (q & b & -> & Hb & _ & _). replace (2 * s) with (2 * s + 0) in H by ring. apply subset2 in H; [|lia|lia]. destruct H as (A & B). destruct (IH q A) as (t & Ht & E). exists t. rewrite card_even, pdep_even. split; auto. lia.
  - intros s Hs IH x H. destruct (split2 x) as (q & b & -> & Hb & _ & _). apply subset2 in H; [|lia|lia]. destruct H as (A & B). destruct (IH q A) as (t & Ht & E). exists (2 * t + b). rewrite card_pow, pdep_odd by auto. split; [lia|].
    replace ((2 * t + b) / 2) with t by (apply Z.div_unique with b; lia). replace ((2 * t + b) mod 2) with b by (apply Z.mod_unique with t; lia). lia.
Qed.
Lemma subset_k_ok W s k : 3 <= W -> 0 <= s < 2 ^ W - 1 -> 0 <= k < W -> k <> 1 \/ card s < W - 1 ->
  exists l, all_subset_k W s k = Ok l /\ StronglySorted Z.lt l /\ forall x, In x l <-> subset x s /\ card x = k.
Proof.
  intros HW Hs Hk Ex. unfold all_subset_k. destruct (Z.eqb_spec s (2 ^ W - 1)) as [F0|F0]; [lia|]. cbn [negb assert_ bind].
  destruct (card_le W ltac:(lia) s) as (A & B); [lia|]. assert (Cs : card s <= W - 1) by (destruct (Z.eq_dec (card s) W) as [F|]; [apply B in F|]; lia). pose proof (card_nonneg s) as C0.
  destruct (Z.leb_spec W (card s)); [lia|]. destruct (Z.leb_spec W k); [lia|]. cbn [orb]. cbv zeta. pose proof (p2 k ltac:(lia)) as Pk.
  set (n := 2 ^ card s). assert (Pn : 0 < n) by (apply p2; auto).
  match goal with |- context [loop _ ?b ?s0] => destruct (loop_inv (fun '(t, out) => 0 <= t /\ (t < n -> card t = k) /\ StronglySorted Z.lt out /\ (forall z, In z out <-> exists x, 0 <= x < n /\ x < t /\ card x = k /\ z = pdep x s)) (fun '(t, out) => Z.to_nat (n - t))
    (fun l => StronglySorted Z.lt l /\ forall x, In x l <-> subset x s /\ card x = k) b (Z.to_nat n + 1) s0) as (l & E & S & I) end.
  - split; [lia|]. split; [intros _; apply card_full; lia|]. split; [constructor|]. intros z. split; [intros []|]. intros (x & Hx & Lx & Cx & _). exfalso. destruct (card_le k ltac:(lia) x) as (D1 & D2); [lia|]. apply D2 in Cx. lia.
  - lia.
  - intros [t out] (Ht & Ct & S & I). destruct (Z.ltb_spec t n) as [L|L].
    + destruct (next_ok W HW k t (card s) ltac:(lia) Ht Cs C0 L (Ct L) Ex) as (t' & E' & Lt & Ct' & Nx). rewrite E'. cbn [bind]. eexists; split; [reflexivity|]. split; [|lia]. split; [lia|]. split; [exact Ct'|]. split.
      * apply sorted_snoc'; auto. intros y Hy. apply I in Hy. destruct Hy as (x & Hx & Lx & Cx & ->). apply pdep_mono; unfold n in *; lia.
      * intros z. rewrite in_app_iff, I. cbn [In]. split.
        -- intros [(x & Hx & Lx & Cx & ->)|[<-|[]]]; [exists x; repeat split; auto; lia|]. exists t. repeat split; auto; lia.
        -- intros (x & Hx & Lx & Cx & ->). destruct (Z.lt_trichotomy x t) as [K|[->|K]]; [left; exists x; auto|auto|]. exfalso. apply (Nx x); auto. unfold n in Hx. lia.
    + eexists; split; [reflexivity|]. split; auto. intros z. rewrite I. split.
      * intros (x & Hx & _ & Cx & ->). destruct (pdep_ok s ltac:(lia) x Hx) as (P1 & P2). split; auto. lia.
      * intros (Sz & Cz). destruct (pdep_surj s ltac:(lia) z Sz) as (x & Hx & <-). exists x. fold n in Hx. split; auto. split; [lia|]. split; auto. destruct (pdep_ok s ltac:(lia) x Hx) as (P1 & P2). lia.
  - exists l. auto.
Qed.
