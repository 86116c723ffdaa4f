From Verif Require Import Base BaseLemmas ListZ Seq Hist Sorting Compress_model Compress_proof SegTree_model SegTree_proof LiChao_model LiChao_spec.

Definition val (f : line) (x : Z) : Z := if line_eqb f line_e then tmax else fst f * x + snd f.
Definition okl (f : line) (x : Z) : Prop :=
  line_eqb f line_e = true \/ (line_eqb f line_e = false /\ - 2 ^ 63 <= fst f * x < 2 ^ 63 /\ - 2 ^ 63 <= fst f * x + snd f < tmax).
Lemma eval_ok f x : okl f x -> lc_eval f x = Ok (val f x).
Proof.
  unfold lc_eval, val. intros [H|(H & A & B)]; rewrite H; auto. unfold i64, tmax in *. replace (_ && _) with true by lia. cbn [bind].
  replace (_ && _) with true by lia. auto.
Qed.
Lemma val_le f x : okl f x -> val f x <= tmax.
Proof. unfold val. intros [H|(H & A & B)]; rewrite H; lia. Qed.
Lemma val_max f x : okl f x -> (val f x =? tmax) = line_eqb f line_e.
Proof. unfold val. intros [H|(H & A & B)]; rewrite H; [apply Z.eqb_refl|]. lia. Qed.
Lemma dom_up f g x y z : okl f x -> okl f y -> okl g x -> okl g y -> okl f z -> okl g z ->
  (x <= y <= z \/ z <= y <= x) -> val g y <= val f y -> val f x < val g x -> val g z <= val f z.
Proof.
  intros F1 F2 G1 G2 F3 G3 O A B. pose proof (val_le _ _ G1). pose proof (val_max _ _ F1). pose proof (val_max _ _ F2). pose proof (val_max _ _ G2). pose proof (val_le _ _ F2).
  destruct (line_eqb f line_e) eqn:Ef; [lia|]. destruct (line_eqb g line_e) eqn:Eg; [lia|]. unfold val in *. rewrite Ef, Eg in *. clear - O A B.
  destruct f as [a b], g as [c d]; cbn [fst snd] in *. assert (C : 0 < (a - c) * (y - x)) by lia. destruct O.
  - assert (0 < a - c) by nia. assert (0 <= (a - c) * (z - y)) by nia. lia.
  - assert (a - c < 0) by nia. assert (0 <= (a - c) * (z - y)) by nia. lia.
Qed.
Lemma dom_mid f g x y z : okl f x -> okl f y -> okl g x -> okl g y -> okl f z -> okl g z ->
  x <= z <= y -> val g x <= val f x -> val g y <= val f y -> val g z <= val f z.
Proof.
  intros F1 F2 G1 G2 F3 G3 O A B. pose proof (val_max _ _ F1). pose proof (val_max _ _ G1). pose proof (val_le _ _ F1). pose proof (val_le _ _ G3). pose proof (val_max _ _ F3).
  destruct (line_eqb f line_e) eqn:Ef; [lia|]. destruct (line_eqb g line_e) eqn:Eg; [lia|]. unfold val in *. rewrite Ef, Eg in *. clear - O A B.
  destruct f as [a b], g as [c d]; cbn [fst snd] in *. destruct (Z.le_gt_cases c a).
  - assert (0 <= (a - c) * (z - x)) by nia. lia.
  - assert (0 <= (c - a) * (y - z)) by nia. lia.
Qed.

(* ---- the least value on the way up ------------------------------------------------- *)
Fixpoint bestn (n : nat) (g : Z -> line) (x k : Z) : Z :=
  match n with O => tmax | S n => Z.min (val (g k) x) (bestn n g x (k / 2)) end.
Lemma bestn_le n g x : forall k, bestn n g x k <= tmax.
Proof. induction n as [|n IH]; intro k; cbn [bestn]; [lia|]. specialize (IH (k / 2)). lia. Qed.
Lemma half_pow q j : 0 <= j -> q / 2 ^ (j + 1) = q / 2 / 2 ^ j.
Proof. intro H. rewrite Z.pow_add_r by lia. rewrite Z.mul_comm. change (2 ^ 1) with 2. rewrite Z.div_div by lia. auto. Qed.
Lemma pow_half q j : 0 <= j -> q / 2 ^ j / 2 = q / 2 ^ (j + 1).
Proof. intro H. rewrite Z.pow_add_r by lia. change (2 ^ 1) with 2. rewrite Z.div_div by (try lia; apply Z.pow_nonzero; lia). auto. Qed.
Lemma bestn_out n g x k L : forall q, (forall j, 0 <= j < Z.of_nat n -> q / 2 ^ j <> k) -> bestn n (fupd g k L) x q = bestn n g x q.
Proof.
  induction n as [|n IH]; intros q H; cbn [bestn]; auto. rewrite IH.
  - rewrite fupd_diff; auto. specialize (H 0 ltac:(lia)). now rewrite Z.div_1_r in H.
  - intros j Hj. rewrite <- half_pow by lia. apply H. lia.
Qed.
Lemma bestn_in n g x k : 0 < k -> forall q j, 0 <= j < Z.of_nat n -> q / 2 ^ j = k -> exists R, forall L, bestn n (fupd g k L) x q = Z.min R (val L x).
Proof.
  intro Hk. induction n as [|n IH]; intros q j Hj E; [lia|]. cbn [bestn]. destruct (Z.eq_dec q k) as [->|N].
  - exists (bestn n g x (k / 2)). intro L. rewrite fupd_same. rewrite bestn_out; [lia|]. intros i Hi. pose proof (Z.pow_pos_nonneg 2 i ltac:(lia) ltac:(lia)).
    assert (k / 2 / 2 ^ i <= k / 2) by (apply Z.div_le_upper_bound; nia). assert (k / 2 < k) by (apply Z.div_lt; lia). lia.
  - assert (0 < j). { destruct (Z.eq_dec j 0) as [->|]; [|lia]. rewrite Z.div_1_r in E. lia. }
    destruct (IH (q / 2) (j - 1) ltac:(lia)) as [R HR]. { rewrite <- half_pow by lia. replace (j - 1 + 1) with j by lia. auto. }
    exists (Z.min (val (g q) x) R). intro L. rewrite HR, fupd_diff by auto. lia.
Qed.
Lemma bestn_ext n g g' x : (forall k, g k = g' k) -> forall q, bestn n g x q = bestn n g' x q.
Proof. intro H. induction n as [|n IH]; intro q; cbn [bestn]; auto. now rewrite H, IH. Qed.
Lemma fupd_id {A} (g : Z -> A) k j : fupd g k (g k) j = g j.
Proof. unfold fupd. destruct (j =? k) eqn:B; auto. assert (j = k) by lia. now subst. Qed.

Section LCP.
  Variables (P : list Z) (px : Z -> Z) (h : Z).
  Hypothesis Hh : 0 <= h.
  Notation m := (2 ^ h).
  Hypothesis HP : rep P m px.
  Hypothesis Hmono : forall p q, 0 <= p <= q -> q < m -> px p <= px q.

  Definition best (g : Z -> line) (p : Z) : Z := bestn (S (Z.to_nat h)) g (px p) (p + m).
  Definition VL (g : Z -> line) : Prop := forall p j, 0 <= p < m -> 0 <= j <= h -> okl (g ((p + m) / 2 ^ j)) (px p).
  Lemma pm : 0 < m. Proof. apply Z.pow_pos_nonneg; lia. Qed.

  Lemma best_in g k j p : 0 < k -> 0 <= j <= h -> (p + m) / 2 ^ j = k -> exists R, (forall L, best (fupd g k L) p = Z.min R (val L (px p))) /\ best g p = Z.min R (val (g k) (px p)).
  Proof.
    intros Hk Hj E. destruct (bestn_in (S (Z.to_nat h)) g (px p) k Hk (p + m) j ltac:(lia) E) as [R HR]. exists R. split; [exact HR|].
    unfold best. rewrite <- HR. apply bestn_ext. intro i. symmetry. apply fupd_id.
  Qed.
  Lemma level_uniq q j i k : 0 <= j <= h -> 0 <= i <= h -> m <= q < 2 * m -> 2 ^ (h - j) <= k < 2 * 2 ^ (h - j) -> q / 2 ^ i = k -> i = j.
  Proof.
    intros Hj Hi Hq Hk E.
    assert (B : 2 ^ (h - i) <= q / 2 ^ i < 2 * 2 ^ (h - i)).
    { assert (Em : m = 2 ^ (h - i) * 2 ^ i) by (rewrite <- Z.pow_add_r by lia; f_equal; lia). pose proof (Z.pow_pos_nonneg 2 i ltac:(lia) ltac:(lia)). split.
      - apply Z.div_le_lower_bound; lia.
      - apply Z.div_lt_upper_bound; lia. }
    rewrite E in B. destruct (Z.lt_trichotomy i j) as [C|[C|C]]; auto; exfalso.
    - assert (2 ^ (h - j + 1) <= 2 ^ (h - i)) by (apply Z.pow_le_mono_r; lia). rewrite Z.pow_add_r in H by lia. change (2 ^ 1) with 2 in H. lia.
    - assert (2 ^ (h - i + 1) <= 2 ^ (h - j)) by (apply Z.pow_le_mono_r; lia). rewrite Z.pow_add_r in H by lia. change (2 ^ 1) with 2 in H. lia.
  Qed.
  Lemma best_out g k j p L : 0 <= j <= h -> 2 ^ (h - j) <= k < 2 * 2 ^ (h - j) -> 0 <= p < m -> (p + m) / 2 ^ j <> k -> best (fupd g k L) p = best g p.
  Proof.
    intros Hj Hk Hp E. apply bestn_out. intros i Hi Q. assert (i = j) by (eapply (level_uniq (p + m)); eauto; lia). subst i. auto.
  Qed.
  Lemma VL_upd g k j f : 0 <= j <= h -> 2 ^ (h - j) <= k < 2 * 2 ^ (h - j) -> VL g -> (forall p, 0 <= p < m -> (p + m) / 2 ^ j = k -> okl f (px p)) -> VL (fupd g k f).
  Proof.
    intros Hj Hk V F p i Hp Hi. unfold fupd. destruct ((p + m) / 2 ^ i =? k) eqn:B; [|apply V; auto]. apply F; auto.
    assert (i = j) by (eapply (level_uniq (p + m)); eauto; lia). subst i. lia.
  Qed.
  Lemma under q j k : 0 <= j -> (q / 2 ^ j = k <-> k * 2 ^ j <= q < (k + 1) * 2 ^ j).
  Proof.
    intro Hj. pose proof (Z.pow_pos_nonneg 2 j ltac:(lia) Hj). pose proof (Z.div_mod q (2 ^ j) ltac:(lia)). pose proof (Z.mod_pos_bound q (2 ^ j) ltac:(lia)). split.
    - intros <-. nia.
    - intros [A B]. symmetry. apply Z.div_unique with (q - k * 2 ^ j); lia.
  Qed.

  Lemma insert_ok : forall (jn : nat) j seg g k f, j = Z.of_nat jn -> j <= h -> 2 ^ (h - j) <= k < 2 * 2 ^ (h - j) -> rep seg (2 * m) g -> VL g ->
    (forall p, 0 <= p < m -> (p + m) / 2 ^ j = k -> okl f (px p)) -> forall fuel, (jn < fuel)%nat ->
    exists seg' g', loop fuel (lc_body P) (seg, k, k * 2 ^ j - m, (k + 1) * 2 ^ j - m, 2 ^ j, f) = Ok seg' /\ rep seg' (2 * m) g' /\ VL g' /\
      forall p, 0 <= p < m -> best g' p = if (p + m) / 2 ^ j =? k then Z.min (best g p) (val f (px p)) else best g p.
  Proof.
    induction jn as [|jn IH]; intros j seg g k f Ej Hj Hk Hr V F fuel HF; destruct fuel as [|fuel]; try lia; cbn [loop]; unfold lc_body at 1;
      pose proof (Z.pow_pos_nonneg 2 j ltac:(lia) ltac:(lia)) as Pj; pose proof (Z.pow_pos_nonneg 2 (h - j) ltac:(lia) ltac:(lia)) as Phj; pose proof pm as Pm;
      assert (Em : m = 2 ^ (h - j) * 2 ^ j) by (rewrite <- Z.pow_add_r by lia; f_equal; lia);
      replace (2 ^ j =? 0) with false by lia;
      set (l := k * 2 ^ j - m); set (r := (k + 1) * 2 ^ j - m);
      assert (El : l = k * 2 ^ j - m) by reflexivity; assert (Er : r = (k + 1) * 2 ^ j - m) by reflexivity; clearbody l r;
      assert (Hl : 0 <= l) by (rewrite El; nia); assert (Hrm : r <= m) by (rewrite Er; nia); assert (Hlr : r = l + 2 ^ j) by (rewrite El, Er; ring);
      assert (Hk2 : 0 <= k < 2 * m) by nia; assert (Hk0 : 0 < k) by (clear - Hk Phj; lia); assert (Hj2 : 0 <= j <= h) by (clear - Ej Hj; lia); clear Em;
      set (mid := (l + r) / 2); assert (Emid0 : mid = (l + r) / 2) by reflexivity; clearbody mid.
    all: assert (Hmid : l <= mid < r) by (rewrite Emid0; clear - Hlr Pj; split; [apply Z.div_le_lower_bound; lia|apply Z.div_lt_upper_bound; lia]).
    all: assert (Rl : 0 <= l < m) by (clear - Hl Hrm Hlr Pj; lia); assert (Rm : 0 <= mid < m) by (clear - Hl Hrm Hmid; lia); assert (Rr : 0 <= r - 1 < m) by (clear - Hl Hrm Hlr Pj; lia).
    all: rewrite (rep_get seg (2 * m) g k) by auto; cbn [bind];
      rewrite (rep_get P m px l) by auto; cbn [bind]; rewrite (rep_get P m px mid) by auto; cbn [bind]; rewrite (rep_get P m px (r - 1)) by auto; cbn [bind].
    all: assert (U0 : forall p, (p + m) / 2 ^ j = k <-> l <= p < r) by (intro p; rewrite under by (clear - Ej; lia); clear - El Er; lia).
    all: assert (IN : forall p, l <= p < r -> (p + m) / 2 ^ j = k) by (intros p Hp; now apply U0).
    all: assert (GI : forall p, l <= p < r -> okl (g k) (px p)) by (intros p Hp; rewrite <- (IN p Hp) at 1; apply V; [clear - Hp Hl Hrm; lia|exact Hj2]).
    all: assert (FI : forall p, l <= p < r -> okl f (px p)) by (intros p Hp; apply F; [clear - Hp Hl Hrm; lia|auto]).
    all: assert (Al : l <= l < r) by (clear - Hmid; lia); assert (Ar : l <= r - 1 < r) by (clear - Hmid; lia);
      rewrite !eval_ok by (first [apply FI; assumption|apply GI; assumption]); cbn [bind].
    (* after the exchange: f' is pending, g' is stored *)
    all: assert (G : exists seg1 f1 g1, (if val f (px mid) <? val (g k) (px mid) then let* seg := vset seg k f in Ok (seg, g k, val (g k) (px l), val (g k) (px (r - 1)), val f (px l), val f (px (r - 1)))
        else Ok (seg, f, val f (px l), val f (px (r - 1)), val (g k) (px l), val (g k) (px (r - 1)))) =
          Ok (seg1, f1, val f1 (px l), val f1 (px (r - 1)), val (g1 k) (px l), val (g1 k) (px (r - 1))) /\ rep seg1 (2 * m) g1 /\ VL g1 /\
        (forall p, l <= p < r -> okl f1 (px p)) /\ val (g1 k) (px mid) <= val f1 (px mid) /\
        (forall p, 0 <= p < m -> if (p + m) / 2 ^ j =? k then Z.min (best g1 p) (val f1 (px p)) = Z.min (best g p) (val f (px p)) else best g1 p = best g p)).
    { destruct (val f (px mid) <? val (g k) (px mid)) eqn:B.
      - rewrite (rep_set seg (2 * m) g k f) by auto. cbn [bind]. exists (zupd seg k f), (g k), (fupd g k f). rewrite fupd_same. split; auto. split; [now apply rep_upd|].
        split; [now apply VL_upd with j|]. split; auto. split; [clear - B; lia|]. intros p Hp. destruct ((p + m) / 2 ^ j =? k) eqn:Q.
        + destruct (best_in g k j p Hk0 Hj2 (proj1 (Z.eqb_eq _ _) Q)) as (R & R1 & R2). rewrite R1, R2. clear. lia.
        + apply best_out with j; auto. now apply Z.eqb_neq.
      - exists seg, f, g. split; auto. split; auto. split; auto. split; auto. split; [clear - B; lia|]. intros p Hp. destruct ((p + m) / 2 ^ j =? k); auto. }
    2:{ destruct (val f (px mid) <? val (g k) (px mid)) eqn:B.
      - rewrite (rep_set seg (2 * m) g k f) by auto. cbn [bind]. exists (zupd seg k f), (g k), (fupd g k f). rewrite fupd_same. split; auto. split; [now apply rep_upd|].
        split; [now apply VL_upd with j|]. split; auto. split; [clear - B; lia|]. intros p Hp. destruct ((p + m) / 2 ^ j =? k) eqn:Q.
        + destruct (best_in g k j p Hk0 Hj2 (proj1 (Z.eqb_eq _ _) Q)) as (R & R1 & R2). rewrite R1, R2. clear. lia.
        + apply best_out with j; auto. now apply Z.eqb_neq.
      - exists seg, f, g. split; auto. split; auto. split; auto. split; auto. split; [clear - B; lia|]. intros p Hp. destruct ((p + m) / 2 ^ j =? k); auto. }
    all: destruct G as (seg1 & f1 & g1 & E1 & Hr1 & V1 & F1 & D1 & Q1); rewrite E1; cbn [bind]; cbv zeta; clear E1.
    all: assert (G1I : forall p, l <= p < r -> okl (g1 k) (px p)) by (intros p Hp; rewrite <- (IN p Hp) at 1; apply V1; [clear - Hp Hl Hrm; lia|exact Hj2]).
    all: assert (Done : forall g', (forall p, 0 <= p < m -> best g' p = if (p + m) / 2 ^ j =? k then Z.min (best g1 p) (val f1 (px p)) else best g1 p) ->
        forall p, 0 <= p < m -> best g' p = if (p + m) / 2 ^ j =? k then Z.min (best g p) (val f (px p)) else best g p)
      by (intros g' Hg' p Hp; rewrite Hg' by auto; specialize (Q1 p Hp); destruct ((p + m) / 2 ^ j =? k); auto).
    (* a dominated pending line changes nothing *)
    all: assert (Dom : forall p, l <= p < r -> val (g1 k) (px p) <= val f1 (px p) -> best g1 p = Z.min (best g1 p) (val f1 (px p)))
      by (intros p Hp Hd; destruct (best_in g1 k j p Hk0 Hj2 (IN p Hp)) as (R & _ & R2); clear - R2 Hd; lia).
    - subst j. change (2 ^ Z.of_nat 0) with 1 in *. assert (mid = l /\ r - 1 = l) as [Em' Er'] by lia. rewrite Er'. rewrite Em' in D1.
      replace (val f1 (px l) <? val (g1 k) (px l)) with false by lia. exists seg1, g1. split; auto. split; auto. split; auto. apply Done. intros p Hp.
      destruct ((p + m) / 1 =? k) eqn:Q; auto. rewrite Z.div_1_r in Q. assert (p = l) by (clear - Q El; lia). subst p. apply Dom; auto.
    - assert (E2 : 2 ^ j = 2 * 2 ^ (j - 1)) by (rewrite <- Z.pow_succ_r by (clear - Ej; lia); f_equal; lia). set (w := 2 ^ (j - 1)) in *.
      assert (Ew : 2 ^ j / 2 = w) by (rewrite E2, Z.mul_comm, Z.div_mul by lia; auto). rewrite Ew.
      assert (Emid : mid = l + w) by (rewrite Emid0, Hlr, E2; replace (l + (l + 2 * w)) with ((l + w) * 2) by ring; apply Z.div_mul; lia).
      assert (Pw : 0 < w) by (clear - E2 Pj; lia).
      assert (E3 : 2 ^ (h - (j - 1)) = 2 * 2 ^ (h - j)) by (rewrite <- Z.pow_succ_r by (clear - Hj; lia); f_equal; clear; lia).
      assert (U1 : forall p, (p + m) / w = 2 * k <-> l <= p < l + w).
      { intro p. unfold w. rewrite under by (clear - Ej; lia). fold w. clear - E2 El. nia. }
      assert (U2 : forall p, (p + m) / w = 2 * k + 1 <-> l + w <= p < r).
      { intro p. unfold w. rewrite under by (clear - Ej; lia). fold w. clear - E2 El Er. nia. }
      assert (Half : forall p, (p + m) / 2 ^ j = (p + m) / 2 ^ (j - 1) / 2) by (intro p; fold w; rewrite E2, Z.div_div by (clear - Pw; lia); f_equal; apply Z.mul_comm).
      destruct (val f1 (px l) <? val (g1 k) (px l)) eqn:BL; [|destruct (val f1 (px (r - 1)) <? val (g1 k) (px (r - 1))) eqn:BR].
      + replace (r - w) with ((2 * k + 1) * w - m) by (clear - Er E2; nia). assert (El2 : l = 2 * k * w - m) by (clear - El E2; nia). rewrite El2.
        destruct (IH (j - 1) seg1 g1 (2 * k) f1 ltac:(clear - Ej; lia) ltac:(clear - Hj; lia) ltac:(clear - Hk E3; lia) Hr1 V1) with (fuel := fuel) as (seg2 & g2 & E & R2 & V2 & B2); [|clear - HF; lia|].
        { intros p Hp Hq. apply F1. first [apply U1 in Hq|apply U2 in Hq]; clear - Hq Hlr E2 Pw; lia. }
        fold w in E, B2. cbn [bind]. rewrite E. exists seg2, g2. split; auto. split; auto. split; auto. apply Done. intros p Hp. rewrite B2 by auto. rewrite Half. fold w.
        destruct ((p + m) / w =? 2 * k) eqn:Q.
        * assert (Eq : (p + m) / w = 2 * k) by (now apply Z.eqb_eq). rewrite Eq. replace (2 * k / 2) with k by (rewrite Z.mul_comm, Z.div_mul; auto; clear; lia). now rewrite Z.eqb_refl.
        * destruct ((p + m) / w / 2 =? k) eqn:Q2; auto.
          assert (Hpr : l <= p < r). { rewrite <- Half in Q2. apply U0. clear - Q2. lia. }
          apply Dom; auto.
          assert (l + w <= p). { destruct (Z.le_gt_cases (l + w) p); auto. exfalso. assert (U : (p + m) / w = 2 * k) by (apply U1; clear - H Hpr; lia). rewrite U, Z.eqb_refl in Q. discriminate. }
          apply dom_up with (x := px l) (y := px mid); try (first [apply F1; assumption|apply G1I; assumption]); [|exact D1|now apply Z.ltb_lt].
          left. split; apply Hmono; clear - H Hpr Emid Rl Rm Rr Hmid Hrm; lia.
      + replace (l + w) with ((2 * k + 1) * w - m) by (clear - El E2; nia). assert (Er2 : r = (2 * k + 1 + 1) * w - m) by (clear - Er E2; nia). rewrite Er2.
        destruct (IH (j - 1) seg1 g1 (2 * k + 1) f1 ltac:(clear - Ej; lia) ltac:(clear - Hj; lia) ltac:(clear - Hk E3; lia) Hr1 V1) with (fuel := fuel) as (seg2 & g2 & E & R2 & V2 & B2); [|clear - HF; lia|].
        { intros p Hp Hq. apply F1. first [apply U1 in Hq|apply U2 in Hq]; clear - Hq Hlr E2 Pw; lia. }
        fold w in E, B2. cbn [bind]. rewrite E. exists seg2, g2. split; auto. split; auto. split; auto. apply Done. intros p Hp. rewrite B2 by auto. rewrite Half. fold w.
        destruct ((p + m) / w =? 2 * k + 1) eqn:Q.
        * assert (Eq : (p + m) / w = 2 * k + 1) by (now apply Z.eqb_eq). rewrite Eq. replace ((2 * k + 1) / 2) with k by (apply Z.div_unique with 1; clear; lia). now rewrite Z.eqb_refl.
        * destruct ((p + m) / w / 2 =? k) eqn:Q2; auto.
          assert (Hpr : l <= p < r). { rewrite <- Half in Q2. apply U0. clear - Q2. lia. }
          apply Dom; auto.
          assert (p < l + w). { destruct (Z.le_gt_cases (l + w) p); auto. exfalso. assert (U : (p + m) / w = 2 * k + 1) by (apply U2; clear - H Hpr; lia). rewrite U, Z.eqb_refl in Q. discriminate. }
          apply dom_up with (x := px (r - 1)) (y := px mid); try (first [apply F1; assumption|apply G1I; assumption]); [|exact D1|now apply Z.ltb_lt].
          right. split; apply Hmono; clear - H Hpr Emid Rl Rm Rr Hmid Hrm; lia.
      + cbn [bind]. exists seg1, g1. split; auto. split; auto. split; auto. apply Done. intros p Hp. destruct ((p + m) / 2 ^ j =? k) eqn:Q; auto.
        assert (Hpr : l <= p < r). { apply U0. clear - Q. lia. }
        apply Dom; auto. apply dom_mid with (x := px l) (y := px (r - 1)); try (first [apply F1; assumption|apply G1I; assumption]); [|now apply Z.ltb_ge|now apply Z.ltb_ge].
        split; apply Hmono; clear - Hpr Rl Rr; lia.
  Qed.

  Definition is (n : Z) (s : lichao) (g : Z -> line) : Prop :=
    lc_pos s = P /\ lc_n s = n /\ lc_m s = m /\ lc_log s = h /\ rep (lc_seg s) (2 * m) g /\ VL g.

  Lemma lc_insert_ok n s g j k f : is n s g -> 0 <= j <= h -> 2 ^ (h - j) <= k < 2 * 2 ^ (h - j) -> (forall p, 0 <= p < m -> (p + m) / 2 ^ j = k -> okl f (px p)) ->
    exists s' g', lc_insert s k f = Ok s' /\ is n s' g' /\
      forall p, 0 <= p < m -> best g' p = if (p + m) / 2 ^ j =? k then Z.min (best g p) (val f (px p)) else best g p.
  Proof.
    intros (I1 & I2 & I3 & I4 & I5 & I6) Hj Hk F. unfold lc_insert, lc_range, lc_floor_log2. pose proof (Z.pow_pos_nonneg 2 (h - j) ltac:(lia) ltac:(lia)).
    replace (0 <? k) with true by lia. cbn [bind]. rewrite I4, I3.
    assert (El : Z.log2 k = h - j) by (apply Z.log2_unique; [lia|]; rewrite Z.pow_succ_r by lia; lia). rewrite El. replace (h - (h - j)) with j by lia.
    replace (k * 2 ^ j - m + 2 ^ j) with ((k + 1) * 2 ^ j - m) by ring. replace ((k + 1) * 2 ^ j - m - (k * 2 ^ j - m)) with (2 ^ j) by ring.
    destruct (insert_ok (Z.to_nat j) j (lc_seg s) g k f ltac:(lia) ltac:(lia) Hk I5 I6 F (S (S (Z.to_nat (2 ^ j))))) as (seg' & g' & E & R & V & B).
    { assert (j < 2 ^ j) by (apply Z.pow_gt_lin_r; lia). lia. }
    rewrite I1, E. cbn [bind]. eexists; exists g'. split; [reflexivity|]. split; auto. unfold is; cbn. auto 10.
  Qed.

  (* ---- the walk ------------------------------------------------------------------------ *)
  Lemma even_half_le L q : Z.even L = true -> (L / 2 <= q / 2 <-> L <= q).
  Proof.
    intro E. apply Z.even_spec in E. destruct E as [c ->]. rewrite Z.mul_comm, Z.div_mul by lia.
    pose proof (Z.div_mod q 2 ltac:(lia)). pose proof (Z.mod_pos_bound q 2 ltac:(lia)). lia.
  Qed.
  Lemma walk_ok n f PL PR s0 g0 : is n s0 g0 -> 0 <= PL <= m -> 0 <= PR <= m -> (forall p, PL <= p < PR -> okl f (px p)) ->
    exists s g, loop (S (Z.to_nat (PR + m))) (lc_walk f) (PL + m, PR + m, s0) = Ok s /\ is n s g /\
      forall p, 0 <= p < m -> best g p = if (PL <=? p) && (p <? PR) then Z.min (best g0 p) (val f (px p)) else best g0 p.
  Proof.
    intros I0 HL HR HF. pose proof pm as Pm.
    set (Inv := fun st : Z * Z * lichao => let '(l, r, s) := st in exists j g, 0 <= j /\ 0 <= r /\ is n s g /\ (l < r -> j <= h /\ 2 ^ (h - j) <= l /\ r <= 2 * 2 ^ (h - j)) /\
      (forall p, 0 <= p < m -> l <= (p + m) / 2 ^ j < r -> PL <= p < PR) /\
      (forall p, 0 <= p < m -> best g p = if (PL <=? p) && (p <? PR) && negb ((l <=? (p + m) / 2 ^ j) && ((p + m) / 2 ^ j <? r)) then Z.min (best g0 p) (val f (px p)) else best g0 p)).
    destruct (loop_inv Inv (fun st => Z.to_nat (snd (fst st))) (fun s => exists g, is n s g /\
      forall p, 0 <= p < m -> best g p = if (PL <=? p) && (p <? PR) then Z.min (best g0 p) (val f (px p)) else best g0 p)
      (lc_walk f) (S (Z.to_nat (PR + m))) (PL + m, PR + m, s0)) as (s & E & g & Q).
    - exists 0, g0. split; [lia|]. split; [lia|]. split; auto. rewrite Z.sub_0_r. split; [lia|]. split.
      + intros p Hp. rewrite Z.div_1_r. lia.
      + intros p Hp. rewrite Z.div_1_r. replace (_ && negb _) with false; auto. symmetry. destruct ((PL <=? p) && (p <? PR)) eqn:B; auto. cbn [andb].
        replace (_ && _) with true by lia. auto.
    - cbn. lia.
    - intros [[l r] s] (j & g & Hj & Hr0 & I & Hb & Hc & HB). unfold lc_walk. destruct (l <? r) eqn:B.
      + destruct (Hb ltac:(lia)) as (Hjh & Hl & Hr). pose proof (Z.pow_pos_nonneg 2 (h - j) ltac:(lia) ltac:(lia)) as Pj.
        assert (S1 : exists l1 s1 g1, (if Z.odd l then let* s := lc_insert s l f in Ok (l + 1, s) else Ok (l, s)) = Ok (l1, s1) /\ is n s1 g1 /\ Z.even l1 = true /\ l <= l1 <= l + 1 /\
           (forall p, 0 <= p < m -> best g1 p = if (PL <=? p) && (p <? PR) && negb ((l1 <=? (p + m) / 2 ^ j) && ((p + m) / 2 ^ j <? r)) then Z.min (best g0 p) (val f (px p)) else best g0 p)).
        { destruct (Z.odd l) eqn:O.
          - destruct (lc_insert_ok n s g j l f I ltac:(lia) ltac:(lia)) as (s1 & g1 & E1 & I1 & B1). { intros p Hp E. apply HF, Hc; auto. lia. }
            rewrite E1. cbn [bind]. exists (l + 1), s1, g1. split; auto. split; auto. split; [rewrite Z.even_add, <- Z.negb_odd, O; auto|]. split; [lia|].
            intros p Hp. rewrite B1 by auto. rewrite HB by auto. specialize (Hc p Hp). destruct ((p + m) / 2 ^ j =? l) eqn:El.
            + specialize (Hc ltac:(lia)). replace ((PL <=? p) && (p <? PR)) with true by lia.
              replace ((l <=? (p + m) / 2 ^ j) && ((p + m) / 2 ^ j <? r)) with true by lia. cbn [andb negb].
              replace ((l + 1 <=? (p + m) / 2 ^ j) && ((p + m) / 2 ^ j <? r)) with false by lia. auto.
            + replace (l + 1 <=? (p + m) / 2 ^ j) with (l <=? (p + m) / 2 ^ j) by lia. auto.
          - exists l, s, g. split; auto. split; auto. split; [rewrite <- Z.negb_odd, O; auto|]. split; [lia|auto]. }
        destruct S1 as (l1 & s1 & g1 & E1 & I1 & Ev1 & L1 & B1). rewrite E1. cbn [bind].
        assert (S2 : exists r1 s2 g2, (if Z.odd r then let* s := lc_insert s1 (r - 1) f in Ok (r - 1, s) else Ok (r, s1)) = Ok (r1, s2) /\ is n s2 g2 /\ Z.even r1 = true /\ r - 1 <= r1 <= r /\
           (forall p, 0 <= p < m -> best g2 p = if (PL <=? p) && (p <? PR) && negb ((l1 <=? (p + m) / 2 ^ j) && ((p + m) / 2 ^ j <? r1)) then Z.min (best g0 p) (val f (px p)) else best g0 p)).
        { destruct (Z.odd r) eqn:O.
          - destruct (lc_insert_ok n s1 g1 j (r - 1) f I1 ltac:(lia) ltac:(lia)) as (s2 & g2 & E2 & I2 & B2). { intros p Hp E. apply HF, Hc; auto. lia. }
            rewrite E2. cbn [bind]. exists (r - 1), s2, g2. split; auto. split; auto. split; [rewrite Z.even_sub, <- Z.negb_odd, O; auto|]. split; [lia|].
            assert (l1 <= r - 1). { assert (l1 <> r) by (intro Q; subst l1; rewrite <- Z.negb_odd, O in Ev1; discriminate). lia. }
            intros p Hp. rewrite B2 by auto. rewrite B1 by auto. specialize (Hc p Hp). destruct ((p + m) / 2 ^ j =? r - 1) eqn:El.
            + specialize (Hc ltac:(lia)). replace ((PL <=? p) && (p <? PR)) with true by lia.
              replace ((l1 <=? (p + m) / 2 ^ j) && ((p + m) / 2 ^ j <? r)) with true by lia. cbn [andb negb].
              replace ((l1 <=? (p + m) / 2 ^ j) && ((p + m) / 2 ^ j <? r - 1)) with false by lia. auto.
            + replace ((p + m) / 2 ^ j <? r - 1) with ((p + m) / 2 ^ j <? r) by lia. auto.
          - exists r, s1, g1. split; auto. split; auto. split; [rewrite <- Z.negb_odd, O; auto|]. split; [lia|auto]. }
        destruct S2 as (r1 & s2 & g2 & E2 & I2 & Ev2 & R1 & B2). rewrite E2. cbn [bind]. eexists; split; [reflexivity|]. cbv beta iota. cbn [fst snd].
        assert (r / 2 < r) by (apply Z.div_lt; lia).
        assert (Rr : r1 / 2 <= r / 2) by (apply Z.div_le_mono; lia).
        assert (Q : forall p, (l1 / 2 <= (p + m) / 2 ^ (j + 1) <-> l1 <= (p + m) / 2 ^ j) /\ ((p + m) / 2 ^ (j + 1) < r1 / 2 <-> (p + m) / 2 ^ j < r1)).
        { intro p. assert (Ed : (p + m) / 2 ^ (j + 1) = (p + m) / 2 ^ j / 2).
          { rewrite Z.pow_add_r by lia. change (2 ^ 1) with 2. rewrite Z.div_div by (try lia; apply Z.pow_nonzero; lia). auto. }
          rewrite Ed. pose proof (even_half_le l1 ((p + m) / 2 ^ j) Ev1). pose proof (even_half_le r1 ((p + m) / 2 ^ j) Ev2). lia. }
        split; [|clear - H Rr B Hl Pj; lia]. exists (j + 1), g2. split; [clear - Hj; lia|]. split; [apply Z.div_pos; clear - R1 B Hl Pj; lia|]. split; auto. split; [|split].
        * intro Lt. assert (r1 / 2 * 2 <= r1) by (clear; pose proof (Z.div_mod r1 2 ltac:(lia)); pose proof (Z.mod_pos_bound r1 2 ltac:(lia)); lia).
          assert (l1 <= l1 / 2 * 2) by (apply Z.even_spec in Ev1; destruct Ev1 as [c ->]; rewrite (Z.mul_comm 2 c), Z.div_mul by (clear; lia); clear; lia).
          assert (j < h). { destruct (Z.eq_dec j h) as [->|]; [|lia]. rewrite Z.sub_diag in *. change (2 ^ 0) with 1 in *. clear - Hl Hr Lt L1 R1 H0 H1. lia. }
          assert (E3 : 2 ^ (h - j) = 2 * 2 ^ (h - (j + 1))) by (rewrite <- Z.pow_succ_r by (clear - H2; lia); f_equal; clear; lia). clear - Hl Hr Lt L1 R1 H0 H1 H2 E3. lia.
        * intros p Hp Hq. apply Hc; auto. destruct (Q p) as [Q1 Q2]. clear - Q1 Q2 Hq L1 R1. lia.
        * intros p Hp. rewrite B2 by auto. destruct (Q p) as [Q1 Q2].
          replace (l1 / 2 <=? (p + m) / 2 ^ (j + 1)) with (l1 <=? (p + m) / 2 ^ j) by (clear - Q1; lia). replace ((p + m) / 2 ^ (j + 1) <? r1 / 2) with ((p + m) / 2 ^ j <? r1) by (clear - Q2; lia). auto.
      + eexists; split; [reflexivity|]. cbv beta iota. exists g. split; auto. intros p Hp. rewrite HB by auto.
        replace ((l <=? (p + m) / 2 ^ j) && ((p + m) / 2 ^ j <? r)) with false by lia. cbn [negb]. now rewrite andb_true_r.
    - exists s, g. split; auto.
  Qed.

  Lemma up_ok n s g p : is n s g -> 0 <= p < m ->
    loop (S (Z.to_nat (p + m))) (lc_up (lc_seg s) (px p)) (p + m, true, tmax) = Ok (best g p =? tmax, best g p).
  Proof.
    intros (I1 & I2 & I3 & I4 & I5 & I6) Hp. pose proof pm as Pm.
    assert (G : forall (jn : nat) j none r fuel, h - j = Z.of_nat jn - 1 -> 0 <= j <= h + 1 -> (jn < fuel)%nat ->
      loop fuel (lc_up (lc_seg s) (px p)) ((p + m) / 2 ^ j, none, r) = Ok (none && (bestn jn g (px p) ((p + m) / 2 ^ j) =? tmax), Z.min r (bestn jn g (px p) ((p + m) / 2 ^ j))) \/ tmax < r).
    { induction jn as [|jn IH]; intros j none r fuel Ej Hj HF; destruct fuel as [|fuel]; try lia; (destruct (Z.le_gt_cases r tmax) as [Hr|]; [left|right; lia]); cbn [loop]; unfold lc_up at 1.
      - assert (j = h + 1) by lia. subst j. replace ((p + m) / 2 ^ (h + 1)) with 0.
        2:{ symmetry. apply Z.div_small. rewrite Z.pow_add_r by lia. change (2 ^ 1) with 2. lia. }
        change (0 =? 0) with true. cbn [bind bestn]. rewrite Z.eqb_refl, andb_true_r. do 2 f_equal. lia.
      - pose proof (Z.pow_pos_nonneg 2 j ltac:(lia) ltac:(lia)).
        assert (B : 1 <= (p + m) / 2 ^ j < 2 * m).
        { split; [apply Z.div_le_lower_bound; [lia|]; assert (2 ^ j <= m) by (apply Z.pow_le_mono_r; lia); lia|]. apply Z.div_lt_upper_bound; [lia|]. nia. }
        replace ((p + m) / 2 ^ j =? 0) with false by lia. rewrite (rep_get (lc_seg s) (2 * m) g ((p + m) / 2 ^ j)) by (auto; lia). cbn [bind].
        pose proof (I6 p j Hp ltac:(lia)) as O. rewrite eval_ok by auto. cbn [bind]. rewrite pow_half by lia.
        pose proof (val_le _ _ O) as Vl. pose proof (val_max _ _ O) as Vm.
        destruct (IH (j + 1) (none && line_eqb (g ((p + m) / 2 ^ j)) line_e) (Z.min r (val (g ((p + m) / 2 ^ j)) (px p))) fuel ltac:(lia) ltac:(lia) ltac:(lia)) as [E|E]; [|lia].
        rewrite E. cbn [bestn]. rewrite pow_half by lia. rewrite <- Vm. f_equal. f_equal; [|lia]. rewrite <- andb_assoc. f_equal.
        pose proof (bestn_le jn g (px p) ((p + m) / 2 ^ (j + 1))). lia. }
    destruct (G (S (Z.to_nat h)) 0 true tmax (S (Z.to_nat (p + m))) ltac:(lia) ltac:(lia)) as [E|E]; [|rewrite Z.div_1_r in E|lia].
    - assert (h < 2 ^ h) by (apply Z.pow_gt_lin_r; lia). lia.
    - rewrite E. fold (best g p). f_equal. f_equal. pose proof (bestn_le (S (Z.to_nat h)) g (px p) (p + m)). unfold best. lia.
  Qed.
End LCP.
