(* binary and ternary search *)
From Verif Require Import Base BaseLemmas Search_model.

Section Search.
  Variable B : Z.
  Lemma fit_ok x : - B <= x < B -> fit B x = Ok x.
  Proof. intros. unfold fit. rewrite (proj2 (Z.leb_le _ _)), (proj2 (Z.ltb_lt _ _)) by lia. reflexivity. Qed.
  Lemma bs_ok f l r : - B <= l -> l < r -> r < B -> r - l < B -> f l = false -> f r = true ->
    exists x, loop (Z.to_nat (r - l) + 1) (bs_loop B f) (l, r) = Ok x /\ l < x <= r /\ f x = true /\ f (x - 1) = false.
  Proof.
    intros Hl Hlr Hr Hd Fl Fr.
    destruct (loop_inv (fun s => l <= fst s /\ fst s < snd s /\ snd s <= r /\ f (fst s) = false /\ f (snd s) = true) (fun s => Z.to_nat (snd s - fst s)) (fun x => l < x <= r /\ f x = true /\ f (x - 1) = false) (bs_loop B f) (Z.to_nat (r - l) + 1) (l, r)) as (x & E & H); [cbn [fst snd]; repeat split; auto; lia|cbn [fst snd]; lia| |eauto].
    intros (a, b) (H1 & H2 & H3 & H4 & H5). cbn [fst snd] in *. unfold bs_loop. rewrite fit_ok by lia. cbn [bind]. destruct (Z.ltb_spec 1 (b - a)).
    - rewrite Z.shiftr_div_pow2 by lia. change (2 ^ 1) with 2. pose proof (Z.div_mod (b - a) 2). pose proof (Z.mod_pos_bound (b - a) 2). rewrite fit_ok by lia. cbn [bind]. eexists. split; [reflexivity|].
      destruct (f (a + (b - a) / 2)) eqn:E; cbn [fst snd]; repeat split; auto; lia.
    - eexists. split; [reflexivity|]. cbv beta iota. replace (b - 1) with a by lia. repeat split; auto; lia.
  Qed.
  Lemma binary_search_ok f l r : - B <= l -> r < B -> r - l < B -> l <= r -> f l = false -> f r = true ->
    exists x, binary_search B f l r = Ok x /\ l < x <= r /\ f x = true /\ f (x - 1) = false.
  Proof.
    intros Hl Hr Hd Hlr Fl Fr. assert (l <> r) by (intros ->; congruence). unfold binary_search. rewrite Fl, Fr, (proj2 (Z.leb_le l r)) by auto. cbn [negb assert_ bind]. apply bs_ok; auto; lia.
  Qed.
  Lemma binary_search_least f l r : - B <= l -> r < B -> r - l < B -> l <= r -> f l = false -> f r = true -> (forall x y, l <= x -> x <= y -> y <= r -> f x = true -> f y = true) ->
    exists x, binary_search B f l r = Ok x /\ l <= x <= r /\ forall y, l <= y <= r -> (f y = true <-> x <= y).
  Proof.
    intros Hl Hr Hd Hlr Fl Fr M. destruct (binary_search_ok f l r) as (x & E & Hx & Fx & Fx1); auto. exists x. split; auto. split; [lia|]. intros y Hy. split.
    - intros Fy. destruct (Z_lt_le_dec y x); auto. rewrite (M y (x - 1)) in Fx1 by (auto; lia). discriminate.
    - intros L. apply (M x); auto; lia.
  Qed.
  Lemma bs_reject f l r : (l > r -> binary_search B f l r = Abort) /\ (l <= r -> f l = true \/ f r = false -> binary_search B f l r = Abort).
  Proof.
    unfold binary_search. split.
    - intros H. rewrite (proj2 (Z.leb_gt l r)) by lia. reflexivity.
    - intros H1 H. rewrite (proj2 (Z.leb_le l r)) by lia. cbn [assert_ bind]. destruct (f l); [reflexivity|]. destruct H as [H|H]; [discriminate|]. rewrite H. reflexivity.
  Qed.
  Lemma exp_ok f l t : - B <= l -> l < t -> f l = false -> f t = true -> (forall x y, l <= x -> x <= y -> f x = true -> f y = true) -> (forall y, l <= y < t -> f y = false) ->
    l + 2 * (t - 1 - l) < B -> 2 * (t - 1 - l) < B -> t < B -> 1 < B -> binary_search_exponential B f l = Ok t.
  Proof.
    intros Hl Hlt Fl Ft M Lo Hb Hb2 Htb HB. unfold binary_search_exponential. rewrite Fl. cbn [negb assert_ bind].
    assert (Lg : forall k, (k <= Z.to_nat (Z.log2 B) + 1)%nat -> forall w, 2 ^ (Z.log2 B + 1 - Z.of_nat k) <= w -> 0 < w -> w <= 2 * (t - 1 - l) \/ w = 1 -> exists w', loop (k + 1) (exp_loop B f l) w = Ok w' /\ 0 < w' /\ f (l + w') = true /\ (w' <= 2 * (t - 1 - l) \/ w' = 1)).
    { pose proof (Z.log2_nonneg B) as L0. pose proof (Z.log2_spec B ltac:(lia)) as (_ & L2).
      induction k as [|k IH]; intros Hk w Hw W0 Wb.
      - rewrite Z.sub_0_r in Hw. replace (Z.succ (Z.log2 B)) with (Z.log2 B + 1) in L2 by lia. exfalso. lia.
      - replace (S k + 1)%nat with (S (k + 1)) by lia. cbn [loop]. unfold exp_loop at 1. rewrite fit_ok by lia. cbn [bind]. destruct (f (l + w)) eqn:Ew; cbn [bind]; [exists w; auto|].
        assert (l + w < t). { destruct (Z_lt_le_dec (l + w) t); auto. rewrite (M t (l + w)) in Ew by (auto; lia). discriminate. }
        rewrite fit_ok by lia. cbn [bind]. apply IH; try lia. replace (Z.log2 B + 1 - Z.of_nat k) with (Z.log2 B + 1 - Z.of_nat (S k) + 1) by lia. rewrite Z.pow_add_r by lia. lia. }
    destruct (Lg (Z.to_nat (Z.log2 B) + 1)%nat ltac:(lia) 1) as (w & E & W0 & Fw & Wb); [|lia|auto|].
    { pose proof (Z.log2_nonneg B). replace (Z.log2 B + 1 - Z.of_nat (Z.to_nat (Z.log2 B) + 1)) with 0 by lia. lia. }
    replace (Z.to_nat (Z.log2 B) + 2)%nat with (Z.to_nat (Z.log2 B) + 1 + 1)%nat by lia. rewrite E. cbn [bind]. rewrite fit_ok by lia. cbn [bind].
    destruct (bs_ok f l (l + w)) as (x & Ex & Hx & Fx & Fx1); auto; try lia. rewrite Ex. f_equal. destruct (Z.lt_trichotomy x t) as [L|[L|L]]; auto.
    - rewrite Lo in Fx by lia. discriminate.
    - rewrite (M t (x - 1)) in Fx1 by (auto; lia). discriminate.
  Qed.

  (* ternary search *)
  Definition convex_on (f : Z -> Z) (l r : Z) : Prop := forall x, l < x < r -> 2 * f x <= f (x - 1) + f (x + 1).
  Lemma slopes f l r : convex_on f l r -> forall k a, l <= a -> a + 1 + Z.of_nat k <= r -> f (a + 1) - f a <= f (a + 1 + Z.of_nat k) - f (a + Z.of_nat k).
  Proof.
    intros C. induction k as [|k IH]; intros a Ha Hk; [rewrite !Z.add_0_r; lia|]. specialize (IH a Ha ltac:(lia)). specialize (C (a + 1 + Z.of_nat k) ltac:(lia)).
    replace (a + 1 + Z.of_nat (S k)) with (a + 1 + Z.of_nat k + 1) by lia. replace (a + Z.of_nat (S k)) with (a + 1 + Z.of_nat k) by lia. replace (a + 1 + Z.of_nat k - 1) with (a + Z.of_nat k) in C by lia. lia.
  Qed.
  Lemma slope_mono f l r a b : convex_on f l r -> l <= a -> a <= b -> b < r -> f (a + 1) - f a <= f (b + 1) - f b.
  Proof. intros C Ha Hab Hb. pose proof (slopes f l r C (Z.to_nat (b - a)) a Ha ltac:(lia)) as S. rewrite Z2Nat.id in S by lia. replace (a + 1 + (b - a)) with (b + 1) in S by lia. replace (a + (b - a)) with b in S by lia. auto. Qed.
  (* a run of steps below (above) s *)
  Lemma run_up f s : forall k a, (forall x, a <= x < a + Z.of_nat k -> s <= f (x + 1) - f x) -> s * Z.of_nat k <= f (a + Z.of_nat k) - f a.
  Proof.
    induction k as [|k IH]; intros a H; [rewrite Z.add_0_r; lia|]. specialize (IH a ltac:(intros; apply H; lia)). specialize (H (a + Z.of_nat k) ltac:(lia)). replace (a + Z.of_nat (S k)) with (a + Z.of_nat k + 1) by lia. lia.
  Qed.
  Lemma run_dn f s : forall k a, (forall x, a <= x < a + Z.of_nat k -> f (x + 1) - f x <= s) -> f (a + Z.of_nat k) - f a <= s * Z.of_nat k.
  Proof.
    induction k as [|k IH]; intros a H; [rewrite Z.add_0_r; lia|]. specialize (IH a ltac:(intros; apply H; lia)). specialize (H (a + Z.of_nat k) ltac:(lia)). replace (a + Z.of_nat (S k)) with (a + Z.of_nat k + 1) by lia. lia.
  Qed.
  Lemma chords f l r a b c : convex_on f l r -> l <= a -> a < b -> b < c -> c <= r -> (f b - f a) * (c - b) <= (f c - f b) * (b - a).
  Proof.
    intros C Ha Hab Hbc Hc. set (s := f b - f (b - 1)).
    assert (D : f b - f a <= s * (b - a)).
    { pose proof (run_dn f s (Z.to_nat (b - a)) a) as R. rewrite Z2Nat.id in R by lia. replace (a + (b - a)) with b in R by lia. apply R. intros x Hx. unfold s. replace b with (b - 1 + 1) at 1 by lia. apply (slope_mono f l r); auto; lia. }
    assert (U : s * (c - b) <= f c - f b).
    { pose proof (run_up f s (Z.to_nat (c - b)) b) as R. rewrite Z2Nat.id in R by lia. replace (b + (c - b)) with c in R by lia. apply R. intros x Hx. unfold s. replace b with (b - 1 + 1) at 1 by lia. apply (slope_mono f l r); auto; lia. }
    nia.
  Qed.
  (* the least minimiser *)
  Definition argmin (f : Z -> Z) (l r x : Z) : Prop := l <= x <= r /\ (forall y, l <= y <= r -> f x <= f y) /\ forall y, l <= y < x -> f x < f y.
  Lemma argmin_left f l r ml mr x : convex_on f l r -> l <= ml -> ml < mr -> mr <= r -> f mr < f ml -> argmin f ml r x -> argmin f l r x.
  Proof.
    intros C H1 H2 H3 Hf (A1 & A2 & A3). assert (L : forall y, l <= y <= ml -> f x < f y).
    { intros y Hy. specialize (A2 mr ltac:(lia)). destruct (Z.eq_dec y ml) as [->|]; [lia|]. pose proof (chords f l r y ml mr C ltac:(lia) ltac:(lia) ltac:(lia) ltac:(lia)). nia. }
    split; [lia|]. split; intros y Hy; (destruct (Z_lt_le_dec y ml); [specialize (L y ltac:(lia)); lia|]); [apply A2|apply A3]; lia.
  Qed.
  Lemma argmin_right f l r ml mr x : convex_on f l r -> l <= ml -> ml < mr -> mr <= r -> f ml <= f mr -> argmin f l mr x -> argmin f l r x.
  Proof.
    intros C H1 H2 H3 Hf (A1 & A2 & A3). split; [lia|]. split; [|auto]. intros y Hy. destruct (Z_lt_le_dec mr y); [|apply A2; lia].
    pose proof (chords f l r ml mr y C ltac:(lia) ltac:(lia) ltac:(lia) ltac:(lia)). specialize (A2 mr ltac:(lia)). nia.
  Qed.
  Lemma convex_sub f l r a b : convex_on f l r -> l <= a -> b <= r -> convex_on f a b.
  Proof. intros C Ha Hb x Hx. apply C. lia. Qed.
  Lemma convex_key f l r : - B <= l -> l <= r -> r < B - 1 -> r - l < B -> convex_on f l r -> exists x, ternary_convex B f l r = Ok x /\ argmin f l r x.
  Proof.
    intros Hl Hlr Hr Hd C. unfold ternary_convex, ternary_search_key. rewrite (proj2 (Z.leb_le l r)) by auto. cbn [assert_ bind].
    destruct (loop_inv (fun s => l <= fst s /\ fst s <= snd s /\ snd s <= r /\ forall x, argmin f (fst s) (snd s) x -> argmin f l r x) (fun s => Z.to_nat (snd s - fst s)) (fun s => l <= fst s /\ fst s <= snd s /\ snd s <= r /\ forall x, argmin f (fst s) (snd s) x -> argmin f l r x) (ts_loop B Z.gtb f) (Z.to_nat (r - l) + 1) (l, r)) as ((a & b) & E & H1 & H2 & H3 & Am); [cbn [fst snd]; split; [lia|]; split; [lia|]; split; [lia|auto]|cbn [fst snd]; lia| |].
    - intros (a, b) (H1 & H2 & H3 & Am). cbn [fst snd] in *. unfold ts_loop. rewrite fit_ok by lia. cbn [bind]. destruct (Z.leb_spec 3 (b - a)); [|eexists; split; [reflexivity|]; cbv beta iota; cbn [fst snd]; auto].
      cbv zeta. eexists. split; [reflexivity|]. rewrite Z.quot_div_nonneg by lia. pose proof (Z.div_mod (b - a) 3). pose proof (Z.mod_pos_bound (b - a) 3). set (k := (b - a) / 3) in *. rewrite Z.gtb_ltb. destruct (Z.ltb_spec (f (b - k)) (f (a + k))); cbn [fst snd].
      + split; [|lia]. split; [lia|]. split; [lia|]. split; [lia|]. intros x Hx. apply Am. apply (argmin_left f a b (a + k) (b - k) x); auto; try lia. apply (convex_sub f l r); auto; lia.
      + split; [|lia]. split; [lia|]. split; [lia|]. split; [lia|]. intros x Hx. apply Am. apply (argmin_right f a b (a + k) (b - k) x); auto; try lia. apply (convex_sub f l r); auto; lia.
    - cbn [fst snd] in *. rewrite E. cbn [bind]. rewrite fit_ok by lia. cbn [bind].
      destruct (loop_inv (fun s => a + 1 <= fst s <= b + 1 /\ argmin f a (fst s - 1) (snd s)) (fun s => Z.to_nat (b + 1 - fst s)) (fun x => argmin f a b x) (scan_loop B Z.gtb f b) (Z.to_nat (b - a) + 1) (a + 1, a)) as (x & Ex & Hx).
      + cbn [fst snd]. split; [lia|]. split; [lia|]. split; intros y Hy; [replace y with a by lia|]; lia.
      + cbn [fst snd]. lia.
      + intros (y, x) (Hy & (A1 & A2 & A3)). cbn [fst snd] in *. unfold scan_loop. destruct (Z.leb_spec y b).
        * rewrite fit_ok by lia. cbn [bind]. cbv zeta. eexists. split; [reflexivity|]. cbv beta iota. cbn [fst snd]. rewrite Z.gtb_ltb. replace (y + 1 - 1) with y by lia. split; [|lia]. split; [lia|]. destruct (Z.ltb_spec (f y) (f x)).
          -- split; [lia|]. split; intros z Hz; [destruct (Z.eq_dec z y) as [->|]; [lia|]|]; specialize (A2 z ltac:(lia)); lia.
          -- split; [lia|]. split; [|auto]. intros z Hz. destruct (Z.eq_dec z y) as [->|]; [lia|]. apply A2. lia.
        * eexists. split; [reflexivity|]. cbv beta iota. replace b with (y - 1) by lia. repeat split; auto; lia.
      + rewrite Ex. eauto.
  Qed.
End Search.
Lemma loop_ext {S R} (b1 b2 : S -> res (S + R)) : (forall s, b1 s = b2 s) -> forall k s, loop k b1 s = loop k b2 s.
Proof. intros H. induction k as [|k IH]; intros s; cbn [loop]; auto. rewrite H. destruct (b2 s) as [[s'|]| | |]; cbn [bind]; auto. Qed.
Lemma concave_key B f l r : ternary_concave B f l r = ternary_convex B (fun x => - f x) l r.
Proof.
  unfold ternary_concave, ternary_convex, ternary_search_key. destruct (assert_ (l <=? r)) as [[]| | |]; cbn [bind]; auto.
  assert (N : forall a b, (a <? b) = (- a >? - b)) by (intros; rewrite Z.gtb_ltb; destruct (Z.ltb_spec a b), (Z.ltb_spec (- b) (- a)); auto; lia).
  rewrite (loop_ext (ts_loop B Z.ltb f) (ts_loop B Z.gtb (fun x => - f x))) by (intros (a, b); unfold ts_loop; destruct (fit B (b - a)); cbn [bind]; auto; cbv zeta; now rewrite N).
  destruct (loop _ _ _) as [(a, b)| | |]; cbn [bind]; auto. destruct (fit B (a + 1)); cbn [bind]; auto. apply loop_ext. intros (y, x). unfold scan_loop. cbv zeta. now rewrite N.
Qed.

Lemma concave_ok B f l r : - B <= l -> l <= r -> r < B - 1 -> r - l < B -> (forall x, l < x < r -> f (x - 1) + f (x + 1) <= 2 * f x) ->
  exists x, ternary_concave B f l r = Ok x /\ l <= x <= r /\ forall y, l <= y <= r -> f y <= f x.
Proof.
  intros H1 H2 H3 H4 C. rewrite concave_key. destruct (convex_key B (fun x => - f x) l r) as (x & E & A1 & A2 & _); auto; [intros x Hx; specialize (C x Hx); lia|].
  exists x. split; auto. split; auto. intros y Hy. specialize (A2 y Hy). lia.
Qed.
Lemma convex_ok B f l r : - B <= l -> l <= r -> r < B - 1 -> r - l < B -> (forall x, l < x < r -> 2 * f x <= f (x - 1) + f (x + 1)) ->
  exists x, ternary_convex B f l r = Ok x /\ l <= x <= r /\ forall y, l <= y <= r -> f x <= f y.
Proof. intros H1 H2 H3 H4 C. destruct (convex_key B f l r) as (x & E & A1 & A2 & _); eauto. Qed.
Lemma conv_id B x : - B <= x < B -> conv B x = x.
Proof. intros. unfold conv. rewrite Z.mod_small by lia. lia. Qed.
Lemma value_ok B f l r : - B <= l -> l <= r -> r < B - 1 -> r - l < B -> (forall x, l < x < r -> 2 * f x <= f (x - 1) + f (x + 1)) -> (forall x, l <= x <= r -> - B <= f x < B) ->
  exists v, ternary_value B Z.gtb f l r = Ok v /\ (exists x, l <= x <= r /\ f x = v) /\ forall y, l <= y <= r -> v <= f y.
Proof.
  intros H1 H2 H3 H4 C R. destruct (convex_ok B f l r) as (x & E & Hx & A); auto. unfold ternary_convex in E. unfold ternary_value. rewrite E. cbn [bind]. rewrite conv_id by auto. exists (f x). split; auto. split; eauto.
Qed.
Lemma bs_wide B f l r : l <= r -> f l = false -> f r = true -> B <= r - l -> binary_search B f l r = UB.
Proof.
  intros H1 H2 H3 H4. unfold binary_search. rewrite (proj2 (Z.leb_le l r)), H2, H3 by auto. cbn [negb assert_ bind]. rewrite Nat.add_1_r. cbn [loop]. unfold bs_loop, fit.
  rewrite (proj2 (Z.ltb_ge (r - l) B)) by lia. rewrite andb_false_r. reflexivity.
Qed.
