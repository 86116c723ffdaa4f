From Verif Require Import Base BaseLemmas MinMod_model.
Import ListNotations.
Open Scope Z_scope.

Lemma i64_id x : - 2 ^ 63 <= x < 2 ^ 63 -> i64 x = Ok x.
Proof. intros H. unfold i64. destruct (Z.leb_spec (- 2 ^ 63) x); [|lia]. destruct (Z.ltb_spec x (2 ^ 63)); [reflexivity|lia]. Qed.
Lemma i32_id x : - 2 ^ 31 <= x < 2 ^ 31 -> i32 x = Ok x.
Proof. intros H. unfold i32. destruct (Z.leb_spec (- 2 ^ 31) x); [|lia]. destruct (Z.ltb_spec x (2 ^ 31)); [reflexivity|lia]. Qed.
(* adding 0 <= c < m raises a floor by 0 or 1 *)
Lemma raise y m c : 0 < m -> 0 <= c < m -> (y + c) / m = y / m + (if m <=? y mod m + c then 1 else 0).
Proof.
  intros Hm Hc. pose proof (Z.div_mod y m ltac:(lia)) as D. pose proof (Z.mod_pos_bound y m Hm) as M.
  destruct (Z.leb_spec m (y mod m + c)) as [L|L].
  - symmetry. apply (Z.div_unique (y + c) m (y / m + 1) (y mod m + c - m)); lia.
  - symmetry. apply (Z.div_unique (y + c) m (y / m + 0) (y mod m + c)); lia.
Qed.
Definition fsum (l : list Z) : Z := fold_right Z.add 0 l.
Lemma sums (l : list Z) (f g : Z -> Z) : (forall x, In x l -> f x <= g x <= f x + 1) ->
  fsum (map f l) <= fsum (map g l) <= fsum (map f l) + zlen l /\
  (fsum (map g l) < fsum (map f l) + zlen l <-> exists x, In x l /\ g x = f x).
Proof.
  induction l as [|x l IH]; intros H.
  - change (zlen (@nil Z)) with 0. cbn [map fsum fold_right]. split; [lia|]. split; [lia|]. intros (x & [] & _).
  - rewrite zlen_cons. unfold fsum in *. cbn [map fold_right]. destruct IH as [I1 I2]. { intros y Hy. apply H. right; auto. }
    pose proof (H x (or_introl eq_refl)) as Hx. split; [lia|]. split.
    + intros L. destruct (Z.eq_dec (g x) (f x)) as [E|E]; [exists x; split; [left; auto|auto]|].
      destruct (proj1 I2 ltac:(lia)) as (y & Hy & Ey). exists y. split; [right; auto|auto].
    + intros (y & [<-|Hy] & Ey); [lia|]. assert (fold_right Z.add 0 (map g l) < fold_right Z.add 0 (map f l) + zlen l) by (apply I2; eauto). lia.
Qed.
Definition least_mod (n m a b r : Z) : Prop :=
  (exists x, 0 <= x < n /\ (a * x + b) mod m = r) /\ forall x, 0 <= x < n -> r <= (a * x + b) mod m.

(* C93: the least residue of a x + b over 0 <= x < n, when the int and 64-bit values involved do not overflow *)
Theorem min_mod_least : forall n m a b, 1 <= n < 2 ^ 31 -> 1 <= m < 2 ^ 31 -> - 2 ^ 31 <= b -> b + (m - 1) < 2 ^ 31 ->
  - 2 ^ 63 <= sum_floor n m a b -> sum_floor n m a b + n < 2 ^ 63 ->
  exists r, min_of_mod_of_linear n m a b = Ok r /\ least_mod n m a b r.
Proof.
  intros n m a b Hn Hm Hb Hb2 Hs Hs2. unfold min_of_mod_of_linear, floor_sum.
  rewrite i64_id by lia. cbn [bind]. rewrite i64_id by lia. cbn [bind].
  set (S0 := sum_floor n m a b) in *.
  assert (Key : forall k, 0 <= k < m -> S0 <= sum_floor n m a (b + (m - 1 - k)) <= S0 + n /\
     (sum_floor n m a (b + (m - 1 - k)) < S0 + n <-> exists x, 0 <= x < n /\ (a * x + b) mod m <= k)).
  { intros k Hk.
    assert (R : forall x, (a * x + (b + (m - 1 - k))) / m = (a * x + b) / m + (if m <=? (a * x + b) mod m + (m - 1 - k) then 1 else 0)).
    { intros x. rewrite <- raise by lia. f_equal. lia. }
    destruct (sums (zrange n) (fun x => (a * x + b) / m) (fun x => (a * x + (b + (m - 1 - k))) / m)) as [A B].
    { intros x _. rewrite R. destruct (m <=? _); lia. }
    rewrite zlen_zrange in A by lia. rewrite zlen_zrange in B by lia. unfold S0, sum_floor. split; [exact A|].
    unfold fsum in B. rewrite B. split; intros (x & Hx & Ex); exists x.
    - apply In_zrange in Hx. split; [auto|]. rewrite R in Ex. destruct (Z.leb_spec m ((a * x + b) mod m + (m - 1 - k))); lia.
    - split; [apply In_zrange; auto|]. rewrite R. destruct (Z.leb_spec m ((a * x + b) mod m + (m - 1 - k))); lia. }
  clearbody S0.
  match goal with |- context [loop ?f ?bd ?s] =>
    destruct (loop_inv (fun st : Z * Z => let '(l, r) := st in -1 <= l < r /\ r <= m - 1 /\ (forall x, 0 <= x < n -> l < (a * x + b) mod m) /\ exists x, 0 <= x < n /\ (a * x + b) mod m <= r)
      (fun st : Z * Z => Z.to_nat (snd st - fst st)) (fun st : Z * Z => least_mod n m a b (snd st)) bd f s) as ([l r] & E & P) end.
  - pose proof (Z.mod_pos_bound (a * 0 + b) m ltac:(lia)) as M0. split; [lia|]. split; [lia|]. split.
    + intros x _. pose proof (Z.mod_pos_bound (a * x + b) m ltac:(lia)). lia.
    + exists 0. split; lia.
  - cbn [fst snd]. lia.
  - intros [l r] (H1 & H2 & H3 & H4). cbn [fst snd]. destruct (Z.ltb_spec 1 (r - l)) as [L|L].
    + cbn zeta. set (k := (l + r) / 2). assert (Hk : l < k < r).
      { unfold k. pose proof (Z.div_mod (l + r) 2 ltac:(lia)). pose proof (Z.mod_pos_bound (l + r) 2 ltac:(lia)). lia. }
      clearbody k. destruct (Key k ltac:(lia)) as [K1 K2].
      rewrite i32_id by lia. cbn [bind]. rewrite i64_id by lia. cbn [bind]. eexists; split; [reflexivity|].
      destruct (Z.ltb_spec (sum_floor n m a (b + (m - 1 - k))) (S0 + n)) as [F|F]; cbn [fst snd].
      * split; [|lia]. split; [lia|]. split; [lia|]. split; [exact H3|apply K2; exact F].
      * split; [|lia]. split; [lia|]. split; [lia|]. split; [|exact H4].
        intros x Hx. destruct (Z_lt_ge_dec k ((a * x + b) mod m)) as [|G]; [auto|exfalso].
        assert (sum_floor n m a (b + (m - 1 - k)) < S0 + n) by (apply K2; exists x; split; [auto|lia]). lia.
    + eexists; split; [reflexivity|]. cbn [snd]. destruct H4 as (x & Hx & Lx). split.
      * exists x. split; [auto|]. specialize (H3 x Hx). lia.
      * intros y Hy. specialize (H3 y Hy). lia.
  - rewrite E. cbn [bind]. exists r. auto.
Qed.
Print Assumptions min_mod_least.

Lemma fsum_le (l : list Z) f B : (forall x, In x l -> 0 <= f x <= B) -> 0 <= fsum (map f l) <= zlen l * B.
Proof.
  induction l as [|x l IH]; intros H; [change (zlen (@nil Z)) with 0; cbn [map fsum fold_right]; lia|].
  rewrite zlen_cons. unfold fsum in *. cbn [map fold_right]. pose proof (H x (or_introl eq_refl)).
  assert (0 <= fold_right Z.add 0 (map f l) <= zlen l * B) by (apply IH; intros; apply H; right; auto). lia.
Qed.
(* in particular for 0 <= a, b < m <= 2^30 *)
Theorem min_mod_small : forall n m a b, 1 <= n < 2 ^ 31 -> 1 <= m <= 2 ^ 30 -> 0 <= a < m -> 0 <= b < m ->
  exists r, min_of_mod_of_linear n m a b = Ok r /\ least_mod n m a b r.
Proof.
  intros n m a b Hn Hm Ha Hb.
  assert (B : 0 <= sum_floor n m a b <= zlen (zrange n) * n).
  { unfold sum_floor. apply (fsum_le (zrange n) (fun x => (a * x + b) / m) n). intros x Hx. apply In_zrange in Hx. split.
    - apply Z.div_pos; nia.
    - apply Z.lt_succ_r. apply Z.div_lt_upper_bound; [lia|]. unfold Z.succ. nia. }
  rewrite zlen_zrange in B by lia. assert (n * n <= 2 ^ 31 * 2 ^ 31) by (apply Z.mul_le_mono_nonneg; lia).
  apply min_mod_least; lia.
Qed.
Print Assumptions min_mod_small.
Example min_mod_ex : min_of_mod_of_linear 5 100 37 13 = Ok 13 /\ min_of_mod_of_linear 6 100 37 30 = Ok 4.
Proof. split; vm_compute; reflexivity. Qed.

(* with m above 2^30 the int sum b + (m - 1 - k) can overflow although 0 <= a, b < m: m = 2^31 - 1, b = m - 1 *)
Theorem min_mod_large_refuted : min_of_mod_of_linear 1 (2 ^ 31 - 1) 0 (2 ^ 31 - 2) = UB.
Proof.
  unfold min_of_mod_of_linear. replace (floor_sum 1 (2 ^ 31 - 1) 0 (2 ^ 31 - 2)) with (@Ok Z 0) by (vm_compute; reflexivity).
  cbn [bind]. replace (i64 (0 + 1)) with (@Ok Z 1) by reflexivity. cbn [bind].
  replace (Z.to_nat (2 ^ 31 - 1 + 1)) with (S (Z.to_nat (2 ^ 31 - 1))) by lia. cbn [loop].
  replace (1 <? 2 ^ 31 - 1 - 1 - -1) with true by reflexivity. cbn zeta.
  replace (i32 (2 ^ 31 - 2 + (2 ^ 31 - 1 - 1 - (-1 + (2 ^ 31 - 1 - 1)) / 2))) with (@UB Z) by (vm_compute; reflexivity). reflexivity.
Qed.
Print Assumptions min_mod_large_refuted.
