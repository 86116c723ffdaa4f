From Verif Require Import Base BaseLemmas ListZ Quot_spec Quot_model.
Import ListNotations.
Open Scope Z_scope.

(* ---- the floating-point functions are exact ---- *)
Lemma sqrt_of q n : 0 <= n -> q * q <= n -> 0 <= q -> n < (q + 1) * (q + 1) -> Z.sqrt n = q.
Proof. intros A B C D. apply Z.sqrt_unique. unfold Z.succ. lia. Qed.
Lemma sqrt_scale n q K : 0 <= q -> q * q <= n -> n < (q + 1) * (q + 1) -> q + 1 <= K ->
  let r := Z.sqrt (n * (K * K)) in
  (if r <? n * (K * K) - r * r then r + 1 else r) / K = q.
Proof.
  intros Hq A B HK. cbn zeta.
  assert (N0 : 0 <= n * (K * K)). { apply Z.mul_nonneg_nonneg; [nia|nia]. }
  pose proof (Z.sqrt_spec _ N0) as S. unfold Z.succ in S. set (r := Z.sqrt (n * (K * K))) in *.
  assert (R0 : 0 <= r) by apply Z.sqrt_nonneg.
  set (N := n * (K * K)) in *.
  assert (L : q * K <= r).
  { destruct (Z_le_gt_dec (q * K) r) as [|G]; [auto|]. exfalso.
    assert (G2 : (r + 1) * (r + 1) <= (q * K) * (q * K)) by (apply Z.mul_le_mono_nonneg; lia).
    assert (G3 : (q * K) * (q * K) <= N). { unfold N. replace ((q * K) * (q * K)) with ((q * q) * (K * K)) by ring. apply Z.mul_le_mono_nonneg_r; nia. }
    lia. }
  set (M := (q + 1) * K).
  assert (NM : N <= M * M - K * K).
  { unfold N, M. replace ((q + 1) * K * ((q + 1) * K) - K * K) with (((q + 1) * (q + 1) - 1) * (K * K)) by ring.
    apply Z.mul_le_mono_nonneg_r; nia. }
  assert (KM : M <= K * K). { unfold M. apply Z.mul_le_mono_nonneg_r; lia. }
  assert (Mp : 0 < M) by (unfold M; nia).
  assert (Rm : r < M).
  { destruct (Z_lt_ge_dec r M) as [|G]; [auto|]. exfalso. assert (M * M <= r * r) by (apply Z.mul_le_mono_nonneg; lia). nia. }
  assert (Fin : forall s, q * K <= s -> s < M -> s / K = q).
  { intros s S1 S2. symmetry. apply (Z.div_unique s K q (s - q * K)); [|lia]. left. unfold M in S2. lia. }
  destruct (Z.ltb_spec r (N - r * r)) as [G|G].
  - apply Fin; [lia|]. destruct (Z.eq_dec r (M - 1)) as [E|E]; [exfalso|lia]. rewrite E in G.
    replace (N - (M - 1) * (M - 1)) with (N - M * M + 2 * M - 1) in G by ring. lia.
  - apply Fin; lia.
Qed.
Lemma sqrtl_ok n : 0 <= n < 2 ^ 62 -> sqrtl_trunc n = Z.sqrt n.
Proof.
  intros H. unfold sqrtl_trunc. destruct (Z.eqb_spec n 0) as [->|N]; [reflexivity|].
  pose proof (Z.sqrt_spec n ltac:(lia)) as S. unfold Z.succ in S. set (q := Z.sqrt n) in *.
  assert (Q : 1 <= q). { destruct (Z_le_gt_dec 1 q); [auto|]. exfalso. pose proof (Z.sqrt_nonneg n) as P. fold q in P. assert (q = 0) by lia. nia. }
  assert (Q2 : q < 2 ^ 31). { destruct (Z_lt_ge_dec q (2 ^ 31)) as [|G]; [auto|]. exfalso. assert (2 ^ 31 * 2 ^ 31 <= q * q) by (apply Z.mul_le_mono_nonneg; lia). lia. }
  assert (LG : 0 <= Z.log2 q <= 30).
  { split; [apply Z.log2_nonneg|]. apply Z.lt_succ_r. apply Z.log2_lt_pow2; lia. }
  cbn zeta. set (k := 63 - Z.log2 q). assert (K : 33 <= k) by (unfold k; lia).
  assert (E4 : 4 ^ k = 2 ^ k * 2 ^ k). { change 4 with (2 * 2). rewrite Z.pow_mul_l. reflexivity. }
  rewrite E4. apply sqrt_scale; [lia|lia|lia|].
  assert (2 ^ 33 <= 2 ^ k) by (apply Z.pow_le_mono_r; lia). lia.
Qed.
Lemma double_div_ok n l : 1 <= l <= n -> n < 2 ^ 53 -> double_div n l = n / l.
Proof.
  intros Hl Hn. unfold double_div. set (q := n / l).
  pose proof (Z.div_mod n l ltac:(lia)) as D. pose proof (Z.mod_pos_bound n l ltac:(lia)) as Dm. fold q in D.
  assert (Q : 1 <= q) by (unfold q; apply Z.div_le_lower_bound; lia).
  assert (Qn : q <= n) by nia.
  assert (LG : 0 <= Z.log2 q <= 52). { split; [apply Z.log2_nonneg|]. apply Z.lt_succ_r. apply Z.log2_lt_pow2; [lia|]. change (Z.succ 52) with 53. lia. }
  pose proof (Z.log2_spec q ltac:(lia)) as LS. unfold Z.succ in LS.
  cbn zeta. set (k := 52 - Z.log2 q) in *. set (K := 2 ^ k).
  assert (K0 : 1 <= K). { unfold K. change 1 with (2 ^ 0). apply Z.pow_le_mono_r; unfold k; lia. }
  assert (EK : K * 2 ^ Z.log2 q = 2 ^ 52). { unfold K. rewrite <- Z.pow_add_r by (unfold k; lia). f_equal. unfold k; lia. }
  (* l < 2 K *)
  assert (LK : l < 2 * K).
  { destruct (Z_lt_ge_dec l (2 * K)) as [|G]; [auto|]. exfalso.
    assert (2 * K * 2 ^ Z.log2 q <= l * q). { apply Z.mul_le_mono_nonneg; try lia. }
    change (2 ^ 53) with (2 * 2 ^ 52) in Hn. nia. }
  set (a := n * K). unfold round_div.
  pose proof (Z.div_mod a l ltac:(lia)) as A. pose proof (Z.mod_pos_bound a l ltac:(lia)) as Am.
  set (c := a / l) in *. set (r := a mod l) in *.
  assert (Ea : a = l * (q * K) + (n mod l) * K) by (unfold a; rewrite D at 1; ring).
  assert (C1 : q * K <= c). { unfold c. apply Z.div_le_lower_bound; [lia|]. assert (0 <= n mod l * K) by (apply Z.mul_nonneg_nonneg; lia). lia. }
  (* a <= l * ((q+1) K) - K *)
  assert (C2 : a <= l * ((q + 1) * K) - K).
  { rewrite Ea. assert ((n mod l) * K <= (l - 1) * K) by (apply Z.mul_le_mono_nonneg_r; lia). lia. }
  assert (C3 : c < (q + 1) * K). { unfold c. apply Z.div_lt_upper_bound; lia. }
  assert (Fin : forall s, q * K <= s -> s < (q + 1) * K -> s / K = q).
  { intros s S1 S2. symmetry. apply (Z.div_unique s K q (s - q * K)); [left; lia|lia]. }
  assert (C4 : l <= 2 * r -> c + 1 < (q + 1) * K).
  { intros G. destruct (Z.eq_dec (c + 1) ((q + 1) * K)) as [E|E]; [exfalso|lia]. rewrite <- E in C2.
    replace (l * (c + 1)) with (l * c + l) in C2 by ring. lia. }
  destruct (Z.ltb_spec (2 * r) l) as [G1|G1]; [apply Fin; lia|].
  destruct (Z.ltb_spec l (2 * r)) as [G2|G2]; [apply Fin; [lia|apply C4; lia]|].
  destruct (Z.even c); apply Fin; try lia.
Qed.

(* ---- the list of calls ---- *)
Fixpoint up (k : nat) (i : Z) : list Z := match k with O => [] | S k => i :: up k (i + 1) end.
Fixpoint dn (g : Z -> Z) (k : nat) (i : Z) : list Z := match k with O => [] | S k => g i :: dn g k (i - 1) end.
Lemma for_up_each {T} (f : Z -> T -> res T) k : forall i s, for_up k i f s = for_each (up k i) f s.
Proof. induction k as [|k IH]; intros i s; [reflexivity|]. cbn [for_up up for_each]. destruct (f i s); cbn [bind]; auto. Qed.
Lemma for_dn_each {T} (f : Z -> T -> res T) g k : forall i s, for_dn k i (fun l s => f (g l) s) s = for_each (dn g k i) f s.
Proof. induction k as [|k IH]; intros i s; [reflexivity|]. cbn [for_dn dn for_each]. destruct (f (g i) s); cbn [bind]; auto. Qed.
Lemma zlen_up k : forall i, zlen (up k i) = Z.of_nat k.
Proof. induction k as [|k IH]; intros i; [reflexivity|]. cbn [up]. rewrite zlen_cons, IH. lia. Qed.
Lemma zlen_dn g k : forall i, zlen (dn g k i) = Z.of_nat k.
Proof. induction k as [|k IH]; intros i; [reflexivity|]. cbn [dn]. rewrite zlen_cons, IH. lia. Qed.
Lemma vget_up k : forall i j, 0 <= j < Z.of_nat k -> vget (up k i) j = Ok (i + j).
Proof.
  induction k as [|k IH]; intros i j H; [lia|]. cbn [up]. destruct (Z.eq_dec j 0) as [->|N].
  - rewrite vget_cons0. f_equal; lia.
  - rewrite vget_consS by lia. rewrite IH by lia. f_equal; lia.
Qed.
Lemma vget_dn g k : forall i j, 0 <= j < Z.of_nat k -> vget (dn g k i) j = Ok (g (i - j)).
Proof.
  induction k as [|k IH]; intros i j H; [lia|]. cbn [dn]. destruct (Z.eq_dec j 0) as [->|N].
  - rewrite vget_cons0. do 2 f_equal; lia.
  - rewrite vget_consS by lia. rewrite IH by lia. do 2 f_equal; lia.
Qed.
Lemma dn_ext g g' k : forall i, (forall j, i - Z.of_nat k < j <= i -> g j = g' j) -> dn g k i = dn g' k i.
Proof.
  induction k as [|k IH]; intros i H; [reflexivity|]. cbn [dn]. rewrite H by lia. f_equal. apply IH. intros j Hj. apply H. lia.
Qed.
Definition hb (n : Z) : Z := if Z.sqrt n =? n / Z.sqrt n then 1 else 0.
Definition qlist (n : Z) : list Z :=
  if n =? 0 then [] else
  up (Z.to_nat (Z.sqrt n)) 1 ++ dn (fun l => n / l) (Z.to_nat (Z.sqrt n - hb n)) (Z.sqrt n - hb n).

Lemma root n : 1 <= n -> let h := Z.sqrt n in 1 <= h /\ h * h <= n /\ n < (h + 1) * (h + 1) /\ h <= n / h /\ n / (h + 1) <= h /\ (h = n / h <-> n < h * (h + 1)).
Proof.
  intros H. cbn zeta. pose proof (Z.sqrt_spec n ltac:(lia)) as S. unfold Z.succ in S. pose proof (Z.sqrt_nonneg n) as P. set (h := Z.sqrt n) in *.
  assert (h1 : 1 <= h) by nia. split; [auto|]. split; [lia|]. split; [lia|].
  assert (A : h <= n / h) by (apply Z.div_le_lower_bound; lia). split; [auto|].
  split. { apply Z.lt_succ_r. apply Z.div_lt_upper_bound; unfold Z.succ; lia. }
  split; intros E.
  - pose proof (Z.div_mod n h ltac:(lia)) as D. pose proof (Z.mod_pos_bound n h ltac:(lia)). rewrite <- E in D. lia.
  - apply (Z.div_unique n h h (n - h * h)); lia.
Qed.
Lemma foreach_is n : 0 <= n < 2 ^ 60 -> forall S (f : Z -> S -> res S) s, foreach_quotients n f s = for_each (qlist n) f s.
Proof.
  intros H S f s. unfold foreach_quotients, qlist. destruct (Z.leb_spec 0 n) as [_|]; [|lia]. cbn [assert_ bind].
  destruct (Z.eqb_spec n 0) as [->|N]; [reflexivity|]. rewrite sqrtl_ok by lia.
  destruct (root n ltac:(lia)) as (R1 & R2 & R3 & R4 & R5 & R6). unfold hb. set (h := Z.sqrt n) in *.
  assert (Hh : h < 2 ^ 30). { destruct (Z_lt_ge_dec h (2 ^ 30)) as [|G]; [auto|]. exfalso. assert (2 ^ 30 * 2 ^ 30 <= h * h) by (apply Z.mul_le_mono_nonneg; lia). lia. }
  assert (I1 : i32 h = Ok h). { unfold i32. destruct (Z.leb_spec (- 2 ^ 31) h); [|lia]. destruct (Z.ltb_spec h (2 ^ 31)); [reflexivity|lia]. }
  assert (I2 : i32 (2 * h) = Ok (2 * h)). { unfold i32. destruct (Z.leb_spec (- 2 ^ 31) (2 * h)); [|lia]. destruct (Z.ltb_spec (2 * h) (2 ^ 31)); [reflexivity|lia]. }
  rewrite I1. cbn [bind]. rewrite I2. cbn [bind]. cbn zeta.
  set (b := if h =? n / h then 1 else 0).
  assert (Eb : (2 * h - b) mod 2 = b). { unfold b. destruct (h =? n / h); [|rewrite Z.sub_0_r, Z.mul_comm; apply Z.mod_mul; lia].
    replace (2 * h - 1) with (1 + (h - 1) * 2) by ring. rewrite Z.mod_add by lia. reflexivity. }
  rewrite Eb. assert (Bb : 0 <= b <= 1) by (unfold b; destruct (h =? n / h); lia).
  rewrite for_each_app. unfold for_, ford_. rewrite for_up_each. replace (h + 1 - 1) with h by lia.
  destruct (for_each (up (Z.to_nat h) 1) f s) as [s1| | |]; cbn [bind]; auto. replace (h - b - 0) with (h - b) by lia.
  destruct (Z.ltb_spec n (2 ^ 53)) as [L|L].
  - rewrite for_dn_each. f_equal. apply dn_ext. intros j Hj. apply double_div_ok; [nia|lia].
  - apply (for_dn_each f (fun l => n / l)).
Qed.
Lemma num_is n : 0 <= n < 2 ^ 60 -> quotient_num n = Ok (zlen (qlist n)).
Proof.
  intros H. unfold quotient_num, qlist. rewrite sqrtl_ok by lia. cbn zeta. destruct (Z.eqb_spec n 0) as [->|N]; [reflexivity|].
  destruct (root n ltac:(lia)) as (R1 & R2 & R3 & R4 & R5 & R6). unfold hb. set (h := Z.sqrt n) in *.
  assert (Hh : h < 2 ^ 30). { destruct (Z_lt_ge_dec h (2 ^ 30)) as [|G]; [auto|]. exfalso. assert (2 ^ 30 * 2 ^ 30 <= h * h) by (apply Z.mul_le_mono_nonneg; lia). lia. }
  assert (Hm : h * (h + 1) < 2 ^ 62) by nia.
  assert (I1 : i64 (h * (h + 1)) = Ok (h * (h + 1))). { unfold i64. destruct (Z.leb_spec (- 2 ^ 63) (h * (h + 1))); [|nia]. destruct (Z.ltb_spec (h * (h + 1)) (2 ^ 63)); [reflexivity|lia]. }
  assert (I2 : i64 (2 * h) = Ok (2 * h)). { unfold i64. destruct (Z.leb_spec (- 2 ^ 63) (2 * h)); [|lia]. destruct (Z.ltb_spec (2 * h) (2 ^ 63)); [reflexivity|lia]. }
  rewrite I1. cbn [bind]. rewrite I2. cbn [bind]. f_equal. rewrite zlen_app, zlen_up, zlen_dn.
  destruct (Z.eqb_spec h (n / h)) as [E|E]; destruct (Z.ltb_spec n (h * (h + 1))) as [G|G]; try lia.
Qed.
Lemma fill_is (l : list Z) : for_each l (fun v st => let '(q, it) := st in let* q := vset q it v in Ok (q, it + 1)) (vrep (zlen l) 0, 0) = Ok (l, zlen l).
Proof.
  match goal with |- for_each l ?b ?s = _ =>
    destruct (for_each_inv (fun done (st : list Z * Z) => st = (done ++ vrep (zlen l - zlen done) 0, zlen done)) l b s) as (s' & E & P) end.
  - change (zlen (@nil Z)) with 0. rewrite Z.sub_0_r. reflexivity.
  - intros done x todo [q it] El E. inversion E; subst q it; clear E. cbv beta.
    assert (Lt : zlen l - zlen done = 1 + zlen todo) by (rewrite El, zlen_app, zlen_cons; lia).
    pose proof (zlen_nonneg todo). pose proof (zlen_nonneg done).
    assert (Ev : vrep (zlen l - zlen done) 0 = 0 :: vrep (zlen todo) 0). { rewrite Lt. unfold vrep. replace (Z.to_nat (1 + zlen todo)) with (S (Z.to_nat (zlen todo))) by lia. reflexivity. }
    rewrite Ev. unfold vset. destruct (Z.leb_spec 0 (zlen done)); [|lia].
    destruct (Z.ltb_spec (zlen done) (zlen (done ++ 0 :: vrep (zlen todo) 0))) as [_|G]; [|rewrite zlen_app, zlen_cons in G; pose proof (zlen_nonneg (vrep (zlen todo) 0)); lia].
    cbn [andb bind]. eexists; split; [reflexivity|]. f_equal.
    + unfold zupd. replace (Z.to_nat (zlen done)) with (length done) by (unfold zlen; lia). rewrite upd_mid. rewrite zlen_app, zlen_cons. change (zlen (@nil Z)) with 0.
      replace (zlen l - (zlen done + (0 + 1))) with (zlen todo) by lia. rewrite <- app_assoc. cbn [app].
      reflexivity.
    + rewrite zlen_app, zlen_cons. change (zlen (@nil Z)) with 0. lia.
  - rewrite E, P. replace (zlen l - zlen l) with 0 by lia. rewrite app_nil_r. reflexivity.
Qed.
Lemma enumerate_is n : 0 <= n < 2 ^ 60 -> enumerate_quotients n = Ok (qlist n).
Proof.
  intros H. unfold enumerate_quotients. rewrite num_is by auto. cbn [bind]. rewrite foreach_is by auto. rewrite fill_is. reflexivity.
Qed.

(* ---- what the list contains ---- *)
Lemma qlist_zlen n : 1 <= n -> zlen (qlist n) = 2 * Z.sqrt n - hb n.
Proof.
  intros H. unfold qlist. destruct (Z.eqb_spec n 0); [lia|]. rewrite zlen_app, zlen_up, zlen_dn.
  destruct (root n H) as (R1 & _). unfold hb. destruct (_ =? _); lia.
Qed.
Lemma hb_01 n : 0 <= hb n <= 1.
Proof. unfold hb; destruct (_ =? _); lia. Qed.
Lemma qlist_lo n i : 1 <= n -> 0 <= i < Z.sqrt n -> vget (qlist n) i = Ok (i + 1).
Proof.
  intros H Hi. unfold qlist. destruct (Z.eqb_spec n 0); [lia|]. rewrite vget_app1 by (rewrite zlen_up; lia). rewrite vget_up by lia. f_equal; lia.
Qed.
Lemma qlist_hi n j : 1 <= n -> 0 <= j < Z.sqrt n -> vget (qlist n) (zlen (qlist n) - 1 - j) = Ok (n / (j + 1)).
Proof.
  intros H Hj. rewrite qlist_zlen by auto. destruct (root n H) as (R1 & R2 & R3 & R4 & R5 & R6). pose proof (hb_01 n) as Hb.
  destruct (Z_lt_ge_dec j (Z.sqrt n - hb n)) as [L|L].
  - unfold qlist. destruct (Z.eqb_spec n 0); [lia|]. rewrite vget_app2 by (rewrite zlen_up; lia). rewrite zlen_up, vget_dn by lia. do 2 f_equal. lia.
  - assert (E : j = Z.sqrt n - 1 /\ hb n = 1) by lia. destruct E as [-> E]. unfold hb in *. destruct (Z.eqb_spec (Z.sqrt n) (n / Z.sqrt n)) as [F|F]; [|lia].
    rewrite qlist_lo by lia. f_equal. replace (Z.sqrt n - 1 + 1) with (Z.sqrt n) by lia. lia.
Qed.
(* below the root the quotients are distinct *)
Lemma drop n d : 1 <= n -> 1 <= d -> d <= Z.sqrt n -> n / (d + 1) < n / d \/ False.
Proof.
  intros H Hd Hr. left. destruct (root n H) as (R1 & R2 & R3 & R4 & R5 & R6). set (h := Z.sqrt n) in *.
  destruct (Z.eq_dec d h) as [->|N].
  - destruct (Z.eq_dec (n / h) h) as [E|E]; [|lia]. apply Z.div_lt_upper_bound; [lia|]. assert (n < h * (h + 1)) by (apply R6; lia). nia.
  - assert (L : d * (d + 1) <= n) by nia. apply Z.lt_le_trans with (n / (d + 1) + 1); [lia|].
    apply Z.div_le_lower_bound; [lia|].
    assert (A : n / (d + 1) * (d + 1) <= n) by (rewrite Z.mul_comm; apply Z.mul_div_le; lia).
    assert (B : d <= n / (d + 1)) by (apply Z.div_le_lower_bound; lia). lia.
Qed.
Lemma div_anti n d e : 0 <= n -> 0 < d <= e -> n / e <= n / d.
Proof. intros A B. apply Z.div_le_compat_l; lia. Qed.
Lemma div_strict n d e : 1 <= n -> 1 <= d < e -> d <= Z.sqrt n -> n / e < n / d.
Proof. intros H A B. destruct (drop n d H ltac:(lia) B) as [C|[]]. pose proof (div_anti n (d + 1) e ltac:(lia) ltac:(lia)). lia. Qed.

Lemma qlist_at n i a : 1 <= n -> vget (qlist n) i = Ok a ->
  (i < Z.sqrt n /\ a = i + 1) \/ (Z.sqrt n <= i /\ exists j, 0 <= j < Z.sqrt n /\ i = zlen (qlist n) - 1 - j /\ a = n / (j + 1) /\ Z.sqrt n < a).
Proof.
  intros H E. pose proof (vget_range _ _ _ E) as R. destruct (Z_lt_ge_dec i (Z.sqrt n)) as [L|L].
  - left. rewrite qlist_lo in E by lia. inversion E; lia.
  - right. split; [lia|]. exists (zlen (qlist n) - 1 - i). pose proof (hb_01 n) as Hb. rewrite qlist_zlen in * by auto.
    destruct (root n H) as (R1 & R2 & R3 & R4 & R5 & R6).
    split; [lia|]. split; [lia|].
    assert (Ej : a = n / (2 * Z.sqrt n - hb n - 1 - i + 1)).
    { pose proof (qlist_hi n (2 * Z.sqrt n - hb n - 1 - i) H ltac:(lia)) as Q. rewrite qlist_zlen in Q by auto.
      replace (2 * Z.sqrt n - hb n - 1 - (2 * Z.sqrt n - hb n - 1 - i)) with i in Q by lia. rewrite Q in E. inversion E; reflexivity. }
    split; [exact Ej|]. rewrite Ej. unfold hb in *. destruct (Z.eqb_spec (Z.sqrt n) (n / Z.sqrt n)) as [F|F].
    + apply Z.le_lt_trans with (n / Z.sqrt n); [lia|]. apply div_strict; lia.
    + apply Z.lt_le_trans with (n / Z.sqrt n); [lia|]. apply div_anti; lia.
Qed.
Lemma qlist_asc n : 0 <= n -> ascending (qlist n).
Proof.
  intros H i j a b L A B. destruct (Z.eq_dec n 0) as [->|N]. { apply vget_range in A. change (zlen (qlist 0)) with 0 in A. lia. }
  destruct (qlist_at n i a ltac:(lia) A) as [(A1 & A2)|(A1 & k & A2 & A3 & A4 & A5)];
  destruct (qlist_at n j b ltac:(lia) B) as [(B1 & B2)|(B1 & k' & B2 & B3 & B4 & B5)]; try lia.
  rewrite A4, B4. apply div_strict; lia.
Qed.
Lemma back_div n q : 0 < q -> q * q <= n -> n / (n / q) = q.
Proof.
  intros A B. assert (C : q <= n / q) by (apply Z.div_le_lower_bound; lia).
  pose proof (Z.div_mod n q ltac:(lia)) as D. pose proof (Z.mod_pos_bound n q ltac:(lia)) as M.
  symmetry. apply (Z.div_unique n (n / q) q (n mod q)); [left; lia|lia].
Qed.
Lemma qlist_in n q : 0 <= n -> In q (qlist n) <-> quotient_of n q.
Proof.
  intros H. destruct (Z.eq_dec n 0) as [->|N].
  { change (qlist 0) with (@nil Z). split; [intros []|]. intros (A & x & B & C). rewrite Z.div_0_l in C by lia. lia. }
  destruct (root n ltac:(lia)) as (R1 & R2 & R3 & R4 & R5 & R6). split.
  - intros I. apply In_vget in I. destruct I as (i & Ri & E). destruct (qlist_at n i q ltac:(lia) E) as [(A1 & A2)|(A1 & k & A2 & A3 & A4 & A5)].
    + split; [lia|]. exists (n / q). assert (q * q <= n) by nia. split; [|apply back_div; lia]. apply Z.div_str_pos. nia.
    + split; [lia|]. exists (k + 1). split; [lia|auto].
  - intros (Hq & x & Hx & E). destruct (Z_le_gt_dec x (Z.sqrt n)) as [L|L].
    + pose proof (qlist_hi n (x - 1) ltac:(lia) ltac:(lia)) as V. replace (x - 1 + 1) with x in V by lia. rewrite E in V. eapply vget_In; exact V.
    + assert (q <= Z.sqrt n). { rewrite <- E. apply Z.le_trans with (n / (Z.sqrt n + 1)); [apply div_anti; lia|lia]. }
      pose proof (qlist_lo n (q - 1) ltac:(lia) ltac:(lia)) as V. replace (q - 1 + 1) with q in V by lia. eapply vget_In; exact V.
Qed.
