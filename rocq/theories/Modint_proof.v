From Coq Require Import Znumtheory.
From Verif Require Import Base BaseLemmas ZMod Modint_model Modint_spec Modint_run.

Lemma u32_small x : 0 <= x < 2 ^ 32 -> u32 x = x.
Proof. intros. apply Z.mod_small; lia. Qed.
Lemma u64_small x : 0 <= x < 2 ^ 64 -> u64 x = x.
Proof. intros. apply Z.mod_small; lia. Qed.
Lemma u128_small x : 0 <= x < 2 ^ 128 -> u128 x = x.
Proof. intros. apply Z.mod_small; lia. Qed.
Lemma to_i32_small x : - 2 ^ 31 <= x < 2 ^ 31 -> to_i32 x = x.
Proof.
  intros H. unfold to_i32.
  destruct (Z_lt_ge_dec x 0).
  - rewrite (mod_uniq' x (-1) (x + 2 ^ 32)) by lia. destruct (Z.ltb_spec (x + 2 ^ 32) (2 ^ 31)); lia.
  - rewrite Z.mod_small by lia. destruct (Z.ltb_spec x (2 ^ 31)); lia.
Qed.
Lemma to_i32_u64 x : to_i32 (u64 x) = to_i32 x.
Proof.
  unfold to_i32, u64. replace ((x mod 2 ^ 64) mod 2 ^ 32) with (x mod 2 ^ 32); [reflexivity|].
  symmetry. apply mod_eq_divide; [lia|].
  exists (- (x / 2 ^ 64) * 2 ^ 32). pose proof (Z.div_mod x (2 ^ 64) ltac:(lia)). lia.
Qed.
Lemma u64_sub_u64 x y : u64 (x - u64 y) = u64 (x - y).
Proof. apply mod_sub_r. Qed.
Lemma u32_u64 x : u32 (u64 x) = u32 x.
Proof.
  unfold u32, u64. apply mod_eq_divide; [lia|].
  exists (- (x / 2 ^ 64) * 2 ^ 32). pose proof (Z.div_mod x (2 ^ 64) ltac:(lia)). lia.
Qed.
Lemma i64_ok x : - 2 ^ 63 <= x < 2 ^ 63 -> i64 x = Ok x.
Proof. intros H. unfold i64. destruct (Z.leb_spec (- 2 ^ 63) x), (Z.ltb_spec x (2 ^ 63)); simpl; auto; lia. Qed.
Lemma i32_ok x : - 2 ^ 31 <= x < 2 ^ 31 -> i32 x = Ok x.
Proof. intros H. unfold i32. destruct (Z.leb_spec (- 2 ^ 31) x), (Z.ltb_spec x (2 ^ 31)); simpl; auto; lia. Qed.

(* ---- barrett (K = 64) --------------------------------------------------- *)
Lemma barrett_quorem_ok (care : bool) M x b : 1 <= M <= 2 ^ 31 -> (care = true \/ 2 <= M) -> 0 <= x < 2 ^ 64 ->
  barrett_new M = Ok b -> barrett_quorem care b x = (x / M, x mod M).
Proof.
  intros HM Hc Hx Hb. unfold barrett_new in Hb.
  destruct (Z.eqb_spec M 0); [lia|].
  assert (Hb' : b = mkBarrett M (u64 ((2 ^ 64 - 1) / M + 1))) by congruence. subst b. clear Hb.
  unfold barrett_quorem, b_M, b_L.
  destruct (Z.eqb_spec M 1) as [->|HM1].
  - destruct Hc as [->|]; [|lia]. cbn. rewrite Z.div_1_r, Z.mod_1_r. reflexivity.
  - rewrite andb_false_r.
    set (L := u64 ((2 ^ 64 - 1) / M + 1)).
    assert (HL : exists e, L * M = 2 ^ 64 + e /\ 0 <= e < M /\ 0 < L < 2 ^ 64).
    { pose proof (Z.div_mod (2 ^ 64 - 1) M ltac:(lia)).
      pose proof (Z.mod_pos_bound (2 ^ 64 - 1) M ltac:(lia)).
      assert (0 <= (2 ^ 64 - 1) / M < 2 ^ 63) by (split; [apply Z.div_pos; lia | apply Z.div_lt_upper_bound; lia]).
      unfold L. rewrite u64_small by lia.
      exists (M - 1 - (2 ^ 64 - 1) mod M). nia. }
    clearbody L. destruct HL as (e & HLe & He & HL).
    pose proof (mul_bound x L (2 ^ 64) (2 ^ 64) ltac:(lia) ltac:(lia)) as HxL.
    rewrite u128_small by lia.
    set (q := x * L / 2 ^ 64).
    pose proof (Z.div_mod (x * L) (2 ^ 64) ltac:(lia)) as Eq. fold q in Eq.
    pose proof (Z.mod_pos_bound (x * L) (2 ^ 64) ltac:(lia)) as Bq.
    set (f := (x * L) mod 2 ^ 64) in *. clearbody q f.
    assert (Hq0 : 0 <= q < 2 ^ 64) by lia.
    rewrite (u64_small q) by lia.
    (* q * M * 2^64 = x (2^64 + e) - f M *)
    assert (E : q * M * 2 ^ 64 = x * 2 ^ 64 + x * e - f * M).
    { replace (q * M * 2 ^ 64) with ((2 ^ 64 * q + f) * M - f * M) by ring. rewrite <- Eq.
      replace (x * L * M) with (x * (L * M)) by ring. rewrite HLe. ring. }
    assert (Hr : - M < x - q * M < M).
    { assert (x * e <= x * M) by (apply Z.mul_le_mono_nonneg_l; lia).
      assert (x * M < 2 ^ 64 * M) by (apply Z.mul_lt_mono_pos_r; lia).
      assert (f * M < 2 ^ 64 * M) by (apply Z.mul_lt_mono_pos_r; lia).
      assert (0 <= x * e) by (apply Z.mul_nonneg_nonneg; lia).
      assert (0 <= f * M) by (apply Z.mul_nonneg_nonneg; lia).
      lia. }
    rewrite u64_sub_u64, to_i32_u64, to_i32_small by lia.
    set (r := x - q * M) in *.
    destruct (Z.ltb_spec r 0) as [H0|H0].
    + rewrite (u32_small (r + M)) by lia.
      assert (Q : 1 <= q) by nia.
      rewrite (u64_small (q - 1)) by lia.
      rewrite to_i32_small by lia. rewrite u32_small by lia.
      f_equal.
      * apply Z.div_unique_pos with (r := r + M); lia.
      * symmetry; apply mod_uniq' with (q := q - 1); lia.
    + rewrite u32_small by lia. f_equal.
      * apply Z.div_unique_pos with (r := r); lia.
      * symmetry; apply mod_uniq' with (q := q); lia.
Qed.

(* ---- barrett_K128 ------------------------------------------------------- *)
Lemma barrett128_rem_ok (care : bool) M c b : 1 <= M < 2 ^ 32 -> (care = true \/ 2 <= M \/ c = 0) -> 0 <= c < 2 ^ 64 ->
  barrett128_new M = Ok b -> barrett128_rem care b c = c mod M.
Proof.
  intros HM Hc Hx Hb. unfold barrett128_new in Hb.
  destruct (Z.eqb_spec M 0); [lia|].
  assert (Hb' : b = mkB128 M (u64 (u128 ((2 ^ 128 - 1) / M + 1))) (u64 (u128 ((2 ^ 128 - 1) / M + 1) / 2 ^ 64)))
    by congruence. subst b. clear Hb.
  unfold barrett128_rem, k_M, k_dL, k_uL.
  destruct (Z.eqb_spec M 1) as [->|HM1].
  - rewrite Z.mod_1_r. destruct care; cbn [andb]; [reflexivity|].
    destruct Hc as [Hc|[Hc|Hc]]; [discriminate|lia|]. subst c. vm_compute. reflexivity.
  - rewrite andb_false_r.
    set (L := u128 ((2 ^ 128 - 1) / M + 1)).
    assert (HL : exists e, L * M = 2 ^ 128 + e /\ 0 <= e < M /\ 0 < L < 2 ^ 128).
    { pose proof (Z.div_mod (2 ^ 128 - 1) M ltac:(lia)).
      pose proof (Z.mod_pos_bound (2 ^ 128 - 1) M ltac:(lia)).
      assert (0 <= (2 ^ 128 - 1) / M < 2 ^ 127) by (split; [apply Z.div_pos; lia | apply Z.div_lt_upper_bound; lia]).
      unfold L. rewrite u128_small by lia.
      exists (M - 1 - (2 ^ 128 - 1) mod M). nia. }
    clearbody L. destruct HL as (e & HLe & He & HL).
    assert (HuL : 0 <= L / 2 ^ 64 < 2 ^ 64) by (split; [apply Z.div_pos; lia | apply Z.div_lt_upper_bound; lia]).
    rewrite (u64_small (L / 2 ^ 64)) by lia.
    pose proof (Z.div_mod L (2 ^ 64) ltac:(lia)) as EL.
    pose proof (Z.mod_pos_bound L (2 ^ 64) ltac:(lia)) as BL.
    fold (u64 L) in EL, BL.
    set (uL := L / 2 ^ 64) in *. set (dL := u64 L) in *. clearbody uL dL.
    pose proof (mul_bound c uL (2 ^ 64) (2 ^ 64) ltac:(lia) ltac:(lia)) as HcuL.
    pose proof (mul_bound c dL (2 ^ 64) (2 ^ 64) ltac:(lia) ltac:(lia)) as HcdL.
    rewrite (u128_small (c * uL)) by lia. rewrite (u128_small (c * dL)) by lia.
    set (cu := c * uL).
    assert (Hcu : 0 <= cu < 2 ^ 128) by (unfold cu; lia).
    pose proof (Z.div_mod (c * dL) (2 ^ 64) ltac:(lia)) as Ed.
    pose proof (Z.mod_pos_bound (c * dL) (2 ^ 64) ltac:(lia)) as Bd.
    assert (Hcd : 0 <= c * dL / 2 ^ 64 < 2 ^ 64) by (split; [apply Z.div_pos; lia | apply Z.div_lt_upper_bound; lia]).
    rewrite (u64_small (c * dL / 2 ^ 64)) by lia.
    set (cd := c * dL / 2 ^ 64) in *. set (fd := (c * dL) mod 2 ^ 64) in *. clearbody cd fd.
    assert (Hq1 : 0 <= cu / 2 ^ 64 < 2 ^ 64) by (split; [apply Z.div_pos; lia | apply Z.div_lt_upper_bound; lia]).
    rewrite (u64_small (cu / 2 ^ 64)) by lia.
    pose proof (Z.div_mod cu (2 ^ 64) ltac:(lia)) as Eu.
    pose proof (Z.mod_pos_bound cu (2 ^ 64) ltac:(lia)) as Bu.
    fold (u64 cu) in Eu, Bu.
    set (q1 := cu / 2 ^ 64) in *. set (fu := u64 cu) in *. clearbody q1 fu.
    rewrite u64_sub_u64, u32_u64.
    (* c * L = 2^64 (cu + cd) + fd ; carry *)
    assert (EcL : c * L = 2 ^ 128 * q1 + 2 ^ 64 * (fu + cd) + fd).
    { rewrite EL. replace (c * (2 ^ 64 * uL + dL)) with (2 ^ 64 * cu + c * dL) by (unfold cu; ring).
      rewrite Ed, Eu. ring. }
    assert (EM : c * L * M = c * 2 ^ 128 + c * e).
    { replace (c * L * M) with (c * (L * M)) by ring. rewrite HLe. ring. }
    assert (Hce : 0 <= c * e < 2 ^ 96).
    { split; [nia|]. apply Z.le_lt_trans with (c * (2 ^ 32)); [apply Z.mul_le_mono_nonneg_l; lia|lia]. }
    (* generic: if c*L = 2^128 q + f with 0<=f<2^128 then c - q M = c mod M *)
    assert (G : forall q f, c * L = 2 ^ 128 * q + f -> 0 <= f < 2 ^ 128 -> c - q * M = c mod M).
    { intros q f Hqf Hf. symmetry.
      assert (E : 2 ^ 128 * (c - q * M) = f * M - c * e).
      { rewrite Hqf in EM. nia. }
      assert (Hub : c - q * M < M) by nia.
      assert (Hlb : 0 <= c - q * M) by nia.
      apply mod_uniq' with (q := q); lia. }
    assert (Hm : 0 <= c mod M < M) by (apply Z.mod_pos_bound; lia).
    destruct (Z.gtb_spec fu (2 ^ 64 - 1 - cd)) as [Hcar|Hcar].
    + specialize (G (q1 + 1) (2 ^ 64 * (fu + cd) + fd - 2 ^ 128) ltac:(lia) ltac:(lia)).
      unfold u32. rewrite mod_sub_l.
      replace (c - q1 * M - M) with (c mod M) by lia. apply Z.mod_small; lia.
    + specialize (G q1 (2 ^ 64 * (fu + cd) + fd) ltac:(lia) ltac:(lia)).
      rewrite G. apply u32_small; lia.
Qed.

(* ---- static_modint ------------------------------------------------------- *)
Section Static.
  Variable m : Z.
  Hypothesis Hm : 1 <= m < 2 ^ 31.

  Lemma sm_of_signed_ok v : sm_of_signed m v = v mod m.
  Proof.
    unfold sm_of_signed. pose proof (Z.rem_bound_abs v m ltac:(lia)).
    pose proof (rem_mod_pos v m ltac:(lia)) as H1.
    pose proof (Z.mod_pos_bound v m ltac:(lia)).
    rewrite to_i32_small by lia.
    destruct (Z.ltb_spec (Z.rem v m) 0); rewrite u32_small by lia; lia.
  Qed.

  Lemma sm_of_unsigned_ok v : sm_of_unsigned m v = v mod m.
  Proof.
    unfold sm_of_unsigned. pose proof (Z.mod_pos_bound v m ltac:(lia)). apply u32_small; lia.
  Qed.

  Lemma sm_add_ok x y : sm_add m (x mod m) (y mod m) = (x + y) mod m.
  Proof.
    unfold sm_add. pose proof (Z.mod_pos_bound x m ltac:(lia)). pose proof (Z.mod_pos_bound y m ltac:(lia)).
    rewrite (u32_small (x mod m + y mod m)) by lia.
    rewrite <- mod_add_l, <- mod_add_r.
    set (a := x mod m) in *. set (b := y mod m) in *. clearbody a b.
    symmetry. destruct (Z.geb_spec (a + b) m).
    - rewrite u32_small by lia. apply mod_uniq' with (q := 1); lia.
    - apply Z.mod_small; lia.
  Qed.

  Lemma sm_sub_ok x y : sm_sub m (x mod m) (y mod m) = (x - y) mod m.
  Proof.
    unfold sm_sub. pose proof (Z.mod_pos_bound x m ltac:(lia)). pose proof (Z.mod_pos_bound y m ltac:(lia)).
    rewrite <- mod_sub_l, <- mod_sub_r.
    set (a := x mod m) in *. set (b := y mod m) in *. clearbody a b.
    symmetry. destruct (Z_lt_ge_dec (a - b) 0).
    - assert (E : u32 (a - b) = a - b + 2 ^ 32) by (apply mod_uniq' with (q := -1); lia).
      rewrite E. destruct (Z.geb_spec (a - b + 2 ^ 32) m); [|lia].
      assert (E2 : u32 (a - b + 2 ^ 32 + m) = a - b + m) by (apply mod_uniq' with (q := 1); lia).
      rewrite E2. apply mod_uniq' with (q := -1); lia.
    - rewrite u32_small by lia. destruct (Z.geb_spec (a - b) m); [lia|]. apply Z.mod_small; lia.
  Qed.

  Lemma sm_mul_ok x y : sm_mul m (x mod m) (y mod m) = (x * y) mod m.
  Proof.
    unfold sm_mul. pose proof (Z.mod_pos_bound x m ltac:(lia)). pose proof (Z.mod_pos_bound y m ltac:(lia)).
    rewrite u64_small by nia. rewrite mod_mul_l, mod_mul_r. apply u32_small.
    pose proof (Z.mod_pos_bound (x * y) m ltac:(lia)). lia.
  Qed.

  Lemma sm_neg_ok x : sm_neg m (x mod m) = (- x) mod m.
  Proof.
    unfold sm_neg. pose proof (Z.mod_pos_bound x m ltac:(lia)).
    pose proof (Z.div_mod x m ltac:(lia)). symmetry.
    destruct (Z.eqb_spec (x mod m) 0) as [E|E].
    - rewrite E. apply mod_uniq' with (q := - (x / m)); lia.
    - rewrite (u32_small (m - x mod m)) by lia. rewrite to_i32_small by lia.
      rewrite u32_small by lia. apply mod_uniq' with (q := - (x / m) - 1); lia.
  Qed.

  Lemma sm_inc_ok x : sm_inc m (x mod m) = (x + 1) mod m.
  Proof.
    unfold sm_inc. pose proof (Z.mod_pos_bound x m ltac:(lia)). rewrite u32_small by lia.
    rewrite <- mod_add_l. set (a := x mod m) in *. clearbody a. symmetry.
    destruct (Z.eqb_spec (a + 1) m).
    - apply mod_uniq' with (q := 1); lia.
    - apply Z.mod_small; lia.
  Qed.

  Lemma sm_dec_ok x : sm_dec m (x mod m) = (x - 1) mod m.
  Proof.
    unfold sm_dec. pose proof (Z.mod_pos_bound x m ltac:(lia)).
    rewrite <- mod_sub_l. set (a := x mod m) in *. clearbody a. symmetry.
    destruct (Z.eqb_spec a 0).
    - rewrite u32_small by lia. apply mod_uniq' with (q := -1); lia.
    - rewrite u32_small by lia. apply Z.mod_small; lia.
  Qed.

  Lemma mpow_loop_ok mul : (forall x y, mul (x mod m) (y mod m) = (x * y) mod m) ->
    forall fuel n x r, 0 <= n < 2 ^ (Z.of_nat fuel - 1) -> (0 < fuel)%nat ->
    mpow_loop fuel mul n (x mod m) (r mod m) = Ok ((r * x ^ n) mod m).
  Proof.
    intros Hmul. induction fuel as [|k IH]; intros n x r Hn Hf; [lia|].
    cbn [mpow_loop]. destruct (Z.eqb_spec n 0) as [->|Hn0].
    - rewrite Z.pow_0_r, Z.mul_1_r. reflexivity.
    - destruct k as [|k'].
      + change (Z.of_nat 1 - 1) with 0 in Hn. rewrite Z.pow_0_r in Hn. lia.
      + assert (Hn2 : 0 <= n / 2 < 2 ^ (Z.of_nat (S k') - 1)).
        { split; [apply Z.div_pos; lia|]. apply Z.div_lt_upper_bound; [lia|].
          rewrite <- Z.pow_succ_r by lia. replace (Z.succ (Z.of_nat (S k') - 1)) with (Z.of_nat (S (S k')) - 1) by lia. lia. }
        rewrite Hmul. rewrite (pow_half x n) by lia.
        destruct (Z.odd n).
        * rewrite Hmul, IH by (auto; lia). f_equal. f_equal. ring.
        * rewrite IH by (auto; lia). f_equal. f_equal. ring.
  Qed.

  Lemma sm_pow_ok x n : 0 <= n < 2 ^ 63 -> sm_pow m (x mod m) n = Ok (x ^ n mod m).
  Proof.
    intros Hn. unfold sm_pow, assert_. destruct (Z.leb_spec 0 n); [|lia]. cbn [bind].
    rewrite sm_of_signed_ok.
    rewrite mpow_loop_ok; [|exact sm_mul_ok|change (Z.of_nat 64 - 1) with 63; lia|lia].
    rewrite Z.mul_1_l. reflexivity.
  Qed.

  Lemma sm_eval_ok e : mexpr_ok e -> sm_eval m e = Ok (ieval e mod m).
  Proof.
    induction e as [v|v|a IHa b IHb|a IHa b IHb|a IHa b IHb|a IHa|a IHa|a IHa|a IHa n]; cbn [mexpr_ok sm_eval ieval]; intros H.
    - rewrite sm_of_signed_ok; reflexivity.
    - rewrite sm_of_unsigned_ok; reflexivity.
    - rewrite IHa, IHb by tauto. cbn [bind]. rewrite sm_add_ok; reflexivity.
    - rewrite IHa, IHb by tauto. cbn [bind]. rewrite sm_sub_ok; reflexivity.
    - rewrite IHa, IHb by tauto. cbn [bind]. rewrite sm_mul_ok; reflexivity.
    - rewrite IHa by tauto. cbn [bind]. rewrite sm_neg_ok; reflexivity.
    - rewrite IHa by tauto. cbn [bind]. rewrite sm_inc_ok; reflexivity.
    - rewrite IHa by tauto. cbn [bind]. rewrite sm_dec_ok; reflexivity.
    - rewrite IHa by tauto. cbn [bind]. apply sm_pow_ok; tauto.
  Qed.

  (* ---- dynamic_modint ---------------------------------------------------- *)
  Variable b : barrett128.
  Hypothesis Hb : barrett128_new m = Ok b.

  Lemma k_M_b : k_M b = m.
  Proof.
    unfold barrett128_new in Hb. destruct (Z.eqb_spec m 0); [discriminate|]. 
    assert (Hb' : b = mkB128 m (u64 (u128 ((2 ^ 128 - 1) / m + 1))) (u64 (u128 ((2 ^ 128 - 1) / m + 1) / 2 ^ 64)))
      by congruence. subst b. reflexivity.
  Qed.

  Lemma dm_of_signed_ok v : - 2 ^ 63 <= v < 2 ^ 63 -> dm_of_signed b v = v mod m.
  Proof.
    intros Hv. unfold dm_of_signed. rewrite k_M_b. destruct (Z.ltb_spec v 0).
    - apply sm_of_signed_ok.
    - apply barrett128_rem_ok; auto; lia.
  Qed.

  Lemma dm_mul_ok x y : dm_mul b (x mod m) (y mod m) = (x * y) mod m.
  Proof.
    pose proof (Z.mod_pos_bound x m ltac:(lia)). pose proof (Z.mod_pos_bound y m ltac:(lia)).
    unfold dm_mul, barrett128_mul. rewrite u64_small by nia.
    rewrite barrett128_rem_ok with (M := m); auto; [|lia| |nia].
    - rewrite mod_mul_l, mod_mul_r. reflexivity.
    - right. destruct (Z.eq_dec m 1) as [E|]; [right|left; lia]. nia.
  Qed.

  Lemma dm_pow_ok x n : 0 <= n < 2 ^ 63 -> dm_pow b (x mod m) n = Ok (x ^ n mod m).
  Proof.
    intros Hn. unfold dm_pow, assert_. destruct (Z.leb_spec 0 n); [|lia]. cbn [bind].
    rewrite dm_of_signed_ok by lia.
    rewrite mpow_loop_ok; [|exact dm_mul_ok|change (Z.of_nat 64 - 1) with 63; lia|lia].
    rewrite Z.mul_1_l. reflexivity.
  Qed.

  Lemma dm_eval_ok e : mexpr_ok e -> no_neg e -> dm_eval b e = Ok (ieval e mod m).
  Proof.
    induction e as [v|v|a IHa c IHb|a IHa c IHb|a IHa c IHb|a IHa|a IHa|a IHa|a IHa n]; cbn [mexpr_ok no_neg dm_eval ieval]; intros H Hg.
    - rewrite dm_of_signed_ok; auto.
    - unfold dm_of_unsigned. rewrite barrett128_rem_ok with (M := m); auto; lia.
    - rewrite IHa, IHb by tauto. cbn [bind]. unfold dm_add. rewrite k_M_b, sm_add_ok; reflexivity.
    - rewrite IHa, IHb by tauto. cbn [bind]. unfold dm_sub. rewrite k_M_b, sm_sub_ok; reflexivity.
    - rewrite IHa, IHb by tauto. cbn [bind]. rewrite dm_mul_ok; reflexivity.
    - tauto.
    - rewrite IHa by tauto. cbn [bind]. unfold dm_inc. rewrite k_M_b, sm_inc_ok; reflexivity.
    - rewrite IHa by tauto. cbn [bind]. unfold dm_dec. rewrite k_M_b, sm_dec_ok; reflexivity.
    - rewrite IHa by tauto. cbn [bind]. apply dm_pow_ok; tauto.
  Qed.
End Static.
