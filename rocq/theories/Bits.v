(* Bit tricks used by the library. *)
From Verif Require Import Base BaseLemmas.

(* __builtin_ctz for a positive argument (0 otherwise) *)
Fixpoint ctz_pos (p : positive) : Z := match p with xO p => 1 + ctz_pos p | _ => 0 end.
Definition ctz (x : Z) : Z := match x with Zpos p => ctz_pos p | _ => 0 end.
(* __builtin_ctz is undefined at 0 *)
Definition ctz_ (x : Z) : res Z := if x =? 0 then UB else Ok (ctz x).

(* [x & -x] *)
Definition lowbit (x : Z) : Z := Z.land x (- x).

Lemma ctz_pos_nonneg p : 0 <= ctz_pos p.
Proof. induction p; cbn [ctz_pos]; lia. Qed.
Lemma ctz_nonneg x : 0 <= ctz x.
Proof. destruct x; cbn; try lia. apply ctz_pos_nonneg. Qed.
Lemma ctz_double x : 0 < x -> ctz (2 * x) = 1 + ctz x.
Proof. destruct x; intros; try lia. reflexivity. Qed.
Lemma ctz_odd x : 0 <= x -> ctz (2 * x + 1) = 0.
Proof. destruct x; intros; try lia; reflexivity. Qed.

Lemma pos_bin_ind (P : Z -> Prop) : (forall x, 0 <= x -> P (2 * x + 1)) -> (forall x, 0 < x -> P x -> P (2 * x)) ->
  forall x, 0 < x -> P x.
Proof.
  intros H1 H2 x Hx. destruct x as [|p|p]; try lia. clear Hx.
  induction p as [p IH|p IH|].
  - apply (H1 (Zpos p)); lia.
  - apply (H2 (Zpos p)); auto; lia.
  - apply (H1 0); lia.
Qed.

(* every positive number is 2^k (2 q + 1) *)
Lemma ctz_decomp x : 0 < x -> exists q, 0 <= q /\ x = 2 ^ ctz x * (2 * q + 1).
Proof.
  revert x. apply pos_bin_ind.
  - intros x Hx. exists x. rewrite ctz_odd by auto. rewrite Z.pow_0_r. lia.
  - intros x Hx (q & Hq & E). exists q. split; auto. rewrite ctz_double by auto.
    rewrite Z.pow_add_r by (try lia; apply ctz_nonneg). rewrite E at 1. ring.
Qed.
Lemma ctz_unique k q : 0 <= k -> 0 <= q -> ctz (2 ^ k * (2 * q + 1)) = k.
Proof.
  intros Hk Hq. revert k Hk. apply natlike_ind.
  - rewrite Z.pow_0_r, Z.mul_1_l. now apply ctz_odd.
  - intros k Hk IH. rewrite Z.pow_succ_r by auto. rewrite <- Z.mul_assoc.
    rewrite ctz_double by (apply Z.mul_pos_pos; [apply Z.pow_pos_nonneg|]; lia). lia.
Qed.
Lemma lowbit_odd x : lowbit (2 * x + 1) = 1.
Proof.
  unfold lowbit. replace (- (2 * x + 1)) with (2 * Z.lnot x + 1) by (unfold Z.lnot; lia).
  apply Z.bits_inj'. intros i Hi. rewrite Z.land_spec.
  destruct (Z.eq_dec i 0) as [->|N].
  - rewrite !Z.testbit_odd_0. reflexivity.
  - assert (exists j, 0 <= j /\ i = Z.succ j) as (j & Hj & ->) by (exists (i - 1); lia).
    assert (O : Z.testbit (2 * 0 + 1) (Z.succ j) = false) by (rewrite Z.testbit_odd_succ by auto; apply Z.bits_0).
    change (2 * 0 + 1) with 1 in O. rewrite O, !Z.testbit_odd_succ by lia.
    rewrite Z.lnot_spec by lia. destruct (Z.testbit x j); auto.
Qed.
Lemma lowbit_even x : lowbit (2 * x) = 2 * lowbit x.
Proof.
  unfold lowbit. replace (- (2 * x)) with (2 * - x) by lia.
  apply Z.bits_inj'. intros i Hi. rewrite Z.land_spec.
  destruct (Z.eq_dec i 0) as [->|N].
  - now rewrite !Z.testbit_even_0.
  - replace i with (Z.succ (i - 1)) by lia. rewrite !Z.testbit_even_succ by lia. now rewrite Z.land_spec.
Qed.
Lemma lowbit_ctz x : 0 < x -> lowbit x = 2 ^ ctz x.
Proof.
  revert x. apply pos_bin_ind.
  - intros x Hx. now rewrite lowbit_odd, ctz_odd.
  - intros x Hx IH. rewrite lowbit_even, IH, ctz_double by auto.
    rewrite Z.pow_add_r by (try lia; apply ctz_nonneg). reflexivity.
Qed.
Lemma lowbit_0 : lowbit 0 = 0. Proof. reflexivity. Qed.
Lemma lowbit_bound x : 0 < x -> 0 < lowbit x <= x.
Proof.
  intro H. rewrite lowbit_ctz by auto. destruct (ctz_decomp x H) as (q & Hq & E).
  pose proof (Z.pow_pos_nonneg 2 (ctz x) ltac:(lia) (ctz_nonneg x)). nia.
Qed.
Lemma ctz_mod x i : 0 < x -> 0 <= i -> (x mod 2 ^ i = 0 <-> i <= ctz x).
Proof.
  intros Hx Hi. pose proof (ctz_nonneg x) as Hc. destruct (ctz_decomp x Hx) as (q & Hq & E).
  assert (P : 0 < 2 ^ i) by (apply Z.pow_pos_nonneg; lia).
  split.
  - intros M. destruct (Z.le_gt_cases i (ctz x)) as [?|C]; auto. exfalso.
    apply Z.mod_divide in M; [|lia]. destruct M as (z & Ez).
    replace i with (ctz x + (1 + (i - ctz x - 1))) in Ez by lia.
    rewrite Z.pow_add_r in Ez by lia. rewrite Z.pow_add_r in Ez by lia. change (2 ^ 1) with 2 in Ez.
    set (w := 2 ^ (i - ctz x - 1)) in *. pose proof (Z.pow_pos_nonneg 2 (ctz x) ltac:(lia) Hc).
    assert (2 * q + 1 = z * (2 * w)) by nia. lia.
  - intros L. rewrite E. replace (ctz x) with (i + (ctz x - i)) at 1 by lia. rewrite Z.pow_add_r by lia.
    rewrite <- Z.mul_assoc, Z.mul_comm. apply Z.mod_mul. lia.
Qed.
