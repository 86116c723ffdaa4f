(* Lucas' primality criterion, used to prove concrete numbers prime. *)
From Verif Require Import Base BaseLemmas ZMod NumTheory.
From Coq Require Import Znumtheory Zpow_facts Wf_Z.

Lemma prime_divisor n : 1 < n -> exists p, prime p /\ (p | n).
Proof.
  intro H. assert (0 <= n) by lia. revert H. pattern n. apply Zlt_0_ind; auto. intros m IH _ Hm.
  destruct (prime_dec m) as [P|P]; [exists m; split; auto; reflexivity|].
  destruct (not_prime_divide m Hm P) as (d & Hd & D). destruct (IH d) as (p & Pp & Dp); try lia.
  exists p. split; auto. now apply Z.divide_trans with d.
Qed.
Lemma least_such (P : Z -> Prop) (dec : forall k, {P k} + {~ P k}) n : 0 < n -> P n ->
  exists d, 0 < d <= n /\ P d /\ forall k, 0 < k < d -> ~ P k.
Proof.
  intros Hn. assert (0 <= n) by lia. revert Hn. pattern n. apply Zlt_0_ind; auto. intros m IH _ Hm Pm.
  assert (D : (exists k, 0 < k < m /\ P k) \/ forall k, 0 < k < m -> ~ P k).
  { clear -dec. assert (forall j, (0 <= j)%Z -> (exists k, 0 < k < j /\ P k) \/ forall k, 0 < k < j -> ~ P k).
    { apply natlike_ind; [right; intros; lia|]. intros j Hj [(k & Hk & Pk)|N]; [left; exists k; split; auto; lia|].
      unfold Z.succ. destruct (dec j) as [Pj|Nj].
      - destruct (Z.eq_dec j 0); [right; intros k Hk; lia|]. left. exists j. split; auto; lia.
      - right. intros k Hk. destruct (Z.eq_dec k j); [subst; auto|apply N; lia]. }
    destruct (Z_lt_ge_dec m 0); [right; intros; lia|apply H; lia]. }
  destruct D as [(k & Hk & Pk)|N]; [|exists m; repeat split; auto; lia].
  destruct (IH k) as (d & Hd & Pd & Ld); auto; try lia. exists d. repeat split; auto; lia.
Qed.

Lemma order_divides a p d n : 1 < p -> 0 < d -> a ^ d mod p = 1 -> (forall k, 0 < k < d -> a ^ k mod p <> 1) ->
  0 <= n -> a ^ n mod p = 1 -> (d | n).
Proof.
  intros Hp Hd E L Hn En. rewrite (Z.div_mod n d) in En by lia.
  pose proof (Z.mod_pos_bound n d Hd) as B. pose proof (Z.div_pos n d Hn Hd) as B'.
  rewrite Z.pow_add_r, Z.pow_mul_r in En by nia.
  rewrite <- mod_mul_l in En. rewrite <- mod_pow_l in En by lia. rewrite E in En. rewrite Z.pow_1_l in En by lia.
  rewrite (Z.mod_small 1) in En by lia. rewrite Z.mul_1_l in En.
  apply Z.mod_divide; [lia|]. destruct (Z.eq_dec (n mod d) 0); auto. exfalso. apply (L (n mod d)); auto. lia.
Qed.
Lemma prime_div_zprod r fs : prime r -> (r | zprod fs) -> exists f, In f fs /\ (r | f).
Proof.
  intros P. induction fs as [|f fs IH]; cbn; intro D.
  - exfalso. pose proof (prime_gt1 r P). apply Z.divide_1_r in D. lia.
  - apply prime_mult in D; auto. destruct D as [D|D]; [eauto|]. destruct (IH D) as (g & G1 & G2). eauto.
Qed.

Theorem lucas n a fs : 1 < n -> Forall prime fs -> zprod fs = n - 1 -> a ^ (n - 1) mod n = 1 ->
  (forall q, In q fs -> Z.gcd (a ^ ((n - 1) / q) - 1) n = 1) -> prime n.
Proof.
  intros Hn Pf Ef En Eq. destruct (prime_divisor n Hn) as (p & Pp & Dp). pose proof (prime_gt1 p Pp) as Hp.
  assert (Ep : forall k, a ^ k mod n = 1 -> a ^ k mod p = 1).
  { intros k Ek. apply mod_uniq; [lia|]. apply Z.divide_trans with n; auto.
    apply mod_eq_divide; [lia|]. rewrite Ek. now rewrite Z.mod_small by lia. }
  assert (Na : ~ (p | a)).
  { intro D. specialize (Ep _ En). assert (a ^ (n - 1) mod p = 0); [|lia]. apply Z.mod_divide; [lia|].
    replace (n - 1) with (1 + (n - 2)) by lia. rewrite Z.pow_add_r, Z.pow_1_r by lia. now apply Z.divide_mul_l. }
  destruct (least_such (fun k => a ^ k mod p = 1) (fun k => Z.eq_dec _ _) (p - 1)) as (d & Hd & Ed & Ld); [lia|now apply fermat|].
  assert (Dd : (d | n - 1)) by (apply (order_divides a p d (n - 1)); auto; lia).
  destruct Dd as (e & He). destruct (Z_lt_ge_dec 1 e) as [He1|He1].
  - exfalso. destruct (prime_divisor e He1) as (r & Pr & (e' & Ee)).
    assert (Hr : In r fs).
    { destruct (prime_div_zprod r fs Pr) as (f & If & Df).
      - rewrite Ef, He, Ee. exists (e' * d). ring.
      - rewrite Forall_forall in Pf. rewrite (prime_div_prime r f Pr (Pf f If) Df). exact If. }
    pose proof (prime_gt1 r Pr) as Hr1.
    assert (X : (n - 1) / r = d * e'). { rewrite He, Ee. replace (e' * r * d) with (d * e' * r) by ring. apply Z.div_mul. lia. }
    specialize (Eq r Hr). rewrite X in Eq.
    assert (0 < e') by (clear -Ee He1 Hr1; nia).
    assert (a ^ (d * e') mod p = 1).
    { rewrite Z.pow_mul_r by lia. rewrite <- mod_pow_l by lia. rewrite Ed, Z.pow_1_l by lia. apply Z.mod_small; lia. }
    assert (p | 1); [|apply Z.divide_1_r in H1; lia]. rewrite <- Eq. apply Z.gcd_greatest; auto.
    apply mod_eq_divide; [lia|]. rewrite H0. now rewrite Z.mod_small by lia.
  - assert (e = 1) by (clear -He He1 Hd Hn; nia). subst e. assert (n <= p) by (clear -He Hd; lia). clear -Pp Hp Dp H Hn. apply Z.divide_pos_le in Dp; try lia. now replace n with p by lia.
Qed.

(* computable form *)
Definition small_prime (n : Z) : bool := (1 <? n) && forallb (fun k => negb ((n mod (Z.of_nat k + 2)) =? 0)) (seq 0 (Z.to_nat (n - 2))).
Lemma small_prime_ok n : small_prime n = true -> prime n.
Proof.
  unfold small_prime. rewrite andb_true_iff, forallb_forall. intros (H1 & H2). apply Z.ltb_lt in H1.
  destruct (prime_dec n) as [P|P]; auto. destruct (not_prime_divide n H1 P) as (d & Hd & D).
  specialize (H2 (Z.to_nat (d - 2))). rewrite in_seq in H2. specialize (H2 ltac:(lia)).
  replace (Z.of_nat (Z.to_nat (d - 2)) + 2) with d in H2 by lia. apply Z.mod_divide in D; [|lia]. rewrite D in H2. discriminate.
Qed.
Definition lucas_check (n a : Z) (fs : list Z) : bool :=
  (1 <? n) && forallb small_prime fs && (zprod fs =? n - 1) && (Zpow_mod a (n - 1) n =? 1) &&
  forallb (fun q => Z.gcd (Zpow_mod a ((n - 1) / q) n - 1) n =? 1) fs.
Lemma gcd_mod_sub1 x n : 0 < n -> Z.gcd (x mod n - 1) n = Z.gcd (x - 1) n.
Proof.
  intro H. rewrite (Z.gcd_comm _ n), (Z.gcd_comm (x - 1) n). rewrite <- (Z.gcd_mod (x mod n - 1) n), <- (Z.gcd_mod (x - 1) n) by lia. now rewrite mod_sub_l.
Qed.
Theorem lucas_check_ok n a fs : lucas_check n a fs = true -> prime n.
Proof.
  unfold lucas_check. rewrite !andb_true_iff, !forallb_forall. intros ((((H1 & H2) & H3) & H4) & H5).
  apply Z.ltb_lt in H1. apply Z.eqb_eq in H3. apply Z.eqb_eq in H4. rewrite Zpow_mod_correct in H4 by lia.
  apply (lucas n a fs); auto.
  - apply Forall_forall. intros f Hf. apply small_prime_ok. auto.
  - intros q Hq. specialize (H5 q Hq). apply Z.eqb_eq in H5. rewrite Zpow_mod_correct in H5 by lia.
    now rewrite gcd_mod_sub1 in H5 by lia.
Qed.
Lemma prime_m61 : prime (2 ^ 61 - 1).
Proof. apply (lucas_check_ok _ 37 [2; 3; 3; 5; 5; 7; 11; 13; 31; 41; 61; 151; 331; 1321]). vm_compute. reflexivity. Qed.
