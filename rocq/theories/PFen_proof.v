From Verif Require Import Base BaseLemmas ListZ PFen_spec PFen_model.

Definition psum (A : list Z) (m : Z) : Z := total (firstn (Z.to_nat m) A).
Lemma total_app l m : total (l ++ m) = total l + total m.
Proof. unfold total. induction l as [|x l IH]; cbn [app fold_right]; [lia|rewrite IH; lia]. Qed.
Lemma psum_0 A : psum A 0 = 0. Proof. reflexivity. Qed.
Lemma psum_range A l r : 0 <= l <= r -> total (firstn (Z.to_nat (r - l)) (skipn (Z.to_nat l) A)) = psum A r - psum A l.
Proof.
  intros H. unfold psum. rewrite <- (firstn_skipn (Z.to_nat l) (firstn (Z.to_nat r) A)), total_app, firstn_firstn, skipn_firstn_comm. rewrite Nat.min_l by lia. replace (Z.to_nat r - Z.to_nat l)%nat with (Z.to_nat (r - l)) by lia. lia.
Qed.
Lemma psum_upd A i x v m : vget A i = Ok x -> 0 <= m -> psum (zupd A i (x + v)) m = psum A m + (if i <? m then v else 0).
Proof.
  intros E Hm. pose proof (vget_range _ _ _ E) as R. revert i m E Hm R. induction A as [|y A IH]; intros i m E Hm R; [change (zlen (@nil Z)) with 0 in R; lia|]. rewrite zlen_cons in R. unfold psum, zupd in *. destruct (Z.eq_dec i 0) as [->|Ni].
  - rewrite vget_cons0 in E. injection E as <-. change (Z.to_nat 0) with O. cbn [upd]. destruct (Z.ltb_spec 0 m).
    + replace (Z.to_nat m) with (S (Z.to_nat (m - 1))) by lia. cbn [firstn total fold_right]. fold (total (firstn (Z.to_nat (m - 1)) A)). lia.
    + replace m with 0 by lia. reflexivity.
  - rewrite vget_consS in E by lia. replace (Z.to_nat i) with (S (Z.to_nat (i - 1))) by lia. cbn [upd]. destruct (Z.eq_dec m 0) as [->|Nm]; [destruct (Z.ltb_spec i 0); [lia|reflexivity]|].
    replace (Z.to_nat m) with (S (Z.to_nat (m - 1))) by lia. cbn [firstn total fold_right]. specialize (IH (i - 1) (m - 1) E ltac:(lia) ltac:(lia)). unfold total in *. rewrite IH. destruct (Z.ltb_spec (i - 1) (m - 1)), (Z.ltb_spec i m); lia.
Qed.
Lemma psum_zero n m : psum (vrep n 0) m = 0.
Proof. unfold psum, vrep, total. generalize (Z.to_nat m). induction (Z.to_nat n) as [|k IH]; intros j; destruct j; cbn; auto. Qed.

(* bits *)
Lemma pow_S k : 2 ^ Z.of_nat (S k) = 2 * 2 ^ Z.of_nat k.
Proof. rewrite Nat2Z.inj_succ, Z.pow_succ_r; lia. Qed.
Lemma pow_pos k : 0 < 2 ^ Z.of_nat k. Proof. apply Z.pow_pos_nonneg; lia. Qed.
Lemma land_pow i k : 0 <= i < 2 ^ Z.of_nat (S k) -> negb (Z.land i (2 ^ Z.of_nat k) =? 0) = (2 ^ Z.of_nat k <=? i).
Proof.
  intros H. rewrite pow_S in H. pose proof (pow_pos k). assert (T : Z.testbit i (Z.of_nat k) = (2 ^ Z.of_nat k <=? i)).
  { rewrite Z.testbit_odd, Z.shiftr_div_pow2 by lia. destruct (Z.leb_spec (2 ^ Z.of_nat k) i) as [L|L].
    - replace (i / 2 ^ Z.of_nat k) with 1; [reflexivity|]. apply (Z.div_unique_pos i (2 ^ Z.of_nat k) 1 (i - 2 ^ Z.of_nat k)); lia.
    - now rewrite Z.div_small by lia. }
  rewrite <- T. destruct (Z.testbit i (Z.of_nat k)) eqn:B.
  - apply negb_true_iff, Z.eqb_neq. intros X. apply (f_equal (fun z => Z.testbit z (Z.of_nat k))) in X. rewrite Z.land_spec, B, Z.pow2_bits_true, Z.bits_0 in X by lia. discriminate.
  - apply negb_false_iff, Z.eqb_eq. apply Z.bits_inj'. intros j Hj. rewrite Z.land_spec, Z.bits_0, Z.pow2_bits_eqb by lia. destruct (Z.eqb_spec (Z.of_nat k) j) as [<-|]; [now rewrite B|apply andb_false_r].
Qed.
Lemma lxor_pow i k : 2 ^ Z.of_nat k <= i < 2 ^ Z.of_nat (S k) -> Z.lxor i (2 ^ Z.of_nat k) = i - 2 ^ Z.of_nat k.
Proof.
  intros H. rewrite pow_S in H. set (p := 2 ^ Z.of_nat k) in *. pose proof (pow_pos k). fold p in H0.
  assert (E : i = Z.lxor (i - p) p). { rewrite <- Z.add_nocarry_lxor; [lia|]. pose proof (land_pow (i - p) k) as L. rewrite pow_S in L. fold p in L. specialize (L ltac:(lia)). destruct (Z.leb_spec p (i - p)); [lia|]. apply negb_false_iff, Z.eqb_eq in L. exact L. }
  rewrite E at 1. rewrite Z.lxor_assoc, Z.lxor_nilpotent, Z.lxor_0_r. reflexivity.
Qed.
Lemma half_pow k : 2 ^ Z.of_nat (S k) / 2 = 2 ^ Z.of_nat k.
Proof. rewrite pow_S, Z.mul_comm. apply Z.div_mul. lia. Qed.

(* half of the power at level k: 2^(k-1), and 0 at level 0 *)
Definition hp (k : nat) : Z := match k with O => 0 | S k => 2 ^ Z.of_nat k end.
Lemma hp_half k : 2 ^ Z.of_nat k / 2 = hp k.
Proof. destruct k; [reflexivity|]. apply half_pow. Qed.
(* the tree of k levels at [ptr] holds the sums of A from [off]; all its nodes lie below B *)
Fixpoint repb (h : pool) (n L B : Z) (k : nat) (off ptr : Z) (A : list Z) : Prop :=
  match k with
  | O => True
  | S k => L <= ptr < B /\ exists l r d, vget h ptr = Ok (l, r, d) /\ d = psum A (off + 2 ^ Z.of_nat k) - psum A off /\
      repb h n L B k off l A /\ (off + 2 ^ Z.of_nat k + 1 <= n -> repb h n L B k (off + 2 ^ Z.of_nat k) r A)
  end.
Notation rep h n B := (repb h n 0 B).
Lemma rep_S h n L B k off ptr A : repb h n L B (S k) off ptr A = (L <= ptr < B /\ exists l r d, vget h ptr = Ok (l, r, d) /\ d = psum A (off + 2 ^ Z.of_nat k) - psum A off /\
      repb h n L B k off l A /\ (off + 2 ^ Z.of_nat k + 1 <= n -> repb h n L B k (off + 2 ^ Z.of_nat k) r A)).
Proof. reflexivity. Qed.
Lemma repb_frame h h' n L L' B B' k : forall off ptr A, (forall q, L <= q < B -> vget h' q = vget h q) -> L' <= L -> B <= B' -> repb h n L B k off ptr A -> repb h' n L' B' k off ptr A.
Proof.
  induction k as [|k IH]; intros off ptr A F L1 L2 H; [exact I|]. rewrite rep_S in *. destruct H as (Hp & l & r & d & E & Ed & Rl & Rr). split; [lia|]. exists l, r, d. split; [now rewrite F|]. split; auto.
Qed.
Lemma rep_frame h h' n B B' k off ptr A : (forall q, q < B -> vget h' q = vget h q) -> B <= B' -> rep h n B k off ptr A -> rep h' n B' k off ptr A.
Proof. intros F L H. apply (repb_frame h h' n 0 0 B B'); auto; [|lia]. intros q Hq. apply F. lia. Qed.
Lemma rep_shift h n L B k : forall off ptr A A' e, 0 <= off -> (forall m, off <= m < off + 2 ^ Z.of_nat k -> psum A' m = psum A m + e) -> repb h n L B k off ptr A -> repb h n L B k off ptr A'.
Proof.
  induction k as [|k IH]; intros off ptr A A' e Ho F H; [exact I|]. rewrite pow_S in F. pose proof (pow_pos k) as P. rewrite rep_S in *. destruct H as (Hp & l & r & d & E & Ed & Rl & Rr). split; auto. exists l, r, d. split; auto. split; [rewrite !F by lia; lia|]. split.
  - apply IH with A e; auto. intros m Hm. apply F. lia.
  - intros X. apply IH with A e; auto; [lia|]. intros m Hm. apply F. lia.
Qed.
Lemma vget_snoc (h : pool) c : vget (h ++ [c]) (zlen h) = Ok c.
Proof. rewrite vget_app2 by lia. rewrite Z.sub_diag. apply vget_cons0. Qed.
Lemma vget_old (h : pool) c q : q < zlen h -> vget (h ++ [c]) q = vget h q.
Proof. intros H. destruct (Z_lt_le_dec q 0) as [N|N]; [|apply vget_app1; lia]. unfold vget. destruct (Z.ltb_spec q 0); [|lia]. cbn. reflexivity. Qed.
Lemma vget_put (h : pool) p c q : 0 <= p < zlen h -> vget (zupd h p c) q = if q =? p then Ok c else vget h q.
Proof. intros H. destruct (Z.eqb_spec q p) as [->|N]; [now rewrite vget_zupd_same|now rewrite vget_zupd_diff by lia]. Qed.

Lemma sum_ok h n B A k : forall fuel off ptr r acc, (k < fuel)%nat -> 0 <= off -> 0 <= r < 2 ^ Z.of_nat k -> off + r <= n -> rep h n B k off ptr A -> sum_loop fuel h ptr (hp k) r acc = Ok (acc + psum A (off + r) - psum A off).
Proof.
  induction k as [|k IH]; intros fuel off ptr r acc F Ho Hr Hn R; destruct fuel as [|fuel]; try lia; cbn [sum_loop].
  - change (2 ^ Z.of_nat 0) with 1 in Hr. replace r with 0 by lia. cbn [Z.eqb]. f_equal. rewrite Z.add_0_r. lia.
  - cbn [hp]. destruct (Z.eqb_spec r 0) as [->|N]; [f_equal; rewrite Z.add_0_r; lia|]. rewrite rep_S in R. destruct R as (Hp & l & rr & d & E & Ed & Rl & Rr). rewrite E. cbn [bind fst snd]. rewrite land_pow by auto. rewrite hp_half. pose proof (pow_pos k) as P. rewrite pow_S in Hr. destruct (Z.leb_spec (2 ^ Z.of_nat k) r) as [L|L].
    + rewrite lxor_pow by (rewrite pow_S; lia). set (p := 2 ^ Z.of_nat k) in *. destruct (Z.eq_dec (r - p) 0) as [Z0|Z0].
      * rewrite Z0. destruct fuel as [|fuel]; [lia|]. cbn [sum_loop Z.eqb]. f_equal. replace (off + r) with (off + p) by lia. lia.
      * rewrite (IH fuel (off + p)) by (auto; try lia; apply Rr; lia). f_equal. replace (off + p + (r - p)) with (off + r) by lia. lia.
    + apply IH; auto; lia.
Qed.

Lemma add_ok n k : forall fuel h off i v cur A x l r d B, (k < fuel)%nat -> 0 <= off -> 1 <= i < 2 ^ Z.of_nat (S k) -> off + i <= n -> vget A (off + i - 1) = Ok x ->
  cur = zlen h - 1 -> B <= cur -> vget h cur = Ok (l, r, d) -> d = psum A (off + 2 ^ Z.of_nat k) - psum A off -> rep h n B k off l A -> (off + 2 ^ Z.of_nat k + 1 <= n -> rep h n B k (off + 2 ^ Z.of_nat k) r A) ->
  exists h', add_loop fuel h (2 ^ Z.of_nat k) i v cur = Ok h' /\ zlen h <= zlen h' /\ (forall q, q < cur -> vget h' q = vget h q) /\ rep h' n (zlen h') (S k) off cur (zupd A (off + i - 1) (x + v)).
Proof.
  induction k as [|k IH]; intros fuel h off i v cur A x l r d B F Ho Hi Hn Ex Hc HB Ecur Ed Rl Rr; destruct fuel as [|fuel]; try lia; cbn [add_loop]; rewrite Ecur; cbn [bind].
  - change (2 ^ Z.of_nat 1) with 2 in Hi. assert (i = 1) by lia. subst i. change (2 ^ Z.of_nat 0) with 1 in *. cbn [Z.land Pos.land Z.eqb negb Z.lxor Pos.lxor]. pose proof (vget_range _ _ _ Ecur) as Rc. rewrite vset_ok by auto. eexists. split; [reflexivity|]. rewrite zlen_zupd. split; [lia|]. split; [intros q Hq; now rewrite vget_zupd_diff by lia|]. rewrite rep_S. split; [lia|]. exists l, r, (d + v). split; [now rewrite vget_zupd_same|]. split; [|auto].
    rewrite !(psum_upd A (off + 1 - 1) x v) by (auto; lia). change (2 ^ Z.of_nat 0) with 1. destruct (Z.ltb_spec (off + 1 - 1) (off + 1)), (Z.ltb_spec (off + 1 - 1) off); lia.
  - pose proof (vget_range _ _ _ Ecur) as Rc. rewrite land_pow by (rewrite pow_S in *; lia). set (p := 2 ^ Z.of_nat (S k)) in *. assert (Pp : 0 < p) by apply pow_pos. assert (Hi2 : i < 2 * p) by (rewrite pow_S in Hi; fold p in Hi; lia).
    assert (PA : forall m, 0 <= m -> psum (zupd A (off + i - 1) (x + v)) m = psum A m + (if off + i - 1 <? m then v else 0)) by (intros; now apply psum_upd).
    destruct (Z.leb_spec p i) as [L|L].
    + assert (Ex2 : Z.lxor i p = i - p) by (apply lxor_pow; fold p; split; [auto|rewrite pow_S; fold p; lia]). rewrite Ex2. destruct (Z.eqb_spec (i - p) 0) as [Z0|Z0]; cbn [negb].
      * rewrite vset_ok by auto. eexists. split; [reflexivity|]. rewrite zlen_zupd. split; [lia|]. split; [intros q Hq; now rewrite vget_zupd_diff by lia|].
        assert (Fr : forall q, q < B -> vget (zupd h cur (l, r, d + v)) q = vget h q) by (intros q Hq; now rewrite vget_zupd_diff by lia).
        rewrite rep_S. fold p. split; [lia|]. exists l, r, (d + v). split; [now rewrite vget_zupd_same|]. split; [|split].
        { rewrite !PA by lia. destruct (Z.ltb_spec (off + i - 1) (off + p)), (Z.ltb_spec (off + i - 1) off); lia. }
        { apply (rep_shift _ _ _ _ _ _ _ A _ 0); auto; [intros m Hm; fold p in Hm; rewrite PA by lia; destruct (Z.ltb_spec (off + i - 1) m); lia|]. apply (rep_frame h _ n B); auto. lia. }
        { intros Ln. apply (rep_shift _ _ _ _ _ _ _ A _ v); [lia|intros m Hm; rewrite PA by lia; destruct (Z.ltb_spec (off + i - 1) m); lia|]. apply (rep_frame h _ n B); auto. lia. }
      * pose proof (Rr ltac:(lia)) as Rx; rewrite rep_S in Rx; destruct Rx as (Hr & l2 & r2 & d2 & E2 & Ed2 & Rl2 & Rr2). unfold clone. rewrite E2. cbn [bind]. rewrite vset_ok by (rewrite zlen_app; change (zlen [(l2, r2, d2)]) with 1; lia). cbn [bind]. assert (Ehp : p / 2 = 2 ^ Z.of_nat k) by apply half_pow. rewrite Ehp. set (h2 := zupd (h ++ [(l2, r2, d2)]) cur (l, zlen h, d)).
        assert (Lh2 : zlen h2 = zlen h + 1) by (unfold h2; rewrite zlen_zupd, zlen_app; reflexivity).
        assert (Fr : forall q, q < cur -> vget h2 q = vget h q) by (intros q Hq; unfold h2; rewrite vget_zupd_diff by lia; apply vget_old; lia).
        destruct (IH fuel h2 (off + p) (i - p) v (zlen h) A x l2 r2 d2 B) as (h' & Eh & Lh & Fh & Rh); auto; try lia.
        { now replace (off + p + (i - p) - 1) with (off + i - 1) by lia. }
        { unfold h2. rewrite vget_zupd_diff by lia. apply vget_snoc. }
        { apply (rep_frame h _ n B); auto; [|lia]. intros q Hq. apply Fr. lia. }
        { intros X. apply (rep_frame h _ n B); auto; [|lia]. intros q Hq. apply Fr. lia. }
        replace (off + p + (i - p) - 1) with (off + i - 1) in Rh by lia. exists h'. split; [exact Eh|]. split; [lia|]. split; [intros q Hq; rewrite Fh by lia; now apply Fr|].
        change (0 <= cur < zlen h' /\ exists l r d, vget h' cur = Ok (l, r, d) /\ d = psum (zupd A (off + i - 1) (x + v)) (off + p) - psum (zupd A (off + i - 1) (x + v)) off /\ rep h' n (zlen h') (S k) off l (zupd A (off + i - 1) (x + v)) /\ (off + p + 1 <= n -> rep h' n (zlen h') (S k) (off + p) r (zupd A (off + i - 1) (x + v)))).
        split; [lia|]. exists l, (zlen h), d. split; [rewrite Fh by lia; unfold h2; rewrite vget_zupd_same; auto; rewrite zlen_app; change (zlen [(l2, r2, d2)]) with 1; lia|]. split; [rewrite !PA by lia; destruct (Z.ltb_spec (off + i - 1) (off + p)), (Z.ltb_spec (off + i - 1) off); lia|]. split; [|auto].
        apply (rep_shift _ _ _ _ _ _ _ A _ 0); auto; [intros m Hm; fold p in Hm; rewrite PA by lia; destruct (Z.ltb_spec (off + i - 1) m); lia|]. apply (rep_frame h _ n B); auto; [|lia]. intros q Hq. rewrite Fh by lia. apply Fr. lia.
    + rewrite rep_S in Rl; destruct Rl as (Hl & l2 & r2 & d2 & E2 & Ed2 & Rl2 & Rr2). cbn [negb]. rewrite vset_ok by auto. cbn [bind]. unfold clone. assert (E2' : vget (zupd h cur (l, r, d + v)) l = Ok (l2, r2, d2)) by (rewrite vget_zupd_diff by lia; auto). rewrite E2'. cbn [bind]. rewrite zlen_zupd.
      rewrite vset_ok by (rewrite zlen_app, zlen_zupd; change (zlen [(l2, r2, d2)]) with 1; lia). cbn [bind]. assert (Ehp : p / 2 = 2 ^ Z.of_nat k) by apply half_pow. rewrite Ehp. set (h2 := zupd (zupd h cur (l, r, d + v) ++ [(l2, r2, d2)]) cur (zlen h, r, d + v)).
      assert (Lh2 : zlen h2 = zlen h + 1) by (unfold h2; rewrite zlen_zupd, zlen_app, zlen_zupd; reflexivity).
      assert (Fr : forall q, q < cur -> vget h2 q = vget h q) by (intros q Hq; unfold h2; rewrite vget_zupd_diff by lia; rewrite vget_old by (rewrite zlen_zupd; lia); now rewrite vget_zupd_diff by lia).
      destruct (IH fuel h2 off i v (zlen h) A x l2 r2 d2 B) as (h' & Eh & Lh & Fh & Rh); auto; try lia.
      { unfold h2. rewrite vget_zupd_diff by lia. rewrite <- (zlen_zupd h cur (l, r, d + v)). apply vget_snoc. }
      { apply (rep_frame h _ n B); auto; [|lia]. intros q Hq. apply Fr. lia. }
      { intros X. apply (rep_frame h _ n B); auto; [|lia]. intros q Hq. apply Fr. lia. }
      exists h'. split; [exact Eh|]. split; [lia|]. split; [intros q Hq; rewrite Fh by lia; now apply Fr|].
      change (0 <= cur < zlen h' /\ exists l r d, vget h' cur = Ok (l, r, d) /\ d = psum (zupd A (off + i - 1) (x + v)) (off + p) - psum (zupd A (off + i - 1) (x + v)) off /\ rep h' n (zlen h') (S k) off l (zupd A (off + i - 1) (x + v)) /\ (off + p + 1 <= n -> rep h' n (zlen h') (S k) (off + p) r (zupd A (off + i - 1) (x + v)))).
      split; [lia|]. exists (zlen h), r, (d + v). split; [rewrite Fh by lia; unfold h2; rewrite vget_zupd_same; auto; rewrite zlen_app, zlen_zupd; change (zlen [(l2, r2, d2)]) with 1; lia|]. split; [rewrite !PA by lia; destruct (Z.ltb_spec (off + i - 1) (off + p)), (Z.ltb_spec (off + i - 1) off); lia|]. split; [auto|].
      intros Ln. apply (rep_shift _ _ _ _ _ _ _ A _ v); [lia|intros m Hm; rewrite PA by lia; destruct (Z.ltb_spec (off + i - 1) m); lia|]. apply (rep_frame h _ n B); auto; [|lia]. intros q Hq. rewrite Fh by lia. apply Fr. lia.
Qed.
