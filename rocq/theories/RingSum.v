(* Finite sums in a commutative ring given by the standard library's [ring_theory]. *)
From Verif Require Import Base BaseLemmas.
From Coq Require Export Ring_theory Setoid.
From Coq Require Import Ring Permutation.

(* the indices lo, lo+1, ..., hi-1 *)
Definition span (lo hi : Z) : list Z := map (fun i => lo + i) (zrange (hi - lo)).
(* element i of a vector, [d] outside *)
Definition at_ {T} (d : T) (a : list T) (i : Z) : T := nth (Z.to_nat i) a d.

Section RingSum.
  Context {T : Type}.
  Variables (r0 r1 : T) (add mul sub : T -> T -> T) (opp : T -> T).
  Hypothesis RT : ring_theory r0 r1 add mul sub opp (@eq T).
  Add Ring R : RT.
  (* sum of f over a list of indices, resp. over lo <= i < hi *)
  Fixpoint lsum (l : list Z) (f : Z -> T) : T := match l with [] => r0 | i :: l => add (f i) (lsum l f) end.
  Definition sum (lo hi : Z) (f : Z -> T) : T := lsum (span lo hi) f.

  Lemma lsum_ext l f g : (forall i, In i l -> f i = g i) -> lsum l f = lsum l g.
  Proof. induction l; cbn; auto. intro H. rewrite (H a), IHl; auto. Qed.
  Lemma lsum_app l1 l2 f : lsum (l1 ++ l2) f = add (lsum l1 f) (lsum l2 f).
  Proof. induction l1; cbn; [ring|]. rewrite IHl1. ring. Qed.
  Lemma lsum_add l f g : lsum l (fun i => add (f i) (g i)) = add (lsum l f) (lsum l g).
  Proof. induction l; cbn; [ring|]. rewrite IHl. ring. Qed.
  Lemma lsum_sub l f g : lsum l (fun i => sub (f i) (g i)) = sub (lsum l f) (lsum l g).
  Proof. induction l; cbn; [ring|]. rewrite IHl. ring. Qed.
  Lemma lsum_scale l c f : lsum l (fun i => mul c (f i)) = mul c (lsum l f).
  Proof. induction l; cbn; [ring|]. rewrite IHl. ring. Qed.
  Lemma lsum_scale_r l c f : lsum l (fun i => mul (f i) c) = mul (lsum l f) c.
  Proof. induction l; cbn; [ring|]. rewrite IHl. ring. Qed.
  Lemma lsum_zero l f : (forall i, In i l -> f i = r0) -> lsum l f = r0.
  Proof. induction l; cbn; auto. intro H. rewrite (H a), IHl by auto. ring. Qed.
  Lemma lsum_swap l1 l2 f : lsum l1 (fun i => lsum l2 (f i)) = lsum l2 (fun j => lsum l1 (fun i => f i j)).
  Proof. induction l1; cbn; [symmetry; now apply lsum_zero|]. rewrite IHl1. symmetry. apply lsum_add. Qed.
  Lemma lsum_perm l1 l2 f : Permutation l1 l2 -> lsum l1 f = lsum l2 f.
  Proof. induction 1; cbn; auto; try congruence. ring. Qed.
  Lemma lsum_map l (h : Z -> Z) f : lsum (map h l) f = lsum l (fun i => f (h i)).
  Proof. induction l; cbn; congruence. Qed.
  Lemma lsum_filter l p f : lsum (filter p l) f = lsum l (fun i => if p i then f i else r0).
  Proof. induction l; cbn; auto. destruct (p a); cbn; rewrite IHl; auto. ring. Qed.
  (* exactly one non-zero term *)
  Lemma lsum_one l k f : NoDup l -> In k l -> lsum l (fun i => if i =? k then f i else r0) = f k.
  Proof.
    induction 1 as [|a l H1 H2 IH]; cbn; [easy|]. intros [->|Hk].
    - rewrite Z.eqb_refl. rewrite lsum_zero; [ring|]. intros i Hi. destruct (Z.eqb_spec i k); [congruence|auto].
    - destruct (Z.eqb_spec a k) as [->|]; [easy|]. rewrite IH by auto. ring.
  Qed.

  Lemma span_in lo hi i : In i (span lo hi) <-> lo <= i < hi.
  Proof.
    unfold span. rewrite in_map_iff. split.
    - intros (x & <- & H). apply In_zrange in H. lia.
    - intro H. exists (i - lo). split; [lia|]. apply In_zrange. lia.
  Qed.
  Lemma span_nodup lo hi : NoDup (span lo hi).
  Proof. unfold span. apply FinFun.Injective_map_NoDup; [intros x y; lia|apply NoDup_zrange]. Qed.
  Lemma span_app lo m hi : lo <= m <= hi -> span lo hi = span lo m ++ span m hi.
  Proof.
    intro H. unfold span. replace (hi - lo) with ((m - lo) + (hi - m)) by lia. unfold zrange.
    rewrite Z2Nat.inj_add by lia. rewrite seq_app, !map_app. f_equal.
    rewrite !map_map. cbn [plus]. 
    clear -H. generalize (Z.to_nat (hi - m)) as k. set (a := Z.to_nat (m - lo)). assert (Ea : Z.of_nat a = m - lo) by (unfold a; lia). clearbody a.
    intro k. replace (a + 0)%nat with a by lia.
    assert (G : forall k b, map (fun x => lo + Z.of_nat x) (seq (a + b) k) = map (fun x => m + Z.of_nat x) (seq b k)).
    { clear k. induction k; intro b; cbn; auto. f_equal; [lia|]. rewrite <- IHk. f_equal. f_equal. lia. }
    rewrite <- (G k 0%nat). f_equal. f_equal. lia.
  Qed.
  Lemma span_nil lo hi : hi <= lo -> span lo hi = [].
  Proof. intro H. unfold span, zrange. replace (Z.to_nat (hi - lo)) with 0%nat by lia. reflexivity. Qed.
  Lemma span_one lo : span lo (lo + 1) = [lo].
  Proof. unfold span. replace (lo + 1 - lo) with 1 by lia. change (zrange 1) with [0]. cbn [map]. f_equal. lia. Qed.
  Lemma span_shift lo hi k : span (lo + k) (hi + k) = map (fun i => i + k) (span lo hi).
  Proof.
    unfold span. rewrite map_map. replace (hi + k - (lo + k)) with (hi - lo) by lia. apply map_ext. intro; lia.
  Qed.
  Lemma sum_ext lo hi f g : (forall i, lo <= i < hi -> f i = g i) -> sum lo hi f = sum lo hi g.
  Proof. intro H. apply lsum_ext. intros i Hi. apply H, span_in, Hi. Qed.
  Lemma sum_nil lo hi f : hi <= lo -> sum lo hi f = r0.
  Proof. intro H. unfold sum. now rewrite span_nil. Qed.
  Lemma sum_split lo m hi f : lo <= m <= hi -> sum lo hi f = add (sum lo m f) (sum m hi f).
  Proof. intro H. unfold sum. rewrite (span_app lo m hi H). apply lsum_app. Qed.
  Lemma sum_snoc lo hi f : lo <= hi -> sum lo (hi + 1) f = add (sum lo hi f) (f hi).
  Proof. intro H. rewrite (sum_split lo hi) by lia. f_equal. unfold sum. rewrite span_one. cbn. ring. Qed.
  Lemma sum_cons lo hi f : lo < hi -> sum lo hi f = add (f lo) (sum (lo + 1) hi f).
  Proof. intro H. rewrite (sum_split lo (lo + 1)) by lia. f_equal. unfold sum. rewrite span_one. cbn. ring. Qed.
  Lemma sum_shift lo hi k f : sum (lo + k) (hi + k) f = sum lo hi (fun i => f (i + k)).
  Proof. unfold sum. rewrite span_shift. apply lsum_map. Qed.
  Lemma sum_add lo hi f g : sum lo hi (fun i => add (f i) (g i)) = add (sum lo hi f) (sum lo hi g).
  Proof. apply lsum_add. Qed.
  Lemma sum_scale lo hi c f : sum lo hi (fun i => mul c (f i)) = mul c (sum lo hi f).
  Proof. apply lsum_scale. Qed.
  Lemma sum_scale_r lo hi c f : sum lo hi (fun i => mul (f i) c) = mul (sum lo hi f) c.
  Proof. apply lsum_scale_r. Qed.
  Lemma sum_zero lo hi f : (forall i, lo <= i < hi -> f i = r0) -> sum lo hi f = r0.
  Proof. intro H. apply lsum_zero. intros i Hi. apply H, span_in, Hi. Qed.
  Lemma sum_swap a b c d f : sum a b (fun i => sum c d (f i)) = sum c d (fun j => sum a b (fun i => f i j)).
  Proof. apply lsum_swap. Qed.
  Lemma sum_one lo hi k f : lo <= k < hi -> sum lo hi (fun i => if i =? k then f i else r0) = f k.
  Proof. intro H. apply lsum_one; [apply span_nodup|]. now apply span_in. Qed.
  (* product of two sums *)
  Lemma sum_mul a b c d f g : mul (sum a b f) (sum c d g) = sum a b (fun i => sum c d (fun j => mul (f i) (g j))).
  Proof. rewrite <- sum_scale_r. apply sum_ext. intros i _. now rewrite sum_scale. Qed.
  (* blocks of length b *)
  Lemma sum_blocks b k f : 0 <= b -> 0 <= k -> sum 0 (k * b) f = sum 0 k (fun c => sum 0 b (fun j => f (c * b + j))).
  Proof.
    intros Hb. revert k. apply natlike_ind; [reflexivity|]. intros k Hk IH.
    unfold Z.succ. rewrite sum_snoc by lia. rewrite <- IH. rewrite (sum_split 0 (k * b)) by nia. f_equal.
    transitivity (sum (0 + k * b) (b + k * b) f); [f_equal; lia|]. rewrite sum_shift. apply sum_ext. intros. f_equal. lia.
  Qed.
End RingSum.
