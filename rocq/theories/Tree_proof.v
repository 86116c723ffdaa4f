(* Rooted forests *)
From Verif Require Import Base BaseLemmas ListZ ListMore Graph_spec Tree_spec BFS_proof.
From Coq Require Import Sorted Permutation.

(* climbing *)
Section Climb.
  Variable par : Z -> Z.
  Lemma climb_nonneg k v a : climb par k v a -> 0 <= k.
  Proof. induction 1; lia. Qed.
  Lemma climb_inv k v a : climb par k v a -> (k = 0 /\ v = a) \/ (1 <= k /\ par v <> -1 /\ climb par (k - 1) (par v) a).
  Proof. destruct 1 as [v|k v a H C]; [left; auto|right]. pose proof (climb_nonneg _ _ _ C). replace (k + 1 - 1) with k by lia. repeat split; auto. lia. Qed.
  Lemma climb_fun k v a b : climb par k v a -> climb par k v b -> a = b.
  Proof.
    intros C. revert b. induction C as [v|k v a H C IH]; intros b Cb; apply climb_inv in Cb as [(E & F)|(L & N & Cb)]; auto; try lia.
    - pose proof (climb_nonneg _ _ _ C). lia.
    - apply IH. replace (k + 1 - 1) with k in Cb by lia. auto.
  Qed.
  Lemma climb_trans j u v : climb par j u v -> forall k w, climb par k v w -> climb par (j + k) u w.
  Proof.
    induction 1 as [v|j v a H C IH]; intros k w Cw; [exact Cw|]. replace (j + 1 + k) with (j + k + 1) by lia. constructor; auto.
  Qed.
  Lemma climb_split j k u w : 0 <= j -> 0 <= k -> climb par (j + k) u w -> exists v, climb par j u v /\ climb par k v w.
  Proof.
    intros Hj. revert u. pattern j. apply natlike_ind; auto; clear j Hj.
    - intros u _ C. exists u. split; [constructor|exact C].
    - intros j Hj IH u Hk C. apply climb_inv in C as [(E & F)|(L & N & C)]; [lia|].
      destruct (IH (par u) Hk) as (v & A & B). { replace (j + k) with (Z.succ j + k - 1) by lia. auto. }
      exists v. split; auto. replace (Z.succ j) with (j + 1) by lia. constructor; auto.
  Qed.
  Lemma climb_1 v : par v <> -1 -> climb par 1 v (par v).
  Proof. intros. change 1 with (0 + 1). constructor; auto. constructor. Qed.
  Lemma climb_snoc k v a : climb par k v a -> par a <> -1 -> climb par (k + 1) v (par a).
  Proof. intros C H. eapply climb_trans; [exact C|]. now apply climb_1. Qed.
  Lemma climb_compare j k v a b : climb par j v a -> climb par k v b -> j <= k -> climb par (k - j) a b.
  Proof.
    intros A B L. pose proof (climb_nonneg _ _ _ A). replace k with (j + (k - j)) in B by lia. apply climb_split in B as (c & C1 & C2); try lia.
    rewrite (climb_fun _ _ _ _ A C1). auto.
  Qed.
  Lemma anc_refl v : ancestor par v v. Proof. exists 0. constructor. Qed.
  Lemma anc_trans a b c : ancestor par a b -> ancestor par b c -> ancestor par a c.
  Proof. intros (j & A) (k & B). exists (k + j). eapply climb_trans; eauto. Qed.
  Lemma anc_par v : par v <> -1 -> ancestor par (par v) v.
  Proof. intros. exists 1. now apply climb_1. Qed.
  Lemma anc_compare v a b : ancestor par a v -> ancestor par b v -> ancestor par a b \/ ancestor par b a.
  Proof.
    intros (j & A) (k & B). destruct (Z.le_ge_cases j k) as [L|L].
    - right. exists (k - j). eapply climb_compare; eauto.
    - left. exists (j - k). eapply climb_compare; eauto.
  Qed.
  Lemma anc_inv a v : ancestor par a v -> a = v \/ (par v <> -1 /\ ancestor par a (par v)).
  Proof. intros (k & C). apply climb_inv in C as [(_ & E)|(_ & N & C)]; [now left|right]. split; auto. now exists (k - 1). Qed.
End Climb.

Section Rooted.
  Variables (g : list (list Z)) (par : Z -> Z).
  Hypothesis R : rooted g par.
  Notation n := (zlen g).
  (* the height and the root of a vertex, as functions *)
  Fixpoint dpf (f : nat) (v : Z) : Z := match f with O => 0 | S f => if par v =? -1 then 0 else dpf f (par v) + 1 end.
  Fixpoint rtf (f : nat) (v : Z) : Z := match f with O => v | S f => if par v =? -1 then v else rtf f (par v) end.
  Lemma dpf_climb k v r : climb par k v r -> par r = -1 -> forall f, (Z.to_nat k <= f)%nat -> dpf f v = k /\ rtf f v = r.
  Proof.
    induction 1 as [v|k v r H C IH]; intros Hr f Hf.
    - destruct f; cbn [dpf rtf]; auto. rewrite (proj2 (Z.eqb_eq _ _) Hr). auto.
    - pose proof (climb_nonneg _ _ _ _ C). destruct f as [|f]; [lia|]. cbn [dpf rtf]. rewrite (proj2 (Z.eqb_neq _ _) H). destruct (IH Hr f ltac:(lia)) as (-> & ->). auto.
  Qed.
  Lemma depth_bound : exists m, forall v, vertex g v -> exists k r, climb par k v r /\ par r = -1 /\ (Z.to_nat k <= m)%nat.
  Proof.
    destruct R as (_ & _ & T). unfold vertex in *.
    assert (H : forall b, 0 <= b -> b <= n -> exists m, forall v, 0 <= v < b -> exists k r, climb par k v r /\ par r = -1 /\ (Z.to_nat k <= m)%nat).
    { intros b Hb. pattern b. apply natlike_ind; auto; clear b Hb.
      - intros _. exists O. intros v. lia.
      - intros b Hb IH L. destruct IH as (m & IH); [lia|]. destruct (T b ltac:(lia)) as (k & r & C & E). exists (Nat.max m (Z.to_nat k)). intros v Hv.
        destruct (Z.eq_dec v b) as [->|N]; [exists k, r; repeat split; auto; lia|]. destruct (IH v ltac:(lia)) as (k' & r' & C' & E' & L'). exists k', r'. repeat split; auto. lia. }
    apply H; unfold zlen; lia.
  Qed.
  Lemma climb_vertex k v a : climb par k v a -> vertex g v -> vertex g a.
  Proof. induction 1 as [v|k v a H C IH]; auto. intros Hv. apply IH. destruct (proj1 R v Hv); auto. contradiction. Qed.
  Lemma anc_vertex a v : ancestor par a v -> vertex g v -> vertex g a.
  Proof. intros (k & C). eapply climb_vertex; eauto. Qed.
  Definition dep_ok (dep rt : Z -> Z) : Prop :=
    forall v, vertex g v -> climb par (dep v) v (rt v) /\ par (rt v) = -1 /\ 0 <= dep v /\ vertex g (rt v) /\
      (par v = -1 -> dep v = 0 /\ rt v = v) /\ (par v <> -1 -> dep v = dep (par v) + 1 /\ rt v = rt (par v)).
  Lemma dep_fun : exists dep rt, dep_ok dep rt /\ exists m, forall v, vertex g v -> dep v <= m.
  Proof.
    destruct depth_bound as (m & B). exists (dpf m), (rtf m). split; [|exists (Z.of_nat m)].
    - intros v Hv. destruct (B v Hv) as (k & r & C & E & L). destruct (dpf_climb _ _ _ C E m L) as (D1 & D2). rewrite D1, D2. repeat split; auto.
      + eapply climb_nonneg; eauto.
      + exact (proj1 (climb_vertex _ _ _ C Hv)).
      + exact (proj2 (climb_vertex _ _ _ C Hv)).
      + apply climb_inv in C as [(? & ?)|(? & ? & ?)]; auto. contradiction.
      + apply climb_inv in C as [(? & ?)|(? & ? & ?)]; auto. contradiction.
      + apply climb_inv in C as [(? & ?)|(? & N & C)]; [congruence|]. destruct (dpf_climb _ _ _ C E m ltac:(lia)) as (-> & _). lia.
      + apply climb_inv in C as [(? & ?)|(? & N & C)]; [congruence|]. destruct (dpf_climb _ _ _ C E m ltac:(lia)) as (_ & ->). auto.
    - intros v Hv. destruct (B v Hv) as (k & r & C & E & L). destruct (dpf_climb _ _ _ C E m L) as (-> & _). pose proof (climb_nonneg _ _ _ _ C). lia.
  Qed.
End Rooted.
