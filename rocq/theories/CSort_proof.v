(* Counting sort: the rank of an item by (key, index) *)
From Verif Require Import Base BaseLemmas Centroid_proof.

Definition cnt (P : Z -> bool) (n : Z) : Z := zlen (filter P (zrange n)).
Lemma cnt_S P n : 0 <= n -> cnt P (n + 1) = cnt P n + if P n then 1 else 0.
Proof. intros H. unfold cnt. rewrite zrange_S, filter_app, zlen_app by auto. cbn [filter]. now destruct (P n). Qed.
Lemma cnt_0 P : cnt P 0 = 0. Proof. reflexivity. Qed.
Lemma cnt_ext P Q n : (forall k, 0 <= k < n -> P k = Q k) -> cnt P n = cnt Q n.
Proof. intros H. unfold cnt. f_equal. apply filter_ext_in. intros k I. apply H. now apply In_zrange. Qed.
Lemma cnt_or P Q n : (forall k, 0 <= k < n -> P k = true -> Q k = true -> False) -> cnt (fun k => P k || Q k) n = cnt P n + cnt Q n.
Proof.
  intros H. unfold cnt. assert (G : forall k, In k (zrange n) -> P k = true -> Q k = true -> False) by (intros k I; apply H; now apply In_zrange). clear H. induction (zrange n) as [|x l IH]; [reflexivity|]. cbn [filter].
  specialize (IH (fun k I => G k (or_intror I))). pose proof (G x (or_introl eq_refl)). destruct (P x) eqn:E, (Q x) eqn:F; cbn [orb]; rewrite ?zlen_cons; try lia; exfalso; auto.
Qed.
Lemma cnt_le P Q n : (forall k, 0 <= k < n -> P k = true -> Q k = true) -> cnt P n <= cnt Q n.
Proof.
  intros H. unfold cnt. assert (G : forall k, In k (zrange n) -> P k = true -> Q k = true) by (intros k I; apply H; now apply In_zrange). clear H. induction (zrange n) as [|x l IH]; [reflexivity|]. cbn [filter].
  specialize (IH (fun k I => G k (or_intror I))). pose proof (G x (or_introl eq_refl)). destruct (P x) eqn:E, (Q x) eqn:F; rewrite ?zlen_cons; try lia; discriminate (H eq_refl).
Qed.
Lemma cnt_one x n : 0 <= x < n -> cnt (fun k => k =? x) n = 1.
Proof.
  intros H. replace n with (x + 1 + Z.of_nat (Z.to_nat (n - x - 1))) by lia. induction (Z.to_nat (n - x - 1)) as [|m IH].
  - rewrite Z.add_0_r, cnt_S, Z.eqb_refl by lia. rewrite (cnt_ext _ (fun _ => false)); [|intros k Hk; destruct (Z.eqb_spec k x); lia]. unfold cnt. assert (E : forall l : list Z, filter (fun _ => false) l = []) by (induction l; auto). rewrite E. reflexivity.
  - replace (x + 1 + Z.of_nat (S m)) with (x + 1 + Z.of_nat m + 1) by lia. rewrite cnt_S, IH by lia. destruct (Z.eqb_spec (x + 1 + Z.of_nat m) x); lia.
Qed.
Lemma cnt_lt P Q n x : (forall k, 0 <= k < n -> P k = true -> Q k = true) -> 0 <= x < n -> P x = false -> Q x = true -> cnt P n < cnt Q n.
Proof.
  intros H Hx Px Qx. pose proof (cnt_le (fun k => P k || (k =? x)) Q n) as A. rewrite cnt_or, cnt_one in A by (auto; intros k Hk Pk E; apply Z.eqb_eq in E; subst k; congruence). specialize (A ltac:(intros k Hk E; apply orb_prop in E as [E|E]; [auto|apply Z.eqb_eq in E; now subst k])). lia.
Qed.
Lemma cnt_all n : 0 <= n -> cnt (fun _ => true) n = n.
Proof. intros H. unfold cnt. assert (E : forall l : list Z, filter (fun _ => true) l = l) by (induction l as [|x l IH]; cbn [filter]; congruence). rewrite E. now apply zlen_zrange. Qed.
Lemma cnt_nonneg P n : 0 <= cnt P n. Proof. apply zlen_nonneg. Qed.
Lemma vec_ext {X} n (f h : Z -> X) : (forall i, 0 <= i < n -> f i = h i) -> vec n f = vec n h.
Proof. intros H. unfold vec. apply map_ext_in. intros i I. apply H. now apply In_zrange. Qed.

Section Rank.
  Variables (n : Z) (key : Z -> Z).
  Definition before (k i : Z) : bool := (key k <? key i) || ((key k =? key i) && (k <? i)).
  Definition rank (i : Z) : Z := cnt (fun k => before k i) n.
  Lemma before_irr i : before i i = false. Proof. unfold before. rewrite !Z.ltb_irrefl, andb_false_r. reflexivity. Qed.
  Lemma before_spec k i : before k i = true <-> key k < key i \/ key k = key i /\ k < i.
  Proof. unfold before. rewrite orb_true_iff, andb_true_iff, !Z.ltb_lt, Z.eqb_eq. reflexivity. Qed.
  Lemma rank_mono i j : 0 <= i < n -> before i j = true -> rank i < rank j.
  Proof. intros Hi B. apply cnt_lt with i; auto; [|apply before_irr]. intros k Hk. rewrite !before_spec in *. lia. Qed.
  Lemma rank_inj i j : 0 <= i < n -> 0 <= j < n -> rank i = rank j -> i = j.
  Proof.
    intros Hi Hj E. destruct (Z.eq_dec i j) as [|N]; auto. exfalso. assert (B : before i j = true \/ before j i = true) by (rewrite !before_spec; lia). destruct B as [B|B]; [apply rank_mono in B|apply rank_mono in B]; auto; lia.
  Qed.
  Lemma rank_range i : 0 <= i < n -> 0 <= rank i < n.
  Proof. intros Hi. split; [apply cnt_nonneg|]. apply Z.lt_le_trans with (cnt (fun _ => true) n); [|rewrite cnt_all; lia]. apply cnt_lt with i; auto. apply before_irr. Qed.
  Lemma rank_split i : 0 <= i < n -> rank i = cnt (fun k => key k <? key i) n + cnt (fun k => key k =? key i) i.
  Proof.
    intros Hi. unfold rank. unfold before at 1. rewrite cnt_or by (intros k Hk A B; apply andb_prop in B as (B & _); apply Z.ltb_lt in A; apply Z.eqb_eq in B; lia). f_equal.
    replace n with (i + Z.of_nat (Z.to_nat (n - i))) by lia. induction (Z.to_nat (n - i)) as [|m IH].
    - rewrite Z.add_0_r. apply cnt_ext. intros k Hk. destruct (Z.ltb_spec k i); [apply andb_true_r|lia].
    - replace (i + Z.of_nat (S m)) with (i + Z.of_nat m + 1) by lia. rewrite cnt_S, IH by lia. destruct (Z.ltb_spec (i + Z.of_nat m) i); [lia|]. rewrite andb_false_r. lia.
  Qed.
End Rank.
