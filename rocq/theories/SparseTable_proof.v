From Verif Require Import Base BaseLemmas Seq SparseTable_model.

Lemma fill_rep {A} (v : list A) n g lo hi x : rep v n g -> 0 <= lo <= hi -> hi <= n ->
  exists v', fill v lo hi x = Ok v' /\ rep v' n (fun i => if (lo <=? i) && (i <? hi) then x else g i).
Proof.
  intros R H1 H2. unfold fill.
  destruct (for_inv (fun j v => rep v n (fun i => if (lo <=? i) && (i <? j) then x else g i)) lo hi (fun i v => vset v i x) v) as (v' & E & F).
  - lia.
  - eapply rep_ext; eauto. intros i Hi. cbn beta. destruct ((lo <=? i) && (i <? lo)) eqn:Q; auto. lia.
  - intros i s Hi Rs. rewrite (rep_set _ _ _ _ _ Rs) by lia. eexists; split; [reflexivity|].
    eapply rep_ext; [exact (rep_upd _ _ _ i x Rs ltac:(lia))|]. intros k Hk. unfold fupd.
    destruct (Z.eqb_spec k i).
    + subst. destruct ((lo <=? i) && (i <? i + 1)) eqn:Q; auto. lia.
    + destruct ((lo <=? k) && (k <? i)) eqn:Q; destruct ((lo <=? k) && (k <? i + 1)) eqn:Q'; auto; lia.
  - eauto.
Qed.
Lemma log2_pow_bounds k i : 0 <= i -> 2 ^ i <= k < 2 ^ (i + 1) -> Z.log2 k = i.
Proof. intros Hi H. apply Z.log2_unique; auto. Qed.

Section Proof.
  Context {T : Type} (op : T -> T -> T) (e d0 : T).
  Hypothesis M : is_monoid op e.
  Hypothesis Idem : forall x, op x x = x.
  Variable a : list T.
  Let n := zlen a.
  Hypothesis Hn : 0 < n.
  Let g := fun i => nth (Z.to_nat i) a d0.
  Let P := prod_ op e g.
  Lemma overlap l m k r : l <= m <= k -> k <= r -> op (P l k) (P m r) = P l r.
  Proof.
    intros H1 H2. unfold P. rewrite (prod_split op e M g l m k) by lia. rewrite (prod_split op e M g m k r) by lia.
    rewrite <- (mon_assoc _ _ M). rewrite (mon_assoc _ _ M (prod_ op e g m k)). rewrite Idem.
    rewrite <- (prod_split op e M g m k r) by lia. rewrite <- (prod_split op e M g l m r) by lia. reflexivity.
  Qed.
  Definition rows (lg j : Z) (t : list (list T)) : Prop :=
    zlen t = lg + 1 /\ forall i, 0 <= i <= j -> exists row, vget t i = Ok row /\ rep row (n - 2 ^ i + 1) (fun l => P l (l + 2 ^ i)).
  Lemma log_ok : 0 <= Z.log2 n /\ 2 ^ Z.log2 n <= n < 2 ^ (Z.log2 n + 1).
  Proof. split; [apply Z.log2_nonneg|]. exact (Z.log2_spec n Hn). Qed.
  Lemma build_table_ok : exists t, build_table op d0 n (Z.log2 n) (vrep (Z.log2 n + 1) []) a = Ok t /\ rows (Z.log2 n) (Z.log2 n) t.
  Proof.
    destruct log_ok as (L0 & L1 & L2). set (lg := Z.log2 n) in *. unfold build_table.
    rewrite vset_ok by (rewrite zlen_vrep; lia). cbn [bind].
    apply (for_inv (fun j t => rows lg j t)).
    - lia.
    - split.
      + rewrite zlen_zupd, zlen_vrep; lia.
      + intros i Hi. replace i with 0 by lia. exists a. split.
        * apply vget_zupd_same. rewrite zlen_vrep; lia.
        * eapply rep_ext; [replace (n - 2 ^ 0 + 1) with (zlen a) by (fold n; cbn; lia); apply (rep_nth a d0)|].
          intros l Hl. unfold P. change (2 ^ 0) with 1. rewrite (prod_one op e M). reflexivity.
    - intros i t Hi (Lt & Rt). destruct (Rt i ltac:(lia)) as (cur & Ec & Rc). rewrite Ec. cbn [bind].
      assert (Hp : 2 ^ (i + 1) = 2 * 2 ^ i) by (rewrite Z.pow_add_r; lia).
      assert (Hp0 : 0 < 2 ^ i) by (apply Z.pow_pos_nonneg; lia).
      assert (Hle : 2 ^ (i + 1) <= 2 ^ lg) by (apply Z.pow_le_mono_r; lia).
      set (m := n - 2 ^ (i + 1) + 1) in *.
      destruct (for_inv (fun j row => zlen row = m /\ forall l, 0 <= l < j -> vget row l = Ok (P l (l + 2 ^ (i + 1)))) 0 m
        (fun l row => let* x := vget cur l in let* y := vget cur (l + 2 ^ i) in vset row l (op x y)) (vrep m d0)) as (row & Er & Lr & Rr).
      + lia.
      + split; [rewrite zlen_vrep; lia|]. intros; lia.
      + intros l row Hl (Lr & Rr). rewrite (rep_get _ _ _ _ Rc) by lia. cbn [bind]. rewrite (rep_get _ _ _ _ Rc) by lia. cbn [bind].
        rewrite vset_ok by lia. eexists; split; [reflexivity|]. split; [now rewrite zlen_zupd|].
        intros l' Hl'. destruct (Z.eq_dec l' l).
        * subst. rewrite vget_zupd_same by lia. f_equal. unfold P. rewrite <- (prod_split op e M) by lia. f_equal. lia.
        * rewrite vget_zupd_diff by lia. apply Rr; lia.
      + rewrite Er. cbn [bind]. rewrite vset_ok by lia. eexists; split; [reflexivity|]. split; [now rewrite zlen_zupd|].
        intros k Hk. destruct (Z.eq_dec k (i + 1)).
        * subst. exists row. rewrite vget_zupd_same by lia. split; auto. split; auto.
        * rewrite vget_zupd_diff by lia. apply Rt. lia.
  Qed.
  Lemma build_flog_ok : exists f, build_flog n (Z.log2 n) (vrep (n + 1) 0) = Ok f /\
    zlen f = n + 1 /\ forall k, 1 <= k <= n -> vget f k = Ok (Z.log2 k).
  Proof.
    destruct log_ok as (L0 & L1 & L2). set (lg := Z.log2 n) in *. unfold build_flog.
    destruct (for_inv (fun j f => exists h, rep f (n + 1) h /\ forall k, 1 <= k < 2 ^ j -> h k = Z.log2 k) 0 lg
      (fun l flog => fill flog (2 ^ l) (2 ^ (l + 1)) l) (vrep (n + 1) 0)) as (f & E & h & Rh & Hh).
    - lia.
    - exists (fun _ => 0). split; [apply rep_vrep; lia|]. intros; change (2 ^ 0) with 1 in *; lia.
    - intros i f Hi (h & Rh & Hh).
      assert (Hp : 2 ^ (i + 1) = 2 * 2 ^ i) by (rewrite Z.pow_add_r; lia).
      assert (Hp0 : 0 < 2 ^ i) by (apply Z.pow_pos_nonneg; lia).
      assert (Hle : 2 ^ (i + 1) <= 2 ^ lg) by (apply Z.pow_le_mono_r; lia).
      destruct (fill_rep f (n + 1) h (2 ^ i) (2 ^ (i + 1)) i Rh) as (f' & E' & R'); [lia|lia|].
      exists f'. split; auto. eexists; split; [exact R'|]. cbn beta. intros k Hk.
      destruct ((2 ^ i <=? k) && (k <? 2 ^ (i + 1))) eqn:Q.
      + symmetry. apply log2_pow_bounds; lia.
      + apply Hh. lia.
    - rewrite E. cbn [bind]. destruct (fill_rep f (n + 1) h (2 ^ lg) (n + 1) lg Rh) as (f' & E' & R').
      + assert (0 < 2 ^ lg) by (apply Z.pow_pos_nonneg; lia). lia.
      + lia.
      + rewrite (proj1 Rh). exists f'. split; auto. split; [exact (proj1 R')|]. intros k Hk. rewrite (rep_get _ _ _ _ R') by lia.
        f_equal. destruct ((2 ^ lg <=? k) && (k <? n + 1)) eqn:Q.
        * symmetry. apply log2_pow_bounds; lia.
        * apply Hh. lia.
  Qed.
  Lemma sparse_ok : exists s, sp_of op d0 a = Ok s /\
    forall l r, (0 <= l /\ r <= n) \/ r <= l -> sp_prod op e s l r = Ok (if r <=? l then e else P l r).
  Proof.
    unfold sp_of. fold n. unfold floor_log2. destruct (Z.eqb_spec n 0); [lia|]. cbn [bind].
    destruct build_table_ok as (t & Et & Lt & Rt). rewrite Et. cbn [bind].
    destruct build_flog_ok as (f & Ef & Lf & Rf). rewrite Ef. cbn [bind]. eexists; split; [reflexivity|].
    intros l r H. unfold sp_prod. destruct (Z.leb_spec r l); auto. cbn [sp_flog sp_table].
    rewrite Rf by lia. cbn [bind].
    assert (Hlg : 0 <= Z.log2 (r - l) <= Z.log2 n) by (split; [apply Z.log2_nonneg|apply Z.log2_le_mono; lia]).
    destruct (Z.log2_spec (r - l)) as (B1 & B2); [lia|]. set (i := Z.log2 (r - l)) in *. unfold Z.succ in B2.
    assert (Hp : 2 ^ (i + 1) = 2 * 2 ^ i) by (rewrite Z.pow_add_r; lia).
    destruct (Rt i Hlg) as (row & Er & Rr). rewrite Er. cbn [bind].
    rewrite (rep_get _ _ _ _ Rr) by lia. cbn [bind]. rewrite (rep_get _ _ _ _ Rr) by lia. cbn [bind].
    f_equal. replace (r - 2 ^ i + 2 ^ i) with r by lia. apply overlap; lia.
  Qed.
  Theorem sparse_table_ok : exists s, sp_of op d0 a = Ok s /\
    forall l r, (0 <= l /\ r <= n) \/ r <= l -> sp_prod op e s l r = Ok (fold_right op e (slice l r a)).
  Proof.
    destruct sparse_ok as (s & E & H). exists s. split; auto. intros l r Hl. rewrite H by auto. f_equal.
    destruct (Z.leb_spec r l).
    - unfold slice. now replace (Z.to_nat (r - l)) with O by lia.
    - symmetry. apply (prod_rep op e a n g); try lia. apply rep_nth.
  Qed.
End Proof.
