From Verif Require Import Base BaseLemmas Agg UnionFind_model UnionFind_spec UnionFind_run UnionFind_proof UnionFind_proof2.
From Verif Require Import UnionFind2_model UnionFind2_spec UnionFind2_run.
From Coq Require Import Relations Permutation.

(* ---------- connectivity, equivalent edge sets ---------- *)
Definition eequiv (E E' : list (Z * Z)) : Prop := forall u v, connected E u v <-> connected E' u v.

Lemma UInv_ext n dat R E E' : UInv n dat R E -> eequiv E E' ->
  (forall x y, In (x, y) E' -> 0 <= x < n /\ 0 <= y < n) -> UInv n dat R E'.
Proof.
  intros I Q G. constructor; try apply I; auto.
  intros x y Hx Hy. rewrite <- (Q x y). apply I; auto.
Qed.

Lemma connected_mono E E' x y : (forall a b, In (a, b) E -> connected E' a b) -> connected E x y -> connected E' x y.
Proof.
  intros H. induction 1 as [u v I|u|u v G IH|u v w G1 IH1 G2 IH2].
  - apply H; auto.
  - apply connected_refl.
  - now apply connected_sym.
  - eapply connected_trans; eauto.
Qed.

Lemma eequiv_rep E x y rx ry : connected E x rx -> connected E y ry ->
  eequiv ((rx, ry) :: E) ((x, y) :: E).
Proof.
  intros Hx Hy u v. rewrite !connected_cons.
  assert (A : forall w, connected E w rx <-> connected E w x).
  { intro w. split; intro H; eapply connected_trans; eauto; now apply connected_sym. }
  assert (B : forall w, connected E ry w <-> connected E y w).
  { intro w. split; intro H; eapply connected_trans; eauto; now apply connected_sym. }
  assert (A' : forall w, connected E rx w <-> connected E x w).
  { intro w. split; intro H; eapply connected_trans; eauto; now apply connected_sym. }
  assert (B' : forall w, connected E w ry <-> connected E w y).
  { intro w. split; intro H; eapply connected_trans; eauto; now apply connected_sym. }
  rewrite A, B, A', B'. tauto.
Qed.

(* ---------- uf_merge with the root functions exposed ---------- *)
Lemma uf_merge_ok n s R E x y : uf_n s = n -> UInv n (uf_dat s) R E -> 0 <= x < n -> 0 <= y < n ->
  exists b s' R', uf_merge s x y = Ok (b, s') /\ uf_n s' = n /\ UInv n (uf_dat s') R' ((x, y) :: E) /\
    (b = true <-> R x <> R y) /\ (b = false -> R' = R) /\
    (b = true -> exists a c, ((a = R x /\ c = R y) \/ (a = R y /\ c = R x)) /\
       R' = (fun z => if R z =? c then a else R z)).
Proof.
  intros Hn I Hx Hy. unfold uf_merge.
  destruct (uf_root_ok _ _ _ _ _ Hn I Hx) as (s1 & E1 & Hn1 & I1). rewrite E1; cbn [bind].
  destruct (uf_root_ok _ _ _ _ _ Hn1 I1 Hy) as (s2 & E2 & Hn2 & I2). rewrite E2; cbn [bind].
  destruct (R x =? R y) eqn:C.
  - exists false, s2, R. split; auto. split; auto. split; [apply UInv_add_known; auto; lia|].
    split; [split; [discriminate|lia]|]. split; auto. discriminate.
  - destruct (UInv_R_range _ _ _ _ _ I2 Hx) as [Rx RRx].
    destruct (UInv_R_range _ _ _ _ _ I2 Hy) as [Ry RRy].
    pose proof (ui_len _ _ _ _ I2) as L2.
    destruct (vget_Ok (uf_dat s2) (R x)) as (dx & Ex); [lia|].
    destruct (vget_Ok (uf_dat s2) (R y)) as (dy & Ey); [lia|].
    rewrite Ex, Ey; cbn [bind].
    destruct (dx >? dy) eqn:G; cbn [bind]; rewrite Ex, Ey; cbn [bind];
      rewrite vset_ok by lia; cbn [bind]; rewrite vset_ok by (rewrite zlen_zupd; lia); cbn [bind].
    + eexists true, _, _. split; [reflexivity|]. split; auto. split; [|split; [|split]].
      * simpl. apply (UInv_link n (uf_dat s2) R E (R y) (R x) x y); auto; lia.
      * split; auto; lia.
      * discriminate.
      * intros _. exists (R y), (R x). auto.
    + eexists true, _, _. split; [reflexivity|]. split; auto. split; [|split; [|split]].
      * simpl. apply (UInv_link n (uf_dat s2) R E (R x) (R y) x y); auto; lia.
      * split; auto; lia.
      * discriminate.
      * intros _. exists (R x), (R y). auto.
Qed.

Definition cls (R : Z -> Z) (n r : Z) : list Z := filter (fun v => R v =? r) (zrange n).

Lemma cls_In R n r v : In v (cls R n r) <-> 0 <= v < n /\ R v = r.
Proof. unfold cls. rewrite filter_In, In_zrange. lia. Qed.
Lemma cls_NoDup R n r : NoDup (cls R n r).
Proof. apply NoDup_filter, NoDup_zrange. Qed.

Lemma cls_component n dat R E x c cs : UInv n dat R E -> 0 <= x < n -> component_list n E x c cs ->
  Permutation (c :: cs) (cls R n (R x)).
Proof.
  intros I Hx [ND H]. apply NoDup_Permutation; auto using cls_NoDup.
  intro v. rewrite H, cls_In. split; intros [A B]; split; auto.
  - symmetry. apply (ui_conn _ _ _ _ I); auto.
  - apply (ui_conn _ _ _ _ I); auto.
Qed.

Lemma cls_merge_val {T} (op : T -> T -> T) (h : Z -> T) R n a c :
  (forall a b c, op a (op b c) = op (op a b) c) -> (forall a b, op a b = op b a) -> a <> c ->
  osum op (map h (cls (fun z => if R z =? c then a else R z) n a)) =
  oop op (osum op (map h (cls R n a))) (osum op (map h (cls R n c))).
Proof.
  intros Ha Hc N. unfold cls.
  rewrite <- osum_filter_or; auto.
  - f_equal. f_equal. apply filter_ext_in. intros v _. destruct (R v =? c) eqn:Cv; lia.
  - intros; lia.
Qed.
Lemma cls_merge_other R n a c r : r <> a -> r <> c ->
  cls (fun z => if R z =? c then a else R z) n r = cls R n r.
Proof.
  intros A C. unfold cls. apply filter_ext_in. intros v _. destruct (R v =? c) eqn:Cv; lia.
Qed.

(* ---------- C05 ---------- *)
Section Sum.
  Context {T : Type}.
  Variable op : T -> T -> T.
  Hypothesis op_assoc : forall a b c, op a (op b c) = op (op a b) c.
  Hypothesis op_comm : forall a b, op a b = op b a.

  Definition SInv (n : Z) (h : Z -> T) (s : ufs T) (E : list (Z * Z)) : Prop :=
    uf_n (ufs_uf s) = n /\ zlen (ufs_sum s) = n /\
    exists R, UInv n (uf_dat (ufs_uf s)) R E /\
      forall x, 0 <= x < n -> exists t, vget (ufs_sum s) (R x) = Ok t /\ osum op (map h (cls R n (R x))) = Some t.

  Lemma ufs_merge_ok n h s E x y : SInv n h s E -> 0 <= x < n -> 0 <= y < n ->
    exists b s', ufs_merge op s x y = Ok (b, s') /\ SInv n h s' ((x, y) :: E) /\ (b = true <-> ~ connected E x y).
  Proof.
    intros (Hn & HL & R & I & HS) Hx Hy. unfold ufs_merge.
    destruct (uf_root_ok _ _ _ _ _ Hn I Hx) as (s1 & E1 & Hn1 & I1). rewrite E1; cbn [bind].
    destruct (uf_root_ok _ _ _ _ _ Hn1 I1 Hy) as (s2 & E2 & Hn2 & I2). rewrite E2; cbn [bind].
    destruct (UInv_R_range _ _ _ _ _ I Hx) as [Rx RRx].
    destruct (UInv_R_range _ _ _ _ _ I Hy) as [Ry RRy].
    destruct (uf_merge_ok _ _ _ _ _ _ Hn2 I2 Rx Ry) as (b & s3 & R' & E3 & Hn3 & I3 & Hb & Hf & Ht).
    rewrite E3; cbn [bind]. rewrite RRx, RRy in *.
    assert (Cx : connected E x (R x)) by (apply (ui_conn _ _ _ _ I); auto).
    assert (Cy : connected E y (R y)) by (apply (ui_conn _ _ _ _ I); auto).
    assert (EQ := eequiv_rep E x y _ _ Cx Cy).
    assert (Rng : forall a b, In (a, b) ((x, y) :: E) -> 0 <= a < n /\ 0 <= b < n).
    { intros a0 b0 [H|H]; [injection H as <- <-; auto|]. apply (ui_E _ _ _ _ I); auto. }
    destruct b.
    - destruct (Ht eq_refl) as (a & c & Hac & ->). clear Ht Hf.
      assert (N : R x <> R y) by tauto.
      destruct (uf_root_ok _ _ _ _ _ Hn3 I3 Rx) as (s4 & E4 & Hn4 & I4). cbv beta in E4. rewrite RRx in E4.
      assert (Er : (if R x =? c then a else R x) = a) by (destruct (R x =? c) eqn:?; lia).
      rewrite Er in E4.
      rewrite E4; cbn [bind].
      assert (Esw : (if a =? R y then (R y, R x) else (R x, R y)) = (a, c)).
      { destruct Hac as [[-> ->]|[-> ->]].
        - destruct (R x =? R y) eqn:?; [lia|auto].
        - rewrite Z.eqb_refl. auto. }
      rewrite Esw.
      assert (Hsa : exists ta, vget (ufs_sum s) a = Ok ta /\ osum op (map h (cls R n a)) = Some ta).
      { destruct Hac as [[-> ->]|[-> ->]]; [apply (HS x Hx)|apply (HS y Hy)]. }
      assert (Hsc : exists tc, vget (ufs_sum s) c = Ok tc /\ osum op (map h (cls R n c)) = Some tc).
      { destruct Hac as [[-> ->]|[-> ->]]; [apply (HS y Hy)|apply (HS x Hx)]. }
      destruct Hsa as (ta & Eta & Ota). destruct Hsc as (tc & Etc & Otc).
      rewrite Eta, Etc; cbn [bind].
      pose proof (vget_range _ _ _ Eta) as Ra.
      rewrite vset_ok by auto; cbn [bind].
      eexists _, _; split; [reflexivity|]. split.
      + split; auto. split; [cbn; now rewrite zlen_zupd|].
        eexists; split; [cbn; eapply UInv_ext; eauto|].
        intros z Hz. cbn [ufs_sum]. destruct (R z =? c) eqn:Cz.
        * exists (op ta tc). split; [apply vget_zupd_same; auto|].
          rewrite cls_merge_val by (auto; lia). rewrite Ota, Otc. reflexivity.
        * destruct (Z.eq_dec (R z) a) as [Ea|Na].
          -- rewrite Ea. exists (op ta tc). split; [apply vget_zupd_same; auto|].
             rewrite cls_merge_val by (auto; lia). rewrite Ota, Otc. reflexivity.
          -- destruct (HS z Hz) as (t & Et & Ot). exists t. rewrite vget_zupd_diff by lia.
             split; auto. rewrite cls_merge_other by lia. auto.
      + rewrite (ui_conn _ _ _ _ I) by auto. tauto.
    - rewrite (Hf eq_refl) in *. eexists _, _; split; [reflexivity|]. split.
      + split; auto. split; auto. exists R. split; auto. cbn. eapply UInv_ext; eauto.
      + rewrite (ui_conn _ _ _ _ I) by auto. split; [discriminate|]. intros H. apply Hb in H. discriminate.
  Qed.

  Lemma ufs_merges_ok n h s E ops : SInv n h s E -> Forall (fun '(x, y) => 0 <= x < n /\ 0 <= y < n) ops ->
    exists bs s', ufs_merges op s ops = Ok (bs, s') /\ SInv n h s' (rev ops ++ E).
  Proof.
    intros I F; revert s E I; induction F as [|(x, y) ops [Hx Hy] F IH]; intros s E I; cbn [ufs_merges].
    - exists [], s; auto.
    - destruct (ufs_merge_ok _ _ _ _ _ _ I Hx Hy) as (b & s1 & E1 & I1 & _). rewrite E1; cbn [bind].
      destruct (IH _ _ I1) as (bs & s2 & E2 & I2). rewrite E2; cbn [bind].
      eexists _, _; split; [reflexivity|]. simpl. rewrite <- app_assoc. auto.
  Qed.

  Lemma ufs_sumof_ok n h s E x c cs : SInv n h s E -> 0 <= x < n -> component_list n E x c cs ->
    exists s', ufs_sumof s x = Ok (fold_left op (map h cs) (h c), s') /\ SInv n h s' E.
  Proof.
    intros (Hn & HL & R & I & HS) Hx HC. unfold ufs_sumof.
    destruct (uf_root_ok _ _ _ _ _ Hn I Hx) as (s1 & E1 & Hn1 & I1). rewrite E1; cbn [bind].
    destruct (HS x Hx) as (t & Et & Ot). rewrite Et; cbn [bind].
    pose proof (cls_component _ _ _ _ _ _ _ I Hx HC) as P.
    rewrite <- (osum_perm op op_assoc op_comm _ _ (Permutation_map h P)) in Ot. cbn [map] in Ot.
    rewrite osum_fold in Ot by auto. injection Ot as <-.
    eexists; split; [reflexivity|]. split; auto. split; auto. exists R; auto.
  Qed.

  Lemma cls_id n r : 0 <= r < n -> cls (fun x => x) n r = [r].
  Proof.
    intros H.
    assert (P : NoDup (cls (fun x => x) n r)) by apply cls_NoDup.
    assert (Q : forall v, In v (cls (fun x => x) n r) <-> v = r) by (intro v; rewrite cls_In; lia).
    destruct (cls (fun x => x) n r) as [|a [|b l]].
    - exfalso. apply (proj2 (Q r)); auto.
    - f_equal. apply Q; simpl; auto.
    - exfalso. assert (a = r) by (apply Q; simpl; auto). assert (b = r) by (apply Q; simpl; auto).
      inversion P as [|? ? N1 _]; subst. apply N1. simpl; auto.
  Qed.

  Lemma ufs_init_ok vals h : (forall i, 0 <= i < zlen vals -> vget vals i = Ok (h i)) ->
    SInv (zlen vals) h (ufs_init vals) [].
  Proof.
    intros H. split; auto. split; auto. exists (fun x => x). split; [apply UInv_init, zlen_nonneg|].
    intros x Hx. exists (h x). cbn. split; auto. rewrite cls_id by auto. reflexivity.
  Qed.
End Sum.
