From Verif Require Import Base BaseLemmas UnionFind_model UnionFind_spec UnionFind_run UnionFind_proof UnionFind_proof2.

Lemma UOk_init n : 0 <= n -> UOk n (uf_init n) [].
Proof. intros H. split; auto. exists (fun x => x). now apply UInv_init. Qed.

Lemma union_find_history_ : forall n ops, 0 <= n -> Forall (uop_ok n) ops ->
  exists answers s, uf_run (uf_init n) ops = Ok (answers, s) /\ uanswers n [] ops answers.
Proof.
  intros n ops H F. destruct (uf_run_ok n _ [] ops (UOk_init n H) F) as (rs & s & E & A & _). eauto.
Qed.

Lemma union_find_root_canonical_ :
  forall n ops x y, 0 <= n -> Forall (uop_ok n) ops -> 0 <= x < n -> 0 <= y < n ->
  exists answers s rx s' ry s'', uf_run (uf_init n) ops = Ok (answers, s) /\
    uf_root s x = Ok (rx, s') /\ uf_root s' y = Ok (ry, s'') /\
    (rx = ry <-> connected (uafters [] ops) x y).
Proof.
  intros n ops x y H F Hx Hy. destruct (uf_run_ok n _ [] ops (UOk_init n H) F) as (rs & s & E & A & (Hn & R & I)).
  destruct (uf_root_ok _ _ _ _ _ Hn I Hx) as (s1 & E1 & Hn1 & I1).
  destruct (uf_root_ok _ _ _ _ _ Hn1 I1 Hy) as (s2 & E2 & Hn2 & I2).
  exists rs, s, (R x), s1, (R y), s2. repeat (split; auto); apply (ui_conn _ _ _ _ I); auto.
Qed.

Lemma union_find_groups_ :
  forall n ops, 0 <= n -> Forall (uop_ok n) ops ->
  exists answers s gs s', uf_run (uf_init n) ops = Ok (answers, s) /\
    uf_groups s = Ok (gs, s') /\ partition_of n (uafters [] ops) gs.
Proof.
  intros n ops H F. destruct (uf_run_ok n _ [] ops (UOk_init n H) F) as (rs & s & E & A & I).
  destruct (uf_groups_ok _ _ _ I) as (gs & s' & E1 & P & _). exists rs, s, gs, s'. auto.
Qed.

Lemma undo_union_find_history_ :
  forall n ops, 0 <= n -> Forall (vop_ok n) ops ->
  exists answers aborted, uuf_run (uuf_init n) ops = Ok (answers, aborted) /\
    vruns n ([], []) ops answers aborted.
Proof.
  intros n ops H F. apply uuf_run_ok; auto. simpl. econstructor. now apply UInv_init.
Qed.

Lemma undo_union_find_exact_ :
  forall n merges s x y b s', 0 <= n ->
    Forall (fun '(u, v) => 0 <= u < n /\ 0 <= v < n) merges ->
    uuf_merges (uuf_init n) merges = Ok s ->
    0 <= x < n -> 0 <= y < n -> uuf_merge s x y = Ok (b, s') ->
    if b then uuf_undo s' = Ok s else s' = s.
Proof.
  intros n merges s x y b s' H F Em Hx Hy.
  assert (G : uuf_n s = n /\ exists S, VInv n (uuf_dat s) (uuf_hist s) S).
  { assert (V0 : exists S, VInv n (uuf_dat (uuf_init n)) (uuf_hist (uuf_init n)) S).
    { eexists. econstructor. now apply UInv_init. }
    assert (N0 : uuf_n (uuf_init n) = n) by auto.
    revert V0 N0 Em. generalize (uuf_init n) as s0.
    induction F as [|(u, v) l [Hu Hv] F IH]; intros s0 V0 N0 Em; cbn [uuf_merges] in Em.
    - injection Em as <-; auto.
    - destruct V0 as ((E & st) & V0).
      destruct (uuf_merge_ok _ _ _ _ _ _ N0 V0 Hu Hv) as (b1 & s1 & S1 & E1 & N1 & _ & V1).
      rewrite E1 in Em; cbn [bind] in Em. eapply IH; eauto. }
  destruct G as (Hn & (E & st) & V). eapply uuf_undo_merge; eauto.
Qed.

Lemma linked_union_find_component_ :
  forall n merges x, 0 <= n ->
    Forall (fun '(u, v) => 0 <= u < n /\ 0 <= v < n) merges -> 0 <= x < n ->
  exists bs s l, luf_merges (luf_init n) merges = Ok (bs, s) /\
    luf_component s x = Ok (x :: l) /\ NoDup (x :: l) /\
    (forall v, In v (x :: l) <-> 0 <= v < n /\ connected (rev merges) x v).
Proof.
  intros n merges x H F Hx.
  destruct (luf_merges_ok _ _ _ _ (luf_init_ok n H) F) as (bs & s & E & I). rewrite app_nil_r in I.
  destruct (luf_component_ok _ _ _ _ I Hx) as (l & E1 & ND & Il). exists bs, s, l. auto.
Qed.
