From Verif Require Import Base BaseLemmas UnionFind_model UnionFind_spec UnionFind_run.
From Coq Require Import Relations Sorted Permutation.

(* ---------- connectivity ---------- *)
Lemma connected_refl E x : connected E x x. Proof. apply rst_refl. Qed.
Lemma connected_sym E x y : connected E x y -> connected E y x. Proof. apply rst_sym. Qed.
Lemma connected_trans E x y z : connected E x y -> connected E y z -> connected E x z.
Proof. apply rst_trans. Qed.
Lemma connected_cons E a b x y :
  connected ((a, b) :: E) x y <->
  connected E x y \/ (connected E x a /\ connected E b y) \/ (connected E x b /\ connected E a y).
Proof.
  split.
  - induction 1 as [u v H|u|u v H IH|u v w H1 IH1 H2 IH2].
    + destruct H as [H|H].
      * injection H as -> ->. right; left; split; apply connected_refl.
      * left. now apply rst_step.
    + left; apply connected_refl.
    + destruct IH as [IH|[[I1 I2]|[I1 I2]]].
      * left; now apply connected_sym.
      * right; right; split; now apply connected_sym.
      * right; left; split; now apply connected_sym.
    + destruct IH1 as [A|[[A1 A2]|[A1 A2]]], IH2 as [B|[[B1 B2]|[B1 B2]]];
        try (left; eapply connected_trans; now eauto);
        try (right; left; split; auto; eapply connected_trans; now eauto);
        try (right; right; split; auto; eapply connected_trans; now eauto).
  - assert (L : forall u v, connected E u v -> connected ((a, b) :: E) u v).
    { intros u v; induction 1 as [u v H|u|u v H IH|u v w H1 IH1 H2 IH2].
      - apply rst_step; now right.
      - apply rst_refl.
      - now apply rst_sym.
      - eapply rst_trans; eauto. }
    assert (S : connected ((a, b) :: E) a b) by (apply rst_step; now left).
    intros [H|[[H1 H2]|[H1 H2]]]; auto.
    + eapply connected_trans; [apply L, H1|]. eapply connected_trans; [exact S|apply L, H2].
    + eapply connected_trans; [apply L, H1|]. eapply connected_trans; [apply connected_sym, S|apply L, H2].
Qed.
Lemma connected_nil x y : connected [] x y <-> x = y.
Proof.
  split; [|intros ->; apply connected_refl].
  induction 1 as [u v H|u|u v H IH|u v w H1 IH1 H2 IH2]; try congruence. destruct H.
Qed.

(* ---------- parent forests ---------- *)
(* [reach dat x k r]: following k parent links from x arrives at the root r *)
Inductive reach (dat : list Z) : Z -> nat -> Z -> Prop :=
| reach_root x d : vget dat x = Ok d -> d < 0 -> reach dat x 0 x
| reach_up x d k r : vget dat x = Ok d -> 0 <= d -> reach dat d k r -> reach dat x (S k) r.

Lemma reach_det dat x k r k' r' : reach dat x k r -> reach dat x k' r' -> k = k' /\ r = r'.
Proof.
  intro H; revert k' r'; induction H as [x d E L|x d k r E L H IH]; intros k' r' H';
    inversion H' as [y e E' L'|y e j s E' L' G]; subst; try (rewrite E in E'; injection E' as ->); try lia; auto.
  destruct (IH _ _ G); subst; auto.
Qed.
Lemma reach_range dat x k r : reach dat x k r -> 0 <= x < zlen dat.
Proof. destruct 1; eapply vget_range; eauto. Qed.
Lemma reach_is_root dat x k r : reach dat x k r -> exists d, vget dat r = Ok d /\ d < 0.
Proof. induction 1; eauto. Qed.
Lemma reach_root_self dat x k r : reach dat x k r -> reach dat r 0 r.
Proof. intro H; destruct (reach_is_root _ _ _ _ H) as (d & E & L). econstructor; eauto. Qed.

Lemma reach_visited dat x k r : reach dat x k r ->
  exists l, length l = S k /\ NoDup l /\ forall v, In v l -> exists j, (j <= k)%nat /\ reach dat v j r.
Proof.
  induction 1 as [x d E L|x d k r E L H IH].
  - exists [x]; split; auto; split; [repeat constructor; auto|].
    intros v [<-|[]]. exists O; split; auto. econstructor; eauto.
  - destruct IH as (l & Ll & ND & Hl). exists (x :: l); split; [simpl; lia|]. split.
    + constructor; auto. intro I. destruct (Hl _ I) as (j & Lj & R).
      assert (R' : reach dat x (S k) r) by (econstructor; eauto).
      destruct (reach_det _ _ _ _ _ _ R R'). lia.
    + intros v [<-|I].
      * exists (S k); split; auto. econstructor; eauto.
      * destruct (Hl _ I) as (j & Lj & R). exists j; split; auto.
Qed.
Lemma reach_bound dat x k r : reach dat x k r -> (k < length dat)%nat.
Proof.
  intro H. destruct (reach_visited _ _ _ _ H) as (l & L & ND & Hl).
  assert (zlen l <= Z.max 0 (zlen dat)).
  { apply NoDup_range_length; auto. intros v I. destruct (Hl _ I) as (j & _ & R). eapply reach_range; eauto. }
  unfold zlen in *; lia.
Qed.

Lemma root_climb_ok dat x k r fuel buf :
  reach dat x k r -> (k < fuel)%nat ->
  exists buf', root_climb fuel dat x buf = Ok (r, buf' ++ buf) /\
     forall b, In b buf' -> exists j, reach dat b (S j) r.
Proof.
  intros H; revert fuel buf; induction H as [x d E L|x d k r E L H IH]; intros [|f] buf F; try lia; cbn [root_climb];
    rewrite E; cbn [bind].
  - destruct (0 <=? d) eqn:C; [lia|]. exists []; split; auto. intros b [].
  - destruct (0 <=? d) eqn:C; [|lia].
    destruct (IH f (x :: buf)) as (buf' & E' & Hb); [lia|].
    exists (buf' ++ [x]). rewrite <- app_assoc. split; auto.
    intros b I. apply in_app_or in I. destruct I as [I|[<-|[]]]; auto.
    exists k. econstructor; eauto.
Qed.

(* [compressed dat dat']: same root for every vertex, same data at the roots *)
Definition compressed (dat dat' : list Z) : Prop :=
  zlen dat' = zlen dat /\
  (forall x k r, reach dat x k r -> exists k', reach dat' x k' r) /\
  (forall r d, vget dat r = Ok d -> d < 0 -> vget dat' r = Ok d).

Lemma compressed_refl dat : compressed dat dat.
Proof. repeat split; eauto. Qed.
Lemma compressed_trans a b c : compressed a b -> compressed b c -> compressed a c.
Proof.
  intros (L1 & R1 & D1) (L2 & R2 & D2). split; [lia|split].
  - intros x k r H. destruct (R1 _ _ _ H) as (k' & H'). eauto.
  - eauto.
Qed.
Lemma compress_step dat b j r : reach dat b (S j) r -> compressed dat (zupd dat b r).
Proof.
  intros H. pose proof (reach_range _ _ _ _ H) as Rb.
  destruct (reach_is_root _ _ _ _ H) as (dr & Er & Lr).
  assert (Nb : exists d, vget dat b = Ok d /\ 0 <= d) by (inversion H; eauto).
  destruct Nb as (db & Eb & Lb).
  assert (b <> r) by (intro; subst; rewrite Er in Eb; injection Eb; lia).
  pose proof (vget_range _ _ _ Er) as Rr.
  split; [apply zlen_zupd|split].
  - intros x k r' G. induction G as [x d E L|x d k r' E L G IH].
    + exists O. apply reach_root with d; auto.
      rewrite vget_zupd_diff; auto; try lia. intro; subst. rewrite E in Eb; injection Eb; lia.
    + destruct (Z.eq_dec x b) as [->|N].
      * assert (r' = r). { assert (reach dat b (S k) r') by (econstructor; eauto). eapply reach_det; eauto. }
        subst r'. exists 1%nat. apply reach_up with r; try lia.
        -- now apply vget_zupd_same.
        -- apply reach_root with dr; auto. rewrite vget_zupd_diff; auto; lia.
      * destruct IH as (k' & IH). exists (S k'). apply reach_up with d; auto.
        rewrite vget_zupd_diff; auto; lia.
  - intros r' d E L. rewrite vget_zupd_diff; auto; try lia. intro; subst. rewrite E in Eb; injection Eb; lia.
Qed.

Lemma compress_all dat buf r :
  (forall b, In b buf -> exists j, reach dat b (S j) r) ->
  exists dat', root_compress dat buf r = Ok dat' /\ compressed dat dat'.
Proof.
  unfold root_compress. revert dat; induction buf as [|b buf IH]; intros dat H; cbn [for_each].
  - exists dat; split; auto using compressed_refl.
  - destruct (H b (or_introl eq_refl)) as (j & Hb).
    rewrite vset_ok by (eapply reach_range; eauto). cbn [bind].
    pose proof (compress_step _ _ _ _ Hb) as C.
    destruct (reach_is_root _ _ _ _ Hb) as (dr & Er & Lr).
    destruct (IH (zupd dat b r)) as (dat' & E & C').
    + intros b' I. destruct (Z.eq_dec b' b) as [->|Nb].
      * exists O. apply reach_up with r.
        -- apply vget_zupd_same. eapply reach_range; eauto.
        -- apply vget_range in Er; lia.
        -- destruct C as (_ & _ & D). apply reach_root with dr; auto.
      * destruct (H b' (or_intror I)) as (j' & Hb'). destruct C as (_ & R & D).
        destruct (R _ _ _ Hb') as ([|k'] & G); eauto.
        exfalso. assert (b' = r) by (inversion G; auto). subst b'.
        pose proof (reach_root_self _ _ _ _ Hb') as S0. destruct (reach_det _ _ _ _ _ _ Hb' S0); discriminate.
    + exists dat'; split; auto. eapply compressed_trans; eauto.
Qed.

(* ---------- the invariant ---------- *)
Definition count (f : Z -> bool) (n : Z) : Z := zlen (filter f (zrange n)).

(* R is the root function; E the pairs merged so far *)
Record UInv (n : Z) (dat : list Z) (R : Z -> Z) (E : list (Z * Z)) : Prop := {
  ui_n : 0 <= n;
  ui_len : zlen dat = n;
  ui_reach : forall x, 0 <= x < n -> exists k, reach dat x k (R x);
  ui_conn : forall x y, 0 <= x < n -> 0 <= y < n -> (connected E x y <-> R x = R y);
  ui_E : forall x y, In (x, y) E -> 0 <= x < n /\ 0 <= y < n;
  ui_size : forall x, 0 <= x < n -> vget dat (R x) = Ok (- count (fun v => R v =? R x) n)
}.

Lemma connected_range n E x y : (forall x y, In (x, y) E -> 0 <= x < n /\ 0 <= y < n) ->
  connected E x y -> (0 <= x < n <-> 0 <= y < n).
Proof.
  intros H. induction 1 as [u v I|u|u v G IH|u v w G1 IH1 G2 IH2]; try tauto.
  destruct (H _ _ I). tauto.
Qed.

Lemma UInv_R_range n dat R E x : UInv n dat R E -> 0 <= x < n -> 0 <= R x < n /\ R (R x) = R x.
Proof.
  intros I Hx. destruct (ui_reach _ _ _ _ I x Hx) as (k & H).
  pose proof (reach_root_self _ _ _ _ H) as S. pose proof (reach_range _ _ _ _ S) as Rg.
  rewrite (ui_len _ _ _ _ I) in Rg. split; auto.
  destruct (ui_reach _ _ _ _ I (R x) Rg) as (k' & H').
  destruct (reach_det _ _ _ _ _ _ S H'); auto.
Qed.

Lemma UInv_compressed n dat dat' R E : UInv n dat R E -> compressed dat dat' -> UInv n dat' R E.
Proof.
  intros I (L & C & D). constructor.
  - apply I.
  - rewrite L; apply I.
  - intros x Hx. destruct (ui_reach _ _ _ _ I x Hx) as (k & H). eauto.
  - apply I.
  - apply I.
  - intros x Hx. pose proof (ui_size _ _ _ _ I x Hx) as S.
    destruct (ui_reach _ _ _ _ I x Hx) as (k & H). destruct (reach_is_root _ _ _ _ H) as (d & Ed & Ld).
    rewrite (D _ _ Ed Ld). congruence.
Qed.

Lemma uf_root_ok n s R E x : uf_n s = n -> UInv n (uf_dat s) R E -> 0 <= x < n ->
  exists s', uf_root s x = Ok (R x, s') /\ uf_n s' = n /\ UInv n (uf_dat s') R E.
Proof.
  intros Hn I Hx. unfold uf_root.
  destruct (ui_reach _ _ _ _ I x Hx) as (k & H).
  destruct (root_climb_ok _ _ _ _ (S (length (uf_dat s))) [] H) as (buf & E1 & Hb).
  { apply reach_bound in H; lia. }
  rewrite E1; cbn [bind]. rewrite app_nil_r.
  destruct (compress_all _ _ _ Hb) as (dat' & E2 & C). rewrite E2; cbn [bind].
  eexists; split; eauto. split; auto. simpl. eapply UInv_compressed; eauto.
Qed.

Lemma count_pos f n x : 0 <= x < n -> f x = true -> 0 < count f n.
Proof.
  intros H F. unfold count. assert (In x (filter f (zrange n))) by (apply filter_In; split; auto; now apply In_zrange).
  destruct (filter f (zrange n)); [easy|]. rewrite zlen_cons. pose proof (zlen_nonneg l). lia.
Qed.
Lemma count_ext f g n : (forall x, 0 <= x < n -> f x = g x) -> count f n = count g n.
Proof.
  intros H. unfold count. f_equal. apply filter_ext_in. intros a I. apply H. now apply In_zrange.
Qed.
Lemma filter_or_length {A} (f g : A -> bool) l :
  (forall x, In x l -> f x = true -> g x = false) ->
  length (filter (fun x => f x || g x) l) = (length (filter f l) + length (filter g l))%nat.
Proof.
  induction l as [|x l IH]; intros H; auto; simpl.
  pose proof (IH (fun y I => H y (or_intror I))) as IH'.
  pose proof (H x (or_introl eq_refl)) as Hx.
  destruct (f x), (g x); simpl; lia.
Qed.
Lemma count_or f g n : (forall x, 0 <= x < n -> f x = true -> g x = false) ->
  count (fun x => f x || g x) n = count f n + count g n.
Proof.
  intros H. unfold count, zlen. rewrite filter_or_length; [lia|].
  intros x I. apply H. now apply In_zrange.
Qed.

Lemma counts_count n (f : Z -> bool) (P : Z -> Prop) :
  (forall v, 0 <= v < n -> (f v = true <-> P v)) -> counts n P (count f n).
Proof.
  intros H. exists (filter f (zrange n)). split; [|split]; auto.
  - apply NoDup_filter, NoDup_zrange.
  - intro v. rewrite filter_In, In_zrange. split.
    + intros [A B]; split; auto. now apply H.
    + intros [A B]; split; auto. now apply H.
Qed.

(* linking root y below root x *)
Lemma UInv_link n dat R E x y u v dx dy :
  UInv n dat R E -> 0 <= x < n -> 0 <= y < n -> R x = x -> R y = y -> x <> y ->
  vget dat x = Ok dx -> vget dat y = Ok dy ->
  0 <= u < n -> 0 <= v < n -> ((R u = x /\ R v = y) \/ (R u = y /\ R v = x)) ->
  UInv n (zupd (zupd dat x (dx + dy)) y x) (fun z => if R z =? y then x else R z) ((u, v) :: E).
Proof.
  intros I Hx Hy Rx Ry N Ex Ey Hu Hv Huv.
  pose proof (ui_len _ _ _ _ I) as L.
  pose proof (ui_size _ _ _ _ I x Hx) as Sx. rewrite Rx, Ex in Sx. injection Sx as Sx.
  pose proof (ui_size _ _ _ _ I y Hy) as Sy. rewrite Ry, Ey in Sy. injection Sy as Sy.
  pose proof (count_pos (fun w => R w =? x) n x Hx ltac:(lia)) as Px.
  pose proof (count_pos (fun w => R w =? y) n y Hy ltac:(lia)) as Py.
  set (dat' := zupd (zupd dat x (dx + dy)) y x).
  assert (Gx : vget dat' x = Ok (dx + dy)).
  { unfold dat'. rewrite vget_zupd_diff by lia. apply vget_zupd_same. lia. }
  assert (Gy : vget dat' y = Ok x).
  { unfold dat'. apply vget_zupd_same. rewrite zlen_zupd. lia. }
  assert (Gz : forall z, z <> x -> z <> y -> vget dat' z = vget dat z).
  { intros z Zx Zy. unfold dat'. rewrite !vget_zupd_diff by lia. auto. }
  assert (Rch : forall z k r, reach dat z k r -> exists k', reach dat' z k' (if r =? y then x else r)).
  { intros z k r H. induction H as [z d Ez Lz|z d k r Ez Lz H IH].
    - destruct (z =? y) eqn:Zy.
      + assert (z = y) by lia; subst z. exists 1%nat. apply reach_up with x; auto; try lia.
        apply reach_root with (dx + dy); auto. lia.
      + exists O. destruct (Z.eq_dec z x) as [->|Zx].
        * apply reach_root with (dx + dy); auto. lia.
        * apply reach_root with d; auto. rewrite Gz; auto; lia.
    - destruct IH as (k' & IH). exists (S k'). apply reach_up with d; auto.
      rewrite Gz; auto; intro; subst.
      + rewrite Ez in Ex; injection Ex; lia.
      + rewrite Ez in Ey; injection Ey; lia. }
  constructor.
  - apply I.
  - unfold dat'. now rewrite !zlen_zupd.
  - intros z Hz. destruct (ui_reach _ _ _ _ I z Hz) as (k & H). eauto.
  - intros a b Ha Hb. rewrite connected_cons.
    rewrite !(ui_conn _ _ _ _ I) by auto.
    destruct (R a =? y) eqn:Ca, (R b =? y) eqn:Cb; lia.
  - intros a b [H|H]; [injection H as <- <-; auto|]. eapply ui_E; eauto.
  - intros z Hz. destruct (R z =? y) eqn:Cz.
    + rewrite Gx. f_equal.
      rewrite (count_ext _ (fun w => (R w =? x) || (R w =? y))).
      2:{ intros w Hw. destruct (R w =? y) eqn:Cw; lia. }
      rewrite count_or by (intros; lia). lia.
    + destruct (Z.eq_dec (R z) x) as [Cx|Cx].
      * rewrite Cx, Gx. f_equal.
        rewrite (count_ext _ (fun w => (R w =? x) || (R w =? y))).
        2:{ intros w Hw. destruct (R w =? y) eqn:Cw; lia. }
        rewrite count_or by (intros; lia). lia.
      * rewrite Gz by lia. rewrite (ui_size _ _ _ _ I z Hz). f_equal. f_equal.
        apply count_ext. intros w Hw. destruct (R w =? y) eqn:Cw; lia.
Qed.

Lemma UInv_add_known n dat R E u v :
  UInv n dat R E -> 0 <= u < n -> 0 <= v < n -> R u = R v -> UInv n dat R ((u, v) :: E).
Proof.
  intros I Hu Hv H. constructor; try apply I.
  - intros a b Ha Hb. rewrite connected_cons. rewrite !(ui_conn _ _ _ _ I) by auto. lia.
  - intros a b [G|G]; [injection G as <- <-; auto|]. eapply ui_E; eauto.
Qed.

Lemma UInv_init n : 0 <= n -> UInv n (vrep n (-1)) (fun x => x) [].
Proof.
  intros H. constructor; auto.
  - now apply zlen_vrep.
  - intros x Hx. exists O. apply reach_root with (-1); [now apply vget_vrep|lia].
  - intros; apply connected_nil.
  - intros x y [].
  - intros x Hx. rewrite vget_vrep by auto. f_equal.
    assert (count (fun v => v =? x) n = 1); [|lia].
    unfold count, zlen.
    assert (P : NoDup (filter (fun v => v =? x) (zrange n))) by apply NoDup_filter, NoDup_zrange.
    assert (Q : forall v, In v (filter (fun v => v =? x) (zrange n)) <-> v = x).
    { intro v. rewrite filter_In, In_zrange. lia. }
    destruct (filter (fun v => v =? x) (zrange n)) as [|a [|b l]]; auto.
    + exfalso. apply (proj2 (Q x)); auto.
    + exfalso. assert (a = x) by (apply Q; simpl; auto). assert (b = x) by (apply Q; simpl; auto).
      inversion P as [|? ? N1 _]; subst. apply N1. simpl; auto.
Qed.

Definition UOk (n : Z) (s : uf) (E : list (Z * Z)) : Prop :=
  uf_n s = n /\ exists R, UInv n (uf_dat s) R E.

Lemma uf_step_ok n s E o : UOk n s E -> uop_ok n o ->
  exists r s', uf_step s o = Ok (r, s') /\ UOk n s' (uafter E o) /\ uanswer n E o r.
Proof.
  intros (Hn & R & I) Ho. destruct o as [x y|x y|x|x]; cbn [uf_step uop_ok] in *.
  - destruct Ho as [Hx Hy]. unfold uf_merge.
    destruct (uf_root_ok _ _ _ _ _ Hn I Hx) as (s1 & E1 & Hn1 & I1). rewrite E1; cbn [bind].
    destruct (uf_root_ok _ _ _ _ _ Hn1 I1 Hy) as (s2 & E2 & Hn2 & I2). rewrite E2; cbn [bind].
    destruct (R x =? R y) eqn:C.
    + cbn [bind]. eexists _, _; split; [reflexivity|]. cbn [uafter uanswer]. split.
      * split; auto. exists R. apply UInv_add_known; auto; lia.
      * rewrite (ui_conn _ _ _ _ I) by auto. split; [discriminate|lia].
    + destruct (UInv_R_range _ _ _ _ _ I2 Hx) as [Rx RRx].
      destruct (UInv_R_range _ _ _ _ _ I2 Hy) as [Ry RRy].
      pose proof (ui_len _ _ _ _ I2) as L2.
      destruct (vget_Ok (uf_dat s2) (R x)) as (dx & Ex); [lia|].
      destruct (vget_Ok (uf_dat s2) (R y)) as (dy & Ey); [lia|].
      rewrite Ex, Ey; cbn [bind].
      destruct (dx >? dy) eqn:G; cbn [bind]; rewrite Ex, Ey; cbn [bind];
        rewrite vset_ok by lia; cbn [bind]; rewrite vset_ok by (rewrite zlen_zupd; lia); cbn [bind];
        (eexists _, _; split; [reflexivity|]; cbn [uafter uanswer]; split;
          [split; auto; simpl | rewrite (ui_conn _ _ _ _ I) by auto; split; auto; intros; lia ]).
      * exists (fun z => if R z =? R x then R y else R z).
        apply (UInv_link n (uf_dat s2) R E (R y) (R x) x y); auto; lia.
      * exists (fun z => if R z =? R y then R x else R z).
        apply (UInv_link n (uf_dat s2) R E (R x) (R y) x y); auto; lia.
  - destruct Ho as [Hx Hy]. unfold uf_same.
    destruct (uf_root_ok _ _ _ _ _ Hn I Hx) as (s1 & E1 & Hn1 & I1). rewrite E1; cbn [bind].
    destruct (uf_root_ok _ _ _ _ _ Hn1 I1 Hy) as (s2 & E2 & Hn2 & I2). rewrite E2; cbn [bind].
    eexists _, _; split; [reflexivity|]. cbn [uafter uanswer]. split.
    + split; eauto.
    + rewrite (ui_conn _ _ _ _ I) by auto. lia.
  - unfold uf_size.
    destruct (uf_root_ok _ _ _ _ _ Hn I Ho) as (s1 & E1 & Hn1 & I1). rewrite E1; cbn [bind].
    rewrite (ui_size _ _ _ _ I1 x Ho). cbn [bind].
    eexists _, _; split; [reflexivity|]. cbn [uafter uanswer]. split.
    + split; eauto.
    + rewrite Z.opp_involutive. apply counts_count. intros v Hv. rewrite (ui_conn _ _ _ _ I) by auto. lia.
  - destruct (uf_root_ok _ _ _ _ _ Hn I Ho) as (s1 & E1 & Hn1 & I1). rewrite E1; cbn [bind].
    eexists _, _; split; [reflexivity|]. cbn [uafter uanswer]. split.
    + split; eauto.
    + destruct (UInv_R_range _ _ _ _ _ I Ho) as [Rx RRx]. split; auto.
      rewrite (ui_conn _ _ _ _ I) by auto. auto.
Qed.

Lemma uf_run_ok n s E ops : UOk n s E -> Forall (uop_ok n) ops ->
  exists rs s', uf_run s ops = Ok (rs, s') /\ uanswers n E ops rs /\ UOk n s' (uafters E ops).
Proof.
  intros H F; revert s E H; induction F as [|o ops Ho F IH]; intros s E H; cbn [uf_run].
  - exists [], s. simpl; auto.
  - destruct (uf_step_ok _ _ _ _ H Ho) as (r & s1 & E1 & H1 & A). rewrite E1; cbn [bind].
    destruct (IH _ _ H1) as (rs & s2 & E2 & A2 & H2). rewrite E2; cbn [bind].
    exists (r :: rs), s2. simpl; auto.
Qed.
