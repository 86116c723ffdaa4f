From Verif Require Import Base BaseLemmas UnionFind_model UnionFind_spec UnionFind_run UnionFind_proof.
From Coq Require Import Relations Sorted Permutation.

(* ---------- groups ---------- *)
Lemma StronglySorted_zrange n : StronglySorted Z.lt (zrange n).
Proof.
  unfold zrange. generalize (Z.to_nat n) as m, O as a. induction m as [|m IH]; intros a; simpl; constructor; auto.
  apply Forall_forall. intros x Hx. apply in_map_iff in Hx. destruct Hx as (k & <- & Hk). apply in_seq in Hk. lia.
Qed.
Lemma StronglySorted_filter {A} (lt : A -> A -> Prop) f l : StronglySorted lt l -> StronglySorted lt (filter f l).
Proof.
  induction 1 as [|a l S IH F]; simpl; [constructor|]. destruct (f a); auto.
  constructor; auto. apply Forall_forall. intros x Hx. apply filter_In in Hx. rewrite Forall_forall in F. apply F; tauto.
Qed.
Lemma NoDup_app' {A} (l1 l2 : list A) : NoDup l1 -> NoDup l2 -> (forall x, In x l1 -> In x l2 -> False) -> NoDup (l1 ++ l2).
Proof.
  induction 1 as [|a l1 N ND IH]; simpl; auto. intros N2 D. constructor.
  - intro I. apply in_app_or in I. destruct I as [I|I]; [auto|]. eapply D; eauto.
  - apply IH; auto. intros x I1 I2. eapply D; eauto.
Qed.
Lemma NoDup_concat_classes (R : Z -> Z) l rs : NoDup l -> NoDup rs ->
  NoDup (concat (map (fun r => filter (fun v => R v =? r) l) rs)).
Proof.
  intros Nl. induction 1 as [|r rs N ND IH]; simpl; [constructor|].
  apply NoDup_app'; auto.
  - now apply NoDup_filter.
  - intros x I1 I2. apply filter_In in I1. apply in_concat in I2. destruct I2 as (g & Ig & Ix).
    apply in_map_iff in Ig. destruct Ig as (r' & <- & Ir'). apply filter_In in Ix.
    assert (r = r') by lia. subst. auto.
Qed.
Lemma concat_filter_nonempty {A} (g : list (list A)) :
  concat (filter (fun l => match l with [] => false | _ => true end) g) = concat g.
Proof. induction g as [|[|a l] g IH]; simpl; auto. now rewrite IH. Qed.

Lemma uf_groups_ok n s E : UOk n s E ->
  exists gs s', uf_groups s = Ok (gs, s') /\ partition_of n E gs /\ UOk n s' E.
Proof.
  intros (Hn & R & I). unfold uf_groups. rewrite Hn. pose proof (ui_n _ _ _ _ I) as N0.
  destruct (for_inv (fun i '(g, t) => uf_n t = n /\ UInv n (uf_dat t) R E /\ zlen g = n /\
     forall r, 0 <= r < n -> vget g r = Ok (filter (fun v => R v =? r) (zrange i))) 0 n
     (fun i '(g, s) => let* (r, s) := uf_root s i in let* gr := vget g r in
        let* g := vset g r (gr ++ [i]) in Ok (g, s)) (vrep n [], s)) as ((g & t) & Eg & Hn' & I' & Lg & Hg); auto.
  - split; auto. split; auto. split; [now apply zlen_vrep|]. intros r Hr. now rewrite vget_vrep.
  - intros i (g & t) Hi (Hn' & I' & Lg & Hg).
    destruct (uf_root_ok _ _ _ _ _ Hn' I' Hi) as (t' & E1 & Hn1 & I1). rewrite E1; cbn [bind].
    destruct (UInv_R_range _ _ _ _ _ I1 Hi) as [Ri _].
    rewrite Hg by auto. cbn [bind]. rewrite vset_ok by lia. cbn [bind].
    eexists; split; [reflexivity|]. split; auto. split; auto. rewrite zlen_zupd. split; auto.
    intros r Hr. rewrite vget_zupd by lia. rewrite zrange_S by lia. rewrite filter_app. simpl.
    destruct (R i =? r) eqn:C.
    + assert (R i = r) by lia; subst r. auto.
    + rewrite app_nil_r. auto.
  - rewrite Eg; cbn [bind]. eexists _, _; split; [reflexivity|]. split; [|split; eauto].
    assert (g = map (fun r => filter (fun v => R v =? r) (zrange n)) (zrange n)) as ->.
    { apply vget_ext; [rewrite zlen_map, zlen_zrange; auto|]. intros i Hi. rewrite Lg in Hi.
      rewrite Hg, vget_map, vget_zrange by auto. auto. }
    unfold partition_of. rewrite concat_filter_nonempty.
    split; [apply NoDup_concat_classes; apply NoDup_zrange|]. split; [|split].
    + intro v. rewrite in_concat. split.
      * intros (l & Il & Iv). apply in_map_iff in Il. destruct Il as (r & <- & Ir). apply filter_In in Iv.
        now apply In_zrange.
      * intros Hv. exists (filter (fun w => R w =? R v) (zrange n)). split.
        -- apply in_map_iff. exists (R v). split; auto. apply In_zrange. eapply UInv_R_range; eauto.
        -- apply filter_In. split; [now apply In_zrange|]. apply Z.eqb_refl.
    + intros l Il. apply filter_In in Il. destruct Il as [Il Ne]. split; [destruct l; congruence|].
      apply in_map_iff in Il. destruct Il as (r & <- & Ir). apply StronglySorted_filter, StronglySorted_zrange.
    + intros l x y Il Ix Hy. apply filter_In in Il. destruct Il as [Il Ne].
      apply in_map_iff in Il. destruct Il as (r & <- & Ir). apply filter_In in Ix. destruct Ix as [Ix Cx].
      apply In_zrange in Ix. rewrite filter_In, In_zrange. rewrite (ui_conn _ _ _ _ I) by auto.
      split; [intros [_ Cy]; lia|intro Cy; split; auto; lia].
Qed.

(* ---------- undo ---------- *)
Lemma uuf_root_ok n dat R E x : UInv n dat R E -> 0 <= x < n ->
  uuf_root_ (S (length dat)) n dat x = Ok (R x).
Proof.
  intros I Hx. destruct (ui_reach _ _ _ _ I x Hx) as (k & H).
  assert (B : (k < S (length dat))%nat) by (apply reach_bound in H; lia).
  revert B. generalize (S (length dat)) as fuel.
  pose proof (ui_len _ _ _ _ I) as L.
  induction H as [y d E1 L1|y d k r E1 L1 H IH]; intros [|f] B; try lia; cbn [uuf_root_];
    (assert (C : (y <? n) = true) by (apply vget_range in E1; lia)); rewrite C; cbn [assert_ bind]; rewrite E1; cbn [bind].
  - destruct (d <? 0) eqn:D; [auto|lia].
  - destruct (d <? 0) eqn:D; [lia|]. apply IH; try lia. apply reach_range in H. lia.
Qed.

Inductive VInv (n : Z) : list Z -> list (Z * Z) -> vstate -> Prop :=
| vi_base dat R E : UInv n dat R E -> VInv n dat [] (E, [])
| vi_push dat h E st dat' R' E' x dx y dy :
    VInv n dat h (E, st) -> UInv n dat' R' E' ->
    0 <= x < n -> 0 <= y < n -> zupd (zupd dat' y dy) x dx = dat ->
    VInv n dat' ((y, dy) :: (x, dx) :: h) (E', E :: st).

Lemma VInv_UInv n dat h E st : VInv n dat h (E, st) -> exists R, UInv n dat R E.
Proof. inversion 1; subst; eauto. Qed.

Lemma last_indep {A} (l : list A) a b : l <> [] -> last l a = last l b.
Proof. induction l as [|x [|y l] IH]; simpl; intros; auto; try congruence. apply IH; congruence. Qed.

Lemma VInv_bottom n dat h E : VInv n dat h (E, []) -> h = [].
Proof. inversion 1; subst; auto. Qed.

Lemma undo_restores (dat : list Z) x y dx dy w z :
  vget dat x = Ok dx -> vget dat y = Ok dy -> x <> y ->
  zupd (zupd (zupd (zupd dat x w) y z) y dy) x dx = dat.
Proof.
  intros Ex Ey N. pose proof (vget_range _ _ _ Ex). pose proof (vget_range _ _ _ Ey).
  apply vget_ext; [now rewrite !zlen_zupd|]. rewrite !zlen_zupd. intros i Hi.
  rewrite !vget_zupd by (rewrite ?zlen_zupd; lia).
  destruct (x =? i) eqn:A; [assert (x = i) by lia; subst; auto|].
  destruct (y =? i) eqn:B; [assert (y = i) by lia; subst; auto|]. auto.
Qed.

Lemma uuf_merge_ok n s E st x y :
  uuf_n s = n -> VInv n (uuf_dat s) (uuf_hist s) (E, st) -> 0 <= x < n -> 0 <= y < n ->
  exists b s' S', uuf_merge s x y = Ok (b, s') /\ uuf_n s' = n /\
     vstep n (E, st) (VMerge x y) (Some (VBool b)) S' /\ VInv n (uuf_dat s') (uuf_hist s') S'.
Proof.
  intros Hn V Hx Hy. destruct (VInv_UInv _ _ _ _ _ V) as (R & I). unfold uuf_merge, uuf_root.
  rewrite Hn, !(uuf_root_ok _ _ _ _ _ I) by auto. cbn [bind].
  destruct (R x =? R y) eqn:C.
  - eexists false, s, (E, st). split; [reflexivity|]. split; auto. split; auto. constructor.
    rewrite (ui_conn _ _ _ _ I) by auto. lia.
  - destruct (UInv_R_range _ _ _ _ _ I Hx) as [Rx RRx].
    destruct (UInv_R_range _ _ _ _ _ I Hy) as [Ry RRy].
    pose proof (ui_len _ _ _ _ I) as L2.
    destruct (vget_Ok (uuf_dat s) (R x)) as (dx & Ex); [lia|].
    destruct (vget_Ok (uuf_dat s) (R y)) as (dy & Ey); [lia|].
    rewrite Ex, Ey; cbn [bind].
    destruct (dx >? dy) eqn:G; cbn [bind]; rewrite Ex, Ey; cbn [bind];
      rewrite vset_ok by lia; cbn [bind]; rewrite vget_zupd_diff by lia; rewrite ?Ex, ?Ey; cbn [bind];
      rewrite vset_ok by (rewrite zlen_zupd; lia); cbn [bind];
      (eexists true, _, ((x, y) :: E, E :: st); split; [reflexivity|]; split; auto; split;
        [constructor; rewrite (ui_conn _ _ _ _ I) by auto; lia|simpl]).
    + eapply vi_push with (dat := uuf_dat s); auto.
      * apply (UInv_link n (uuf_dat s) R E (R y) (R x) x y); auto; lia.
      * apply undo_restores; auto; lia.
    + eapply vi_push with (dat := uuf_dat s); auto.
      * apply (UInv_link n (uuf_dat s) R E (R x) (R y) x y); auto; lia.
      * apply undo_restores; auto; lia.
Qed.

Lemma uuf_undo_ok n s E E' st : uuf_n s = n -> VInv n (uuf_dat s) (uuf_hist s) (E, E' :: st) ->
  exists s', uuf_undo s = Ok s' /\ uuf_n s' = n /\ VInv n (uuf_dat s') (uuf_hist s') (E', st) /\
    (length (uuf_hist s') < length (uuf_hist s))%nat.
Proof.
  intros Hn V. inversion V as [|dat h E1 st1 dat' R' E1' x dx y dy V' I' Hx Hy Hu A B]; subst.
  unfold uuf_undo. rewrite <- B. destruct (VInv_UInv _ _ _ _ _ V) as (R & I).
  pose proof (ui_len _ _ _ _ I) as L.
  rewrite vset_ok by lia; cbn [bind]. rewrite vset_ok by (rewrite zlen_zupd; lia); cbn [bind].
  eexists; split; [reflexivity|]. simpl. auto.
Qed.

Lemma uuf_rollback_ok n s E st : uuf_n s = n -> VInv n (uuf_dat s) (uuf_hist s) (E, st) ->
  exists s', uuf_rollback s = Ok s' /\ uuf_n s' = n /\ VInv n (uuf_dat s') (uuf_hist s') (last st E, []).
Proof.
  intros Hn V. unfold uuf_rollback.
  apply (loop_inv (fun t => uuf_n t = n /\ exists E1 st1, last st1 E1 = last st E /\ VInv n (uuf_dat t) (uuf_hist t) (E1, st1))
    (fun t => length (uuf_hist t))); eauto.
  intros t (Hn' & E1 & st1 & Hl & V1).
  destruct st1 as [|E2 st1].
  - pose proof (VInv_bottom _ _ _ _ V1) as Hh. rewrite Hh.
    eexists; split; [reflexivity|]. simpl. split; auto. simpl in Hl. rewrite <- Hl. auto.
  - destruct (uuf_undo_ok _ _ _ _ _ Hn' V1) as (t' & E' & Hn2 & V2 & Lt). rewrite E'.
    destruct (uuf_hist t) as [|h hs] eqn:Hh; [simpl in Lt; lia|]. cbn [bind].
    eexists; split; [reflexivity|]. simpl. split; [|simpl in Lt; lia]. split; auto.
    exists E2, st1. split; auto. rewrite <- Hl. destruct st1; auto. cbn [last]. apply (last_indep (l :: st1)). congruence.
Qed.

Lemma uuf_step_ok n s S o : uuf_n s = n -> VInv n (uuf_dat s) (uuf_hist s) S -> vop_ok n o ->
  exists r S', vstep n S o r S' /\
    match r with
    | None => uuf_step s o = Abort
    | Some r => exists s', uuf_step s o = Ok (r, s') /\ uuf_n s' = n /\ VInv n (uuf_dat s') (uuf_hist s') S'
    end.
Proof.
  intros Hn V Ho. destruct S as (E, st). destruct o as [x y|x y|x| | |]; cbn [uuf_step vop_ok] in *.
  - destruct Ho as [Hx Hy]. destruct (uuf_merge_ok _ _ _ _ _ _ Hn V Hx Hy) as (b & s' & S' & E1 & Hn' & St & V').
    exists (Some (VBool b)), S'. split; auto. rewrite E1; cbn [bind]. eauto.
  - destruct Ho as [Hx Hy]. destruct (VInv_UInv _ _ _ _ _ V) as (R & I).
    exists (Some (VBool (R x =? R y))), (E, st). split.
    + constructor. rewrite (ui_conn _ _ _ _ I) by auto. lia.
    + unfold uuf_same, uuf_root. rewrite Hn, !(uuf_root_ok _ _ _ _ _ I) by auto. cbn [bind]. eauto.
  - destruct (VInv_UInv _ _ _ _ _ V) as (R & I).
    exists (Some (VInt (count (fun v => R v =? R x) n))), (E, st). split.
    + constructor. apply counts_count. intros v Hv. rewrite (ui_conn _ _ _ _ I) by auto. lia.
    + unfold uuf_size, uuf_root. rewrite Hn, !(uuf_root_ok _ _ _ _ _ I) by auto. cbn [bind].
      rewrite (ui_size _ _ _ _ I) by auto. cbn [bind]. rewrite Z.opp_involutive. eauto.
  - destruct st as [|E' st].
    + exists None, (E, []). split; [constructor|]. unfold uuf_undo.
      rewrite (VInv_bottom _ _ _ _ V). auto.
    + exists (Some VUnit), (E', st). split; [constructor|].
      destruct (uuf_undo_ok _ _ _ _ _ Hn V) as (s' & E1 & Hn' & V' & _). rewrite E1; cbn [bind]. eauto.
  - exists (Some VUnit), (E, []). split; [constructor|]. eexists; split; [reflexivity|]. split; auto.
    destruct (VInv_UInv _ _ _ _ _ V) as (R & I). simpl. econstructor; eauto.
  - exists (Some VUnit), (last st E, []). split; [constructor|].
    destruct (uuf_rollback_ok _ _ _ _ Hn V) as (s' & E1 & Hn' & V'). rewrite E1; cbn [bind]. eauto.
Qed.

Lemma uuf_run_ok n s S ops : uuf_n s = n -> VInv n (uuf_dat s) (uuf_hist s) S -> Forall (vop_ok n) ops ->
  exists rs a, uuf_run s ops = Ok (rs, a) /\ vruns n S ops rs a.
Proof.
  intros Hn V F; revert s S Hn V; induction F as [|o ops Ho F IH]; intros s S Hn V; cbn [uuf_run].
  - exists [], false; split; auto; constructor.
  - destruct (uuf_step_ok _ _ _ _ Hn V Ho) as ([r|] & S' & St & H).
    + destruct H as (s' & E1 & Hn' & V'). rewrite E1.
      destruct (IH _ _ Hn' V') as (rs & a & E2 & G). rewrite E2; cbn [bind].
      exists (r :: rs), a. split; auto. econstructor; eauto.
    + rewrite H. exists [], true. split; auto. econstructor; eauto.
Qed.

(* undo after a successful merge gives back exactly the same object *)
Lemma uuf_undo_merge n s E st x y b s' :
  uuf_n s = n -> VInv n (uuf_dat s) (uuf_hist s) (E, st) -> 0 <= x < n -> 0 <= y < n ->
  uuf_merge s x y = Ok (b, s') -> if b then uuf_undo s' = Ok s else s' = s.
Proof.
  intros Hn V Hx Hy. destruct (VInv_UInv _ _ _ _ _ V) as (R & I). unfold uuf_merge, uuf_root.
  rewrite Hn, !(uuf_root_ok _ _ _ _ _ I) by auto. cbn [bind].
  destruct (R x =? R y) eqn:C.
  - intro H; injection H as <- <-; auto.
  - destruct (UInv_R_range _ _ _ _ _ I Hx) as [Rx RRx].
    destruct (UInv_R_range _ _ _ _ _ I Hy) as [Ry RRy].
    pose proof (ui_len _ _ _ _ I) as L2.
    destruct (vget_Ok (uuf_dat s) (R x)) as (dx & Ex); [lia|].
    destruct (vget_Ok (uuf_dat s) (R y)) as (dy & Ey); [lia|].
    rewrite Ex, Ey; cbn [bind].
    destruct (dx >? dy) eqn:G; cbn [bind]; rewrite Ex, Ey; cbn [bind];
      rewrite vset_ok by lia; cbn [bind]; rewrite vget_zupd_diff by lia; rewrite ?Ex, ?Ey; cbn [bind];
      rewrite vset_ok by (rewrite zlen_zupd; lia); cbn [bind]; intro H; injection H as <- <-;
      unfold uuf_undo; simpl; rewrite vset_ok by (rewrite !zlen_zupd; lia); cbn [bind];
      rewrite vset_ok by (rewrite !zlen_zupd; lia); cbn [bind]; rewrite undo_restores by (auto; lia);
      rewrite <- Hn; destruct s; auto.
Qed.

(* ---------- linked ---------- *)
(* following [link] from x visits l and then stands at y *)
Inductive walk (link : list Z) : Z -> list Z -> Z -> Prop :=
| walk_one x y : vget link x = Ok y -> walk link x [x] y
| walk_cons x y l z : vget link x = Ok y -> walk link y l z -> walk link x (x :: l) z.

Lemma walk_app link x l y l' z : walk link x l y -> walk link y l' z -> walk link x (l ++ l') z.
Proof. induction 1; simpl; intros; econstructor; eauto. Qed.
Lemma walk_split link x l1 a l2 z : walk link x (l1 ++ a :: l2) z -> l1 <> [] ->
  walk link x l1 a.
Proof.
  revert x; induction l1 as [|b l1 IH]; intros x H N; [congruence|]. simpl in H.
  inversion H as [u v E1 Eq|u v l w E1 W Eq]; subst.
  - destruct l1; discriminate.
  - destruct l1 as [|c l1].
    + simpl in W. inversion W; subst; now constructor.
    + econstructor; eauto. apply IH; auto. congruence.
Qed.
Lemma walk_suffix link x l1 a l2 z : walk link x (l1 ++ a :: l2) z -> walk link a (a :: l2) z.
Proof.
  revert x; induction l1 as [|b l1 IH]; intros x H; simpl in H.
  - inversion H; subst; econstructor; eauto.
  - inversion H as [u v E1 Eq|u v l w E1 W Eq]; subst; eauto. destruct l1; discriminate.
Qed.
Lemma walk_head link x l z : walk link x l z -> exists t, l = x :: t.
Proof. destruct 1; eauto. Qed.
Lemma walk_rotate link x l z : walk link x l x -> NoDup l -> In z l ->
  exists l', walk link z l' z /\ Permutation l l'.
Proof.
  intros W ND I. apply in_split in I. destruct I as (l1 & l2 & ->).
  pose proof (walk_suffix _ _ _ _ _ _ W) as W2.
  destruct l1 as [|a l1].
  - destruct (walk_head _ _ _ _ W) as (t & Ht). simpl in *. injection Ht as -> ->. eauto.
  - exists ((z :: l2) ++ a :: l1). split.
    + eapply walk_app; eauto. eapply walk_split; eauto. congruence.
    + apply Permutation_app_comm.
Qed.
Lemma walk_ext link link' x l y : walk link x l y ->
  (forall v, In v l -> vget link' v = vget link v) -> walk link' x l y.
Proof.
  induction 1 as [x y E|x y l z E W IH]; intros H.
  - constructor. rewrite H; simpl; auto.
  - econstructor; [rewrite H; simpl; eauto|]. apply IH. intros; apply H; simpl; auto.
Qed.

Record LInv (n : Z) (s : luf) (E : list (Z * Z)) : Prop := {
  li_uf : UOk n (luf_uf s) E;
  li_len : zlen (luf_link s) = n;
  li_cyc : forall x, 0 <= x < n -> exists l, walk (luf_link s) x l x /\ NoDup l /\
     (forall v, In v l <-> 0 <= v < n /\ connected E x v)
}.

Lemma luf_init_ok n : 0 <= n -> LInv n (luf_init n) [].
Proof.
  intros H. constructor.
  - split; auto. exists (fun x => x). now apply UInv_init.
  - change (luf_link (luf_init n)) with (zrange n). now apply zlen_zrange.
  - intros x Hx. exists [x]. split; [|split].
    + constructor. change (luf_link (luf_init n)) with (zrange n). now apply vget_zrange.
    + repeat constructor; auto.
    + intro v. rewrite connected_nil. simpl. split; [intros [<-|[]]; auto|intros [_ <-]; auto].
Qed.

Lemma connected_ext_true E x y u v : connected E x y ->
  (connected ((x, y) :: E) u v <-> connected E u v).
Proof.
  intro C. rewrite connected_cons. split; [|tauto].
  intros [H|[[H1 H2]|[H1 H2]]]; auto.
  - eapply connected_trans; [exact H1|]. eapply connected_trans; [exact C|exact H2].
  - eapply connected_trans; [exact H1|]. eapply connected_trans; [apply connected_sym, C|exact H2].
Qed.

Lemma luf_merge_ok n s E x y : LInv n s E -> 0 <= x < n -> 0 <= y < n ->
  exists b s', luf_merge s x y = Ok (b, s') /\ LInv n s' ((x, y) :: E) /\ (b = true <-> ~ connected E x y).
Proof.
  intros [U L Cy] Hx Hy. unfold luf_merge.
  destruct (uf_step_ok _ _ _ (Merge x y) U (conj Hx Hy)) as (r & u' & E1 & U' & A).
  cbn [uf_step uafter uanswer] in *.
  destruct (uf_merge (luf_uf s) x y) as [(b, u'')| | |]; cbn [bind] in E1; try discriminate.
  injection E1 as <- <-. cbn [bind]. destruct b.
  - assert (NC : ~ connected E x y) by tauto.
    destruct (Cy x Hx) as (lx & Wx & Nx & Ix). destruct (Cy y Hy) as (ly & Wy & Ny & Iy).
    assert (x <> y) by (intros ->; apply NC, connected_refl).
    destruct (vget_Ok (luf_link s) x) as (kx & Ex); [lia|].
    destruct (vget_Ok (luf_link s) y) as (ky & Ey); [lia|].
    rewrite Ex, Ey; cbn [bind]. rewrite vset_ok by lia; cbn [bind].
    rewrite vset_ok by (rewrite zlen_zupd; lia); cbn [bind].
    eexists true, _; split; [reflexivity|]. split; [|tauto].
    set (link' := zupd (zupd (luf_link s) x ky) y kx).
    assert (Gx : vget link' x = Ok ky). { unfold link'. rewrite vget_zupd_diff by lia. apply vget_zupd_same; lia. }
    assert (Gy : vget link' y = Ok kx). { unfold link'. apply vget_zupd_same. rewrite zlen_zupd; lia. }
    assert (Go : forall z, z <> x -> z <> y -> vget link' z = vget (luf_link s) z).
    { intros z A1 A2. unfold link'. now rewrite !vget_zupd_diff by lia. }
    constructor; auto.
    { simpl. unfold link'. now rewrite !zlen_zupd. }
    simpl.
    (* the merged cycle, from x *)
    assert (Disj : forall v, In v lx -> In v ly -> False).
    { intros v I1 I2. apply Ix in I1. apply Iy in I2. apply NC.
      eapply connected_trans; [apply I1|]. apply connected_sym, I2. }
    assert (HC : forall a b la, walk (luf_link s) a la a -> NoDup la -> (forall v, In v la -> v = a \/ (v <> x /\ v <> y)) ->
       forall k, vget (luf_link s) a = Ok k -> vget link' b = Ok k ->
       walk link' b (b :: tl la) a).
    { intros a b la W ND Hv k Ek Ek'. inversion W as [u v F|u v l z F W' F2]; subst; rewrite Ek in F; injection F as <-; simpl.
      - now constructor.
      - econstructor; eauto. eapply walk_ext; eauto. intros v I.
        destruct (Hv v (or_intror I)) as [->|[? ?]]; [|now apply Go].
        inversion ND; subst; tauto. }
    assert (Wx' : walk link' y (y :: tl lx) x).
    { apply (HC x y lx Wx Nx) with kx; auto. intros v I. destruct (Z.eq_dec v x); auto. right; split; auto.
      intros ->. apply NC. apply Ix in I. tauto. }
    assert (Wy' : walk link' x (x :: tl ly) y).
    { apply (HC y x ly Wy Ny) with ky; auto. intros v I. destruct (Z.eq_dec v y); auto. right; split; auto.
      intros ->. apply NC. apply connected_sym. apply Iy in I. tauto. }
    pose proof (walk_app _ _ _ _ _ _ Wy' Wx') as WW.
    destruct (walk_head _ _ _ _ Wx) as (tx & ->). destruct (walk_head _ _ _ _ Wy) as (ty & ->). simpl tl in *.
    assert (PW : Permutation ((x :: ty) ++ y :: tx) ((x :: tx) ++ y :: ty)).
    { simpl. apply perm_skip. rewrite Permutation_app_comm. simpl. rewrite Permutation_middle. auto. }
    assert (NDW : NoDup ((x :: ty) ++ y :: tx)).
    { apply (Permutation_NoDup (Permutation_sym PW)). apply NoDup_app'; auto. }
    assert (IW : forall v, In v ((x :: ty) ++ y :: tx) <-> 0 <= v < n /\ (connected E x v \/ connected E y v)).
    { intro v. split.
      - intro I. apply (Permutation_in _ PW) in I. apply in_app_or in I. destruct I as [I|I].
        + apply Ix in I; tauto.
        + apply Iy in I; tauto.
      - intros [Hv [C|C]]; apply (Permutation_in _ (Permutation_sym PW)); apply in_or_app.
        + left; now apply Ix.
        + right; now apply Iy. }
    intros z Hz.
    destruct (in_dec Z.eq_dec z ((x :: ty) ++ y :: tx)) as [Iz|Nz].
    + destruct (walk_rotate _ _ _ _ WW NDW Iz) as (l' & Wz & Pz). exists l'. split; auto.
      split; [eapply Permutation_NoDup; eauto|]. intro v.
      rewrite connected_cons. apply IW in Iz. destruct Iz as [_ Iz].
      split.
      * intro I. apply (Permutation_in _ (Permutation_sym Pz)) in I. apply IW in I. destruct I as [Hv Cv]. split; auto.
        destruct Iz as [Iz|Iz], Cv as [Cv|Cv].
        -- left. eapply connected_trans; [apply connected_sym|]; eauto.
        -- right; left; split; auto. now apply connected_sym.
        -- right; right; split; auto. now apply connected_sym.
        -- left. eapply connected_trans; [apply connected_sym|]; eauto.
      * intros [Hv Cv]. apply (Permutation_in _ Pz). apply IW. split; auto.
        destruct Cv as [Cv|[[C1 C2]|[C1 C2]]]; auto.
        destruct Iz as [Iz|Iz]; [left|right]; eapply connected_trans; eauto.
    + destruct (Cy z Hz) as (l & W & ND & Il). exists l.
      assert (NZ : forall v, In v l -> v <> x /\ v <> y).
      { intros v I. apply Il in I. destruct I as [Hv C]. split; intros ->; apply Nz, IW; split; auto.
        - left; now apply connected_sym.
        - right; now apply connected_sym. }
      split; [eapply walk_ext; eauto; intros v I; destruct (NZ v I); now apply Go|]. split; auto.
      intro v. rewrite Il, connected_cons. split; [tauto|]. intros [Hv [C|[[C1 C2]|[C1 C2]]]]; auto; exfalso.
      * apply Nz, IW. split; auto. left; now apply connected_sym.
      * apply Nz, IW. split; auto. right; now apply connected_sym.
  - eexists false, _; split; [reflexivity|]. split; [|tauto].
    constructor; auto. simpl. intros z Hz. destruct (Cy z Hz) as (l & W & ND & Il). exists l. split; auto. split; auto.
    intro v. rewrite Il. assert (C : connected E x y).
    { destruct U as (Hn & R & I). rewrite (ui_conn _ _ _ _ I) by auto.
      destruct (Z.eq_dec (R x) (R y)); auto. exfalso.
      assert (false = true); [|discriminate]. apply A. rewrite (ui_conn _ _ _ _ I); auto. }
    now rewrite connected_ext_true.
Qed.

Lemma luf_component_ok n s E x : LInv n s E -> 0 <= x < n ->
  exists l, luf_component s x = Ok (x :: l) /\ NoDup (x :: l) /\
    (forall v, In v (x :: l) <-> 0 <= v < n /\ connected E x v).
Proof.
  intros [U L Cy] Hx. destruct (Cy x Hx) as (l & W & ND & Il).
  destruct (walk_head _ _ _ _ W) as (t & ->). exists t. split; auto.
  unfold luf_component.
  assert (Len : (length t < length (luf_link s))%nat).
  { assert (zlen (x :: t) <= Z.max 0 n). { apply NoDup_range_length; auto. intros v I. apply Il in I; tauto. }
    rewrite zlen_cons in H. unfold zlen in *. lia. }
  assert (G : forall t y acc f, (length t < f)%nat -> (t = [] /\ y = x \/ walk (luf_link s) y t x) -> ~ In x t ->
     loop f (fun '(y, comp) => if y =? x then Ok (inr comp)
       else let* y' := vget (luf_link s) y in Ok (inl (y', y :: comp))) (y, acc) = Ok (rev t ++ acc)).
  { clear. induction t as [|a t IH]; intros y acc f Hf Hw Nx; (destruct f as [|f]; [simpl in Hf; lia|]); cbn [loop].
    - destruct Hw as [[_ ->]|Hw]; [|inversion Hw]. rewrite Z.eqb_refl; auto.
    - destruct Hw as [[Hw _]|Hw]; [discriminate|].
      destruct (y =? x) eqn:C.
      { exfalso. destruct (walk_head _ _ _ _ Hw) as (t' & Ht). injection Ht as -> ->. apply Nx. left; lia. }
      inversion Hw as [u v F|u v l z F W' F2]; subst; rewrite F; cbn [bind].
      + rewrite IH; simpl in *; auto; lia.
      + rewrite IH; simpl in *; auto; try lia. simpl. now rewrite <- app_assoc. }
  assert (NX : ~ In x t) by (inversion ND; auto).
  inversion W as [u v F|u v l z F W' F2]; subst; rewrite F; cbn [bind].
  - rewrite (G [] x [x]); auto.
  - rewrite (G t v [x]); auto. cbn [bind]. rewrite rev_app_distr, rev_involutive. auto.
Qed.

Lemma luf_merges_ok n s E ops : LInv n s E -> Forall (fun '(x, y) => 0 <= x < n /\ 0 <= y < n) ops ->
  exists bs s', luf_merges s ops = Ok (bs, s') /\ LInv n s' (rev ops ++ E).
Proof.
  intros I F; revert s E I; induction F as [|(x, y) ops [Hx Hy] F IH]; intros s E I; cbn [luf_merges].
  - exists [], s; auto.
  - destruct (luf_merge_ok _ _ _ _ _ I Hx Hy) as (b & s1 & E1 & I1 & _). rewrite E1; cbn [bind].
    destruct (IH _ _ I1) as (bs & s2 & E2 & I2). rewrite E2; cbn [bind].
    eexists _, _; split; [reflexivity|]. simpl. rewrite <- app_assoc. auto.
Qed.
