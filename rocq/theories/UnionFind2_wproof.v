From Verif Require Import Base BaseLemmas UnionFind_model UnionFind_spec UnionFind_proof UnionFind2_model UnionFind2_spec UnionFind2_run UnionFind2_proof.
From Coq Require Import Relations.

Lemma filter_le {A} (f g : A -> bool) l : (forall x, In x l -> f x = true -> g x = true) ->
  (length (filter f l) <= length (filter g l))%nat.
Proof.
  induction l as [|a l IH]; intros H; auto; simpl.
  pose proof (H a (or_introl eq_refl)). specialize (IH (fun x I => H x (or_intror I))).
  destruct (f a), (g a); simpl; try lia; try discriminate (H0 eq_refl).
Qed.
Lemma filter_lt {A} (f g : A -> bool) l z : (forall x, In x l -> f x = true -> g x = true) ->
  In z l -> f z = false -> g z = true -> (length (filter f l) < length (filter g l))%nat.
Proof.
  induction l as [|a l IH]; intros H Hz Fz Gz; [destruct Hz|]; simpl.
  pose proof (filter_le f g l (fun x I => H x (or_intror I))).
  pose proof (H a (or_introl eq_refl)).
  destruct Hz as [->|Hz].
  - rewrite Fz, Gz. simpl. lia.
  - specialize (IH (fun x I => H x (or_intror I)) Hz Fz Gz).
    destruct (f a), (g a); simpl; try lia; try discriminate (H1 eq_refl).
Qed.
Lemma count_lt f g n z : (forall x, 0 <= x < n -> f x = true -> g x = true) ->
  0 <= z < n -> f z = false -> g z = true -> count f n < count g n.
Proof.
  intros H Hz Fz Gz. unfold count, zlen.
  assert (length (filter f (zrange n)) < length (filter g (zrange n)))%nat; [|lia].
  apply filter_lt with z; auto.
  - intros x I. apply H. now apply In_zrange.
  - now apply In_zrange.
Qed.
Lemma count_all n : 0 <= n -> count (fun _ => true) n = n.
Proof.
  intro H. unfold count. replace (filter _ (zrange n)) with (zrange n); [now apply zlen_zrange|].
  induction (zrange n); simpl; congruence.
Qed.
Lemma count_nonneg f n : 0 <= count f n.
Proof. apply zlen_nonneg. Qed.

Section W.
  Context {T : Type}.
  Variables (op : T -> T -> T) (e : T) (neg : T -> T).
  Hypothesis G : is_group op e neg.

  Lemma g_assoc a b c : op (op a b) c = op a (op b c). Proof. symmetry; apply G. Qed.
  Lemma g_el a : op e a = a. Proof. apply G. Qed.
  Lemma g_er a : op a e = a. Proof. apply G. Qed.
  Lemma g_nl a : op (neg a) a = e. Proof. apply G. Qed.
  Lemma g_nr a : op a (neg a) = e. Proof. apply G. Qed.
  Lemma g_nlc a b : op (neg a) (op a b) = b. Proof. now rewrite <- g_assoc, g_nl, g_el. Qed.
  Lemma g_nrc a b : op a (op (neg a) b) = b. Proof. now rewrite <- g_assoc, g_nr, g_el. Qed.
  Lemma g_cancel a b c : op a b = op a c -> b = c.
  Proof. intro H. rewrite <- (g_nlc a b), H. apply g_nlc. Qed.
  Lemma g_nn a : neg (neg a) = a.
  Proof. apply g_cancel with (neg a). now rewrite g_nr, g_nl. Qed.
  Lemma g_nop a b : neg (op a b) = op (neg b) (neg a).
  Proof. apply g_cancel with (op a b). rewrite g_nr, g_assoc, g_nrc, g_nr. auto. Qed.
  Lemma g_ne : neg e = e.
  Proof. apply g_cancel with e. now rewrite g_nr, g_el. Qed.
  Ltac grp := repeat first [rewrite g_nop | rewrite g_nn | rewrite g_ne | rewrite g_el | rewrite g_er
    | rewrite g_assoc | rewrite g_nlc | rewrite g_nrc | rewrite g_nl | rewrite g_nr ]; try reflexivity.

  (* the parent forest with its weights; R root, pot potential, dep depth *)
  Record FInv (n : Z) (par : list Z) (val : list T) (R : Z -> Z) (pot : Z -> T) (dep : Z -> Z) : Prop := {
    fi_n : 0 <= n;
    fi_par_len : zlen par = n;
    fi_val_len : zlen val = n;
    fi_R : forall x, 0 <= x < n -> 0 <= R x < n /\ R (R x) = R x;
    fi_par : forall x, 0 <= x < n -> exists p, vget par x = Ok p /\ 0 <= p < n /\ R p = R x /\
        (p = x <-> R x = x) /\ (p <> x -> dep p < dep x);
    fi_val : forall x p, 0 <= x < n -> vget par x = Ok p -> vget val x = Ok (op (neg (pot p)) (pot x))
  }.

  Definition wm (n : Z) (dep : Z -> Z) (x : Z) : Z := count (fun v => dep v <? dep x) n.
  Lemma wm_lt n dep p x : 0 <= p < n -> dep p < dep x -> wm n dep p < wm n dep x.
  Proof. intros Hp H. apply count_lt with p; auto; intros; lia. Qed.
  Lemma wm_bound n dep x : 0 <= x < n -> wm n dep x < n.
  Proof.
    intros H. rewrite <- (count_all n) at 2 by lia. apply count_lt with x; auto; intros; lia.
  Qed.

  Lemma halve_ok n par val R pot dep x : FInv n par val R pot dep -> 0 <= x < n -> R x <> x ->
    exists x' par' val', wuf_halve op par val x = Ok (x', par', val') /\
      FInv n par' val' R pot dep /\ 0 <= x' < n /\ R x' = R x /\ wm n dep x' < wm n dep x /\
      vget val' x = Ok (op (neg (pot x')) (pot x)).
  Proof.
    intros I Hx N. destruct (fi_par _ _ _ _ _ _ I x Hx) as (p & Ep & Hp & Rp & Rt & Dp).
    assert (px : p <> x) by tauto. specialize (Dp px).
    destruct (fi_par _ _ _ _ _ _ I p Hp) as (q & Eq & Hq & Rq & Rt' & Dq).
    pose proof (fi_par_len _ _ _ _ _ _ I) as Lp. pose proof (fi_val_len _ _ _ _ _ _ I) as Lv.
    unfold wuf_halve. rewrite Ep; cbn [bind].
    rewrite (fi_val _ _ _ _ _ _ I p q Hp Eq). cbn [bind].
    rewrite (fi_val _ _ _ _ _ _ I x p Hx Ep). cbn [bind].
    rewrite vset_ok by lia; cbn [bind]. rewrite Eq; cbn [bind]. rewrite vset_ok by lia; cbn [bind].
    eexists _, _, _; split; [reflexivity|].
    assert (Dqx : dep q < dep x). { destruct (Z.eq_dec q p) as [->|D]; [lia|]. specialize (Dq D). lia. }
    assert (Hval : op (op (neg (pot q)) (pot p)) (op (neg (pot p)) (pot x)) = op (neg (pot q)) (pot x)) by grp.
    split; [|split; [lia|split; [lia|split; [apply wm_lt; auto|]]]].
    - constructor.
      + apply I.
      + now rewrite zlen_zupd.
      + now rewrite zlen_zupd.
      + apply I.
      + intros z Hz. rewrite vget_zupd by lia. destruct (x =? z) eqn:Cz.
        * assert (x = z) by lia. subst z. exists q. split; auto. split; auto. split; [lia|]. split; [|intros; lia].
          split; intros; subst; [lia|lia].
        * apply I; auto.
      + intros z p' Hz. rewrite vget_zupd by lia. destruct (x =? z) eqn:Cz.
        * assert (x = z) by lia. subst z. intros H. injection H as <-. rewrite vget_zupd_same by lia.
          now rewrite Hval.
        * intros H. rewrite vget_zupd_diff by lia. apply I; auto.
    - rewrite vget_zupd_same by lia. now rewrite Hval.
  Qed.

  Lemma root_loop_ok n R pot dep : forall fuel par val x, FInv n par val R pot dep -> 0 <= x < n ->
    wm n dep x < Z.of_nat fuel ->
    exists par' val', wuf_root_loop op fuel par val x = Ok (R x, par', val') /\ FInv n par' val' R pot dep.
  Proof.
    induction fuel as [|k IH]; intros par val x I Hx Hf; [pose proof (count_nonneg (fun v => dep v <? dep x) n); unfold wm in *; lia|].
    cbn [wuf_root_loop]. destruct (fi_par _ _ _ _ _ _ I x Hx) as (p & Ep & Hp & Rp & Rt & Dp).
    rewrite Ep; cbn [bind]. destruct (p =? x) eqn:C.
    - replace (R x) with x by (symmetry; apply Rt; lia). eauto.
    - destruct (halve_ok _ _ _ _ _ _ x I Hx) as (x' & par' & val' & Eh & I' & Hx' & Rx' & Hw & _).
      { intro H. apply Rt in H. lia. }
      rewrite Eh; cbn [bind]. rewrite <- Rx'. apply IH; auto. lia.
  Qed.

  Lemma weight_loop_ok n R pot dep x0 : forall fuel par val x r, FInv n par val R pot dep -> 0 <= x < n ->
    wm n dep x < Z.of_nat fuel -> r = op (neg (pot x)) (pot x0) ->
    exists par' val', wuf_weight_loop op fuel par val x r = Ok (op (neg (pot (R x))) (pot x0), par', val') /\ FInv n par' val' R pot dep.
  Proof.
    induction fuel as [|k IH]; intros par val x r I Hx Hf Hr; [pose proof (count_nonneg (fun v => dep v <? dep x) n); unfold wm in *; lia|].
    cbn [wuf_weight_loop]. destruct (fi_par _ _ _ _ _ _ I x Hx) as (p & Ep & Hp & Rp & Rt & Dp).
    rewrite Ep; cbn [bind]. destruct (p =? x) eqn:C.
    - replace (R x) with x by (symmetry; apply Rt; lia). subst r. eauto.
    - destruct (halve_ok _ _ _ _ _ _ x I Hx) as (x' & par' & val' & Eh & I' & Hx' & Rx' & Hw & Ev).
      { intro H. apply Rt in H. lia. }
      rewrite Eh; cbn [bind]. rewrite Ev; cbn [bind]. rewrite <- Rx'. apply IH; auto; try lia.
      subst r. grp.
  Qed.

  (* full invariant *)
  Record WInv (n : Z) (s : wuf T) (R : Z -> Z) (pot : Z -> T) (A : list (Z * Z * T)) : Prop := {
    wi_n : w_n s = n;
    wi_f : exists dep, FInv n (w_par s) (w_val s) R pot dep;
    wi_siz_len : zlen (w_siz s) = n;
    wi_siz : forall x, 0 <= x < n -> vget (w_siz s) (R x) = Ok (count (fun v => R v =? R x) n);
    wi_conn : forall x y, 0 <= x < n -> 0 <= y < n -> (connected (edges A) x y <-> R x = R y);
    wi_A : forall x y d, In (x, y, d) A -> 0 <= x < n /\ 0 <= y < n /\ d = op (neg (pot x)) (pot y)
  }.

  Lemma WInv_R n s R pot A x : WInv n s R pot A -> 0 <= x < n -> 0 <= R x < n /\ R (R x) = R x.
  Proof. intros I Hx. destruct (wi_f _ _ _ _ _ I) as (dep & F). apply F; auto. Qed.

  Lemma wuf_root_ok n s R pot A x : WInv n s R pot A -> 0 <= x < n ->
    exists s', wuf_root op s x = Ok (R x, s') /\ WInv n s' R pot A.
  Proof.
    intros I Hx. unfold wuf_root. destruct (wi_f _ _ _ _ _ I) as (dep & F).
    destruct (root_loop_ok n R pot dep (S (length (w_par s))) _ _ x F Hx) as (par' & val' & Er & F').
    { pose proof (wm_bound n dep x Hx). pose proof (fi_par_len _ _ _ _ _ _ F). unfold zlen in *. lia. }
    rewrite Er; cbn [bind]. eexists; split; [reflexivity|]. destruct I. constructor; cbn; eauto.
  Qed.

  Lemma wuf_weight_ok n s R pot A x : WInv n s R pot A -> 0 <= x < n ->
    exists s', wuf_weight op e s x = Ok (op (neg (pot (R x))) (pot x), s') /\ WInv n s' R pot A.
  Proof.
    intros I Hx. unfold wuf_weight. destruct (wi_f _ _ _ _ _ I) as (dep & F).
    destruct (weight_loop_ok n R pot dep x (S (length (w_par s))) _ _ x e F Hx) as (par' & val' & Er & F').
    { pose proof (wm_bound n dep x Hx). pose proof (fi_par_len _ _ _ _ _ _ F). unfold zlen in *. lia. }
    { symmetry. apply g_nl. }
    rewrite Er; cbn [bind]. eexists; split; [reflexivity|]. destruct I. constructor; cbn; eauto.
  Qed.

  Lemma WInv_link n s R pot A x y rd u v d sx sy :
    WInv n s R pot A -> 0 <= x < n -> 0 <= y < n -> R x = x -> R y = y -> x <> y ->
    vget (w_siz s) x = Ok sx -> vget (w_siz s) y = Ok sy ->
    0 <= u < n -> 0 <= v < n ->
    ((R u = x /\ R v = y /\ d = op (op (neg (pot u)) (pot x)) (op rd (op (neg (pot y)) (pot v)))) \/
     (R u = y /\ R v = x /\ d = op (op (neg (pot u)) (pot y)) (op (neg rd) (op (neg (pot x)) (pot v))))) ->
    WInv n (mkWUF n (zupd (w_par s) y x) (zupd (w_siz s) x (sx + sy)) (zupd (w_val s) y rd))
      (fun z => if R z =? y then x else R z)
      (fun z => if R z =? y then op (pot x) (op rd (op (neg (pot y)) (pot z))) else pot z)
      ((u, v, d) :: A).
  Proof.
    intros I Hx Hy Rx Ry N Ex Ey Hu Hv Huv.
    destruct (wi_f _ _ _ _ _ I) as (dep & F).
    pose proof (fi_par_len _ _ _ _ _ _ F) as Lp. pose proof (fi_val_len _ _ _ _ _ _ F) as Lv.
    pose proof (wi_siz_len _ _ _ _ _ I) as Ls.
    constructor; cbn [w_n w_par w_siz w_val]; auto.
    - exists (fun z => if R z =? y then Z.max 0 (dep x - dep y + 1) + dep z else dep z).
      constructor; rewrite ?zlen_zupd; auto.
      + apply F.
      + intros z Hz. destruct (fi_R _ _ _ _ _ _ F z Hz) as [RR1 RR2].
        destruct (R z =? y) eqn:Cz.
        * split; auto. rewrite Rx. destruct (x =? y) eqn:?; lia.
        * split; auto. rewrite RR2, Cz. auto.
      + intros z Hz. destruct (fi_par _ _ _ _ _ _ F z Hz) as (p & Ep & Hp & Rp & Rt & Dp).
        rewrite vget_zupd by lia. destruct (y =? z) eqn:Cz.
        * assert (y = z) by lia; subst z. exists x. split; auto. split; auto. rewrite Rx, Ry.
          destruct (x =? y) eqn:?; [lia|]. rewrite Z.eqb_refl. split; auto. split; [lia|]. intros _. lia.
        * exists p. split; auto. split; auto. rewrite Rp. split; auto. split.
          -- destruct (R z =? y) eqn:Cr.
             ++ split; intros H; exfalso; [assert (R z = z) by tauto; lia|subst z; lia].
             ++ auto.
          -- intros Np. specialize (Dp Np). destruct (R z =? y); lia.
      + intros z p Hz. destruct (fi_par _ _ _ _ _ _ F z Hz) as (p0 & Ep & Hp & Rp & Rt & Dp).
        rewrite !vget_zupd by lia. destruct (y =? z) eqn:Cz.
        * assert (y = z) by lia; subst z. intros H; injection H as <-. rewrite Rx, Ry.
          destruct (x =? y) eqn:?; [lia|]. rewrite Z.eqb_refl. f_equal. grp.
        * intros H. rewrite Ep in H; injection H as <-.
          rewrite (fi_val _ _ _ _ _ _ F z p0 Hz Ep). rewrite Rp. f_equal.
          destruct (R z =? y); auto. grp.
    - now rewrite zlen_zupd.
    - pose proof (wi_siz _ _ _ _ _ I x Hx) as Sx. rewrite Rx, Ex in Sx. injection Sx as Sx.
      pose proof (wi_siz _ _ _ _ _ I y Hy) as Sy. rewrite Ry, Ey in Sy. injection Sy as Sy.
      intros z Hz.
      assert (Hm : count (fun w => (if R w =? y then x else R w) =? x) n = sx + sy).
      { rewrite (count_ext _ (fun w => (R w =? x) || (R w =? y))).
        2:{ intros w Hw. destruct (R w =? y) eqn:Cw; lia. }
        rewrite count_or by (intros; lia). lia. }
      destruct (R z =? y) eqn:Cz.
      + rewrite vget_zupd_same by lia. now rewrite Hm.
      + destruct (Z.eq_dec (R z) x) as [Cx|Cx].
        * rewrite Cx, vget_zupd_same by lia. now rewrite Hm.
        * rewrite vget_zupd_diff by lia. rewrite (wi_siz _ _ _ _ _ I z Hz). f_equal.
          apply count_ext. intros w Hw. destruct (R w =? y) eqn:Cw; lia.
    - intros a b Ha Hb. cbn [edges map]. fold (@edges T A). rewrite connected_cons.
      rewrite !(wi_conn _ _ _ _ _ I) by auto.
      destruct (R a =? y) eqn:Ca, (R b =? y) eqn:Cb; lia.
    - intros a b c [H|H].
      + injection H as <- <- <-. split; auto. split; auto.
        destruct Huv as [(H1 & H2 & ->)|(H1 & H2 & ->)]; rewrite H1, H2.
        * destruct (x =? y) eqn:?; [lia|]. rewrite Z.eqb_refl. grp.
        * destruct (x =? y) eqn:?; [lia|]. rewrite Z.eqb_refl. grp.
      + destruct (wi_A _ _ _ _ _ I a b c H) as (Ha & Hb & Hc). split; auto. split; auto.
        assert (R a = R b).
        { apply (wi_conn _ _ _ _ _ I); auto. apply rst_step. unfold edges. apply in_map_iff. exists (a, b, c); auto. }
        rewrite <- H0. rewrite Hc. destruct (R a =? y); auto. grp.
  Qed.

  Lemma dist_pot A pot : (forall x y d, In (x, y, d) A -> d = op (neg (pot x)) (pot y)) ->
    forall x y d, dist op e neg A x y d -> d = op (neg (pot x)) (pot y).
  Proof.
    intros H x y d. induction 1 as [x|x y d z d' I D IH|x y d z d' I D IH].
    - symmetry; apply g_nl.
    - rewrite (H _ _ _ I), IH. grp.
    - rewrite (H _ _ _ I), IH. grp.
  Qed.

  Lemma dist_trans A x y z d d' : dist op e neg A x y d -> dist op e neg A y z d' -> dist op e neg A x z (op d d').
  Proof.
    induction 1 as [x|x y d w d0 I D IH|x y d w d0 I D IH]; intros H.
    - now rewrite g_el.
    - rewrite g_assoc. eapply dist_fwd; eauto.
    - rewrite g_assoc. eapply dist_bwd; eauto.
  Qed.
  Lemma dist_sym A x y d : dist op e neg A x y d -> dist op e neg A y x (neg d).
  Proof.
    induction 1 as [x|x y d w d0 I D IH|x y d w d0 I D IH].
    - rewrite g_ne. constructor.
    - rewrite g_nop. eapply dist_trans; eauto. rewrite <- (g_er (neg d)). eapply dist_bwd; eauto. constructor.
    - rewrite g_nop, g_nn. eapply dist_trans; eauto. rewrite <- (g_er d). eapply dist_fwd; eauto. constructor.
  Qed.
  Lemma connected_dist A x y : connected (edges A) x y -> exists d, dist op e neg A x y d.
  Proof.
    induction 1 as [u v H|u|u v H IH|u v w H1 IH1 H2 IH2].
    - unfold edges in H. apply in_map_iff in H. destruct H as (((a, b), d) & E & I). injection E as -> ->.
      exists (op d e). eapply dist_fwd; eauto. constructor.
    - exists e. constructor.
    - destruct IH as (d & D). exists (neg d). now apply dist_sym.
    - destruct IH1 as (d1 & D1), IH2 as (d2 & D2). exists (op d1 d2). eapply dist_trans; eauto.
  Qed.

  Definition WOk n s A := exists R pot, WInv n s R pot A.

  Lemma wuf_step_ok n s A o : WOk n s A -> wop_ok n o ->
    (exists r s' A', wuf_step op e neg s o = Ok (r, s') /\ wstep op e neg n A o (Some r) A' /\ WOk n s' A') \/
    (wuf_step op e neg s o = Abort /\ wstep op e neg n A o None A).
  Proof.
    intros (R & pot & I) Ho. destruct o as [x y d|x y|x y|x]; cbn [wuf_step wop_ok] in *.
    - left. destruct Ho as [Hx Hy]. unfold wuf_merge.
      destruct (wuf_weight_ok _ _ _ _ _ _ I Hx) as (s1 & E1 & I1). rewrite E1; cbn [bind].
      destruct (wuf_weight_ok _ _ _ _ _ _ I1 Hy) as (s2 & E2 & I2). rewrite E2; cbn [bind].
      destruct (wuf_root_ok _ _ _ _ _ _ I2 Hx) as (s3 & E3 & I3). rewrite E3; cbn [bind].
      destruct (wuf_root_ok _ _ _ _ _ _ I3 Hy) as (s4 & E4 & I4). rewrite E4; cbn [bind].
      destruct (R x =? R y) eqn:C.
      + eexists _, _, _; split; [reflexivity|]. split; [|exists R, pot; eauto].
        apply ws_merge_old. apply (wi_conn _ _ _ _ _ I); auto; lia.
      + destruct (WInv_R _ _ _ _ _ _ I4 Hx) as [Rx RRx]. destruct (WInv_R _ _ _ _ _ _ I4 Hy) as [Ry RRy].
        assert (NC : ~ connected (edges A) x y) by (rewrite (wi_conn _ _ _ _ _ I) by auto; lia).
        destruct (wi_f _ _ _ _ _ I4) as (dep & F).
        pose proof (fi_par_len _ _ _ _ _ _ F) as Lp. pose proof (fi_val_len _ _ _ _ _ _ F) as Lv.
        pose proof (wi_siz_len _ _ _ _ _ I4) as Ls. pose proof (wi_n _ _ _ _ _ I4) as Ln.
        destruct (vget_Ok (w_siz s4) (R x)) as (sx & Ex); [lia|].
        destruct (vget_Ok (w_siz s4) (R y)) as (sy & Ey); [lia|].
        rewrite Ex, Ey; cbn [bind].
        destruct (sx <? sy) eqn:Cs; rewrite Ex, Ey; cbn [bind];
          rewrite !vset_ok by lia; cbn [bind]; rewrite Ln;
          (eexists _, _, _; split; [reflexivity|]; split; [apply ws_merge_new; auto|]).
        * eexists _, _. eapply WInv_link; eauto; try lia.
          right. split; auto. split; auto. grp.
        * eexists _, _. eapply WInv_link; eauto; try lia.
          left. split; auto. split; auto. grp.
    - left. destruct Ho as [Hx Hy]. unfold wuf_same.
      destruct (wuf_root_ok _ _ _ _ _ _ I Hx) as (s3 & E3 & I3). rewrite E3; cbn [bind].
      destruct (wuf_root_ok _ _ _ _ _ _ I3 Hy) as (s4 & E4 & I4). rewrite E4; cbn [bind].
      eexists _, _, _; split; [reflexivity|]. split; [|exists R, pot; eauto].
      constructor. rewrite (wi_conn _ _ _ _ _ I) by auto. lia.
    - destruct Ho as [Hx Hy]. unfold wuf_diff, wuf_same.
      destruct (wuf_root_ok _ _ _ _ _ _ I Hx) as (s3 & E3 & I3). rewrite E3; cbn [bind].
      destruct (wuf_root_ok _ _ _ _ _ _ I3 Hy) as (s4 & E4 & I4). rewrite E4; cbn [bind].
      destruct (R x =? R y) eqn:C; cbn [assert_ bind].
      + left.
        destruct (wuf_weight_ok _ _ _ _ _ _ I4 Hx) as (s1 & E1 & I1). rewrite E1; cbn [bind].
        destruct (wuf_weight_ok _ _ _ _ _ _ I1 Hy) as (s2 & E2 & I2). rewrite E2; cbn [bind].
        eexists _, _, A; split; [reflexivity|]. split; [|exists R, pot; eauto].
        assert (Cn : connected (edges A) x y) by (rewrite (wi_conn _ _ _ _ _ I) by auto; lia).
        destruct (connected_dist A x y Cn) as (d & D).
        assert (HA : forall x y d, In (x, y, d) A -> d = op (neg (pot x)) (pot y)) by (intros; eapply (wi_A _ _ _ _ _ I); eauto).
        pose proof (dist_pot A pot HA _ _ _ D) as Ed.
        replace (op (neg (op (neg (pot (R x))) (pot x))) (op (neg (pot (R y))) (pot y))) with d.
        2:{ rewrite Ed. replace (R y) with (R x) by lia. grp. }
        constructor; auto. intros d' D'. rewrite (dist_pot A pot HA _ _ _ D'). auto.
      + right. split; auto. constructor. rewrite (wi_conn _ _ _ _ _ I) by auto. lia.
    - left. unfold wuf_size.
      destruct (wuf_root_ok _ _ _ _ _ _ I Ho) as (s3 & E3 & I3). rewrite E3; cbn [bind].
      rewrite (wi_siz _ _ _ _ _ I3 x Ho). cbn [bind].
      eexists _, _, _; split; [reflexivity|]. split; [|exists R, pot; eauto].
      constructor. apply counts_count. intros v Hv. rewrite (wi_conn _ _ _ _ _ I) by auto. lia.
  Qed.

  Lemma wuf_run_ok n s A ops : WOk n s A -> Forall (wop_ok n) ops ->
    exists rs a, wuf_run op e neg s ops = Ok (rs, a) /\ wruns op e neg n A ops rs a.
  Proof.
    intros I Fo; revert s A I; induction Fo as [|o ops Ho Fo IH]; intros s A I; cbn [wuf_run].
    - eexists _, _; split; [reflexivity|constructor].
    - destruct (wuf_step_ok _ _ _ _ I Ho) as [(r & s' & A' & E & S & I')|[E S]]; rewrite E.
      + destruct (IH _ _ I') as (rs & a & Er & Rr). rewrite Er; cbn [bind].
        eexists _, _; split; [reflexivity|]. econstructor; eauto.
      + eexists _, _; split; [reflexivity|]. econstructor; eauto.
  Qed.

  Lemma wuf_init_ok n : 0 <= n -> WOk n (wuf_init e n) [].
  Proof.
    intros H. exists (fun x => x), (fun _ => e). constructor; cbn [w_n w_par w_siz w_val wuf_init]; auto.
    - exists (fun _ => 0). constructor; auto.
      + now apply zlen_zrange.
      + now apply zlen_vrep.
      + intros x Hx. rewrite vget_zrange by auto. exists x. repeat split; auto; lia.
      + intros x p Hx _. rewrite vget_vrep by auto. now rewrite g_nl.
    - now apply zlen_vrep.
    - intros x Hx. rewrite vget_vrep by auto. f_equal.
      pose proof (ui_size _ _ _ _ (UInv_init n H) x Hx) as S. rewrite vget_vrep in S by auto.
      injection S as S. lia.
    - intros x y Hx Hy. apply connected_nil.
    - intros x y d [].
  Qed.
End W.
