(* PersistentArray: histories *)
From Verif Require Import Base BaseLemmas ListZ Hist PArray_model PArray_spec Heap_spec PArray_proof.

Lemma answers_run_if {S A O R} (ok : O -> Prop) (step : S -> O -> res (R * S)) (spec : A -> O -> res (R * A) -> Prop) (Inv : S -> A -> Prop) :
  (forall s a o, ok o -> Inv s a ->
    match step s o with
    | Ok (r, s') => exists a', spec a o (Ok (r, a')) /\ Inv s' a'
    | Abort => spec a o Abort
    | UB => spec a o UB
    | OutOfFuel => False
    end) ->
  forall ops s a, Forall ok ops -> Inv s a -> answers spec a ops (run step s ops).
Proof.
  intro H. induction ops as [|o ops IH]; intros s a F I; cbn [run]; [constructor|]. inversion F; subst.
  specialize (H s a o ltac:(auto) I). destruct (step s o) as [(r, s')| | |].
  - destruct H as (a' & Hs & I'). specialize (IH s' a' ltac:(auto) I'). destruct (run step s' ops) as (rs, f). econstructor; eauto.
  - now constructor.
  - now constructor.
  - destruct H.
Qed.
Lemma vnull {A} (v : list A) : vget v (-1) = UB.
Proof. apply vget_UB. lia. Qed.
Lemma Forall2_imp {A B} (R S : A -> B -> Prop) l m : (forall x y, R x y -> S x y) -> Forall2 R l m -> Forall2 S l m.
Proof. intro H. induction 1; auto. Qed.
Lemma Forall2_len {A B} (R : A -> B -> Prop) l m : Forall2 R l m -> length l = length m.
Proof. induction 1; cbn; auto. Qed.
Lemma Forall2_zlen {A B} (R : A -> B -> Prop) l m : Forall2 R l m -> zlen l = zlen m.
Proof. intro F. unfold zlen. now rewrite (Forall2_len _ _ _ F). Qed.
Lemma Forall2_vget {A B} (R : A -> B -> Prop) l m : Forall2 R l m -> forall i, (exists x y, vget l i = Ok x /\ vget m i = Ok y /\ R x y) \/ (vget l i = UB /\ vget m i = UB).
Proof.
  intros F i. pose proof (Forall2_zlen _ _ _ F) as Z. destruct (vget_cases l i) as [(x & E)|E].
  - left. pose proof (vget_range _ _ _ E). destruct (vget_Ok m i ltac:(lia)) as (y & E'). exists x, y. split; auto. split; auto.
    apply vget_nth_error in E, E'. revert E E'. generalize (Z.to_nat i) as k. clear - F. induction F as [|a b l m Rab F IH]; intros [|k] E E'; cbn in *; try discriminate.
    + congruence.
    + eauto.
  - right. split; auto. apply vget_UB. intro R'. destruct (vget_Ok l i ltac:(lia)) as (x & E'). congruence.
Qed.
Lemma vget_zupd_any {A} (v : list A) i j a : 0 <= i -> vget (zupd v i a) j = if (j =? i) && (i <? zlen v) then Ok a else vget v j.
Proof.
  intro H. destruct (Z.eqb_spec j i) as [->|N]; cbn [andb].
  - destruct (Z.ltb_spec i (zlen v)); [rewrite vget_zupd_same by lia; auto|]. rewrite !vget_UB; auto; rewrite ?zlen_zupd; lia.
  - apply vget_zupd_diff; auto.
Qed.

Section H.
  Context {T : Type}.
  Variable lg : Z.
  Variable dflt : T.
  Hypothesis Hlg : 0 <= lg.
  Notation nv := (@node_val T lg).
  Notation ng := (@node_get T lg).
  Definition vers (m : list (pnode T)) (L K : Z -> Z) (v : parray) (A : list T) : Prop :=
    pa_n v = zlen A /\ ptr m (pa_root v) /\ (pa_root v <> -1 -> L (pa_root v) = 0 /\ K (pa_root v) = 0) /\ forall j, 0 <= j -> nv m (pa_root v) j = vget A j.
  Definition pinv (s : list (pnode T) * list parray) (a : list (list T)) : Prop :=
    exists L K, wf lg (fst s) L K /\ Forall2 (vers (fst s) L K) (snd s) a.
  Lemma vers_ext m L K m' L' K' v A : wf lg m L K -> zlen m <= zlen m' -> (forall i, 0 <= i < zlen m -> vget m' i = vget m i) -> (forall i, 0 <= i < zlen m -> L' i = L i /\ K' i = K i) ->
    vers m L K v A -> vers m' L' K' v A.
  Proof.
    intros W Z F E (H1 & H2 & H3 & H4). split; auto. split; [destruct H2; [now left|right; lia]|]. split.
    - intro N. destruct H2 as [|H2]; [lia|]. destruct (E _ H2) as (-> & ->). auto.
    - intros j Hj. rewrite <- H4 by auto. eapply (frame lg Hlg); eauto.
  Qed.
  Lemma vget_Ok_UB {A} (l : list A) j : vget l j = UB -> 0 <= j -> zlen l <= j.
  Proof. intros E H. destruct (Z.le_gt_cases (zlen l) j); auto. destruct (vget_Ok l j ltac:(lia)) as (x & E'). congruence. Qed.
  Lemma list_ext_upd (A : list T) i x (f : Z -> res T) : 0 <= i < zlen A -> (forall j, 0 <= j -> f j = if j =? i then Ok x else vget A j) -> forall j, 0 <= j -> f j = vget (zupd A i x) j.
  Proof. intros H F j Hj. rewrite F by auto. rewrite vget_zupd by auto. rewrite (Z.eqb_sym i j). reflexivity. Qed.

  Lemma mut_each m L K c nd i x v A : wf lg m L K -> vget m c = Ok nd -> L c = i -> 0 <= i -> vers m L K v A ->
    exists A', vers (zupd m c (PN (pch nd) x)) L K v A' /\ (A' = A \/ A' = zupd A i x) /\ (ng m (pa_root v) i = Ok c -> A' = zupd A i x).
  Proof.
    intros W E Lc Hi (H1 & H2 & H3 & H4). destruct (set_val_ok lg Hlg m L K c nd x W E) as (_ & _ & V). pose proof (vget_range _ _ _ E) as Rc.
    assert (P : ptr (zupd m c (PN (pch nd) x)) (pa_root v)) by (unfold ptr; rewrite zlen_zupd; auto).
    assert (O : forall j, 0 <= j -> j <> i -> nv (zupd m c (PN (pch nd) x)) (pa_root v) j = vget A j).
    { intros j Hj N. rewrite V by auto. rewrite H4 by auto. destruct (ng m (pa_root v) j) as [c'| | |] eqn:Eg; auto. destruct (Z.eqb_spec c' c) as [->|]; auto.
      exfalso. destruct (label lg Hlg m L K W j Hj _ _ H2 Eg) as [|(_ & Hr & Lj)]; [lia|]. destruct (H3 ltac:(lia)) as (L0 & K0). rewrite L0, K0, Z.pow_0_r in Lj. lia. }
    destruct (vget_cases A i) as [(y & Ey)|Ey].
    - destruct (nv_cases lg Hlg m L K (pa_root v) i W Hi H2) as [Q|(c' & nd' & Eg & Ec' & Ev)]; [rewrite H4 in Q by auto; congruence|].
      pose proof (vget_range _ _ _ Ey) as Ry. destruct (Z.eq_dec c' c) as [->|N].
      + exists (zupd A i x). split; [|auto]. split; [now rewrite zlen_zupd|]. split; auto. split; auto.
        apply list_ext_upd; auto. intros j Hj. destruct (Z.eqb_spec j i) as [->|]; auto. rewrite V by auto. now rewrite Eg, Z.eqb_refl.
      + exists A. split; [|split; [auto|congruence]]. split; auto. split; auto. split; auto. intros j Hj. destruct (Z.eq_dec j i) as [->|]; auto.
        rewrite V by auto. rewrite Eg. destruct (Z.eqb_spec c' c); [congruence|]. now apply H4.
    - pose proof (vget_Ok_UB _ _ Ey Hi) as Li.
      exists A. assert (Eu : zupd A i x = A). { apply list_eq; [now rewrite zlen_zupd|]. intros j Hj. rewrite zlen_zupd in Hj. rewrite vget_zupd_diff; auto; lia. }
      split; [|split; [auto|now rewrite Eu]]. split; auto. split; auto. split; auto. intros j Hj. destruct (Z.eq_dec j i) as [->|]; auto.
      rewrite V by auto. destruct (ng m (pa_root v) i) as [c'| | |] eqn:Eg; try now apply H4. destruct (Z.eqb_spec c' c) as [->|]; [|now apply H4].
      exfalso. pose proof (H4 i Hi) as Q. unfold node_val in Q. rewrite Eg in Q. cbn [bind] in Q. rewrite E in Q. cbn [bind] in Q. congruence.
  Qed.
  Lemma mut_all m L K c nd i x vs a : wf lg m L K -> vget m c = Ok nd -> L c = i -> 0 <= i -> Forall2 (vers m L K) vs a ->
    exists a', Forall2 (vers (zupd m c (PN (pch nd) x)) L K) vs a' /\ zlen a' = zlen a /\
      (forall w B, vget a w = Ok B -> vget a' w = Ok B \/ vget a' w = Ok (zupd B i x)) /\
      (forall w v B, vget vs w = Ok v -> vget a w = Ok B -> ng m (pa_root v) i = Ok c -> vget a' w = Ok (zupd B i x)).
  Proof.
    intros W E Lc Hi F.
    assert (X : exists a', Forall2 (vers (zupd m c (PN (pch nd) x)) L K) vs a' /\ Forall2 (fun A A' => A' = A \/ A' = zupd A i x) a a' /\
      Forall2 (fun v AA => ng m (pa_root v) i = Ok c -> snd AA = zupd (fst AA) i x) vs (combine a a')).
    { induction F as [|v A vs a V F IH]; [exists []; cbn; auto|]. destruct IH as (a' & F1 & F2 & F3).
      destruct (mut_each m L K c nd i x v A W E Lc Hi V) as (A' & V' & O & M). exists (A' :: a'). cbn [combine]. auto. }
    destruct X as (a' & F1 & F2 & F3). exists a'. split; auto. split; [symmetry; eapply Forall2_zlen; eauto|]. split.
    - intros w B Eb. destruct (Forall2_vget _ _ _ F2 w) as [(A & A' & E1 & E2 & O)|(E1 & _)]; [|congruence]. assert (A = B) by congruence. subst A.
      destruct O as [->| ->]; auto.
    - intros w v B Ev Eb G. destruct (Forall2_vget _ _ _ F3 w) as [(v' & (A, A') & E1 & E2 & O)|(E1 & _)]; [|congruence]. assert (v' = v) by congruence. subst v'. cbn [fst snd] in O.
      assert (Q : vget a w = Ok A /\ vget a' w = Ok A').
      { clear - E2 F2. apply vget_split in E2. destruct E2 as (p & q & Ec & <-). assert (La : length a = length a') by (eapply Forall2_len; eauto).
        assert (Ea : a = map fst (combine a a') /\ a' = map snd (combine a a')).
        { clear - La. revert a' La. induction a as [|u a IH]; intros [|u' a'] La; cbn in *; try discriminate; auto. destruct (IH a' ltac:(lia)) as (E1 & E2). split; f_equal; auto. }
        rewrite Ec, !map_app in Ea. cbn [map fst snd] in Ea. destruct Ea as (-> & ->). split; apply vget_mid; unfold zlen; now rewrite map_length. }
      destruct Q as (Q1 & Q2). rewrite Q2. f_equal. rewrite O by auto. congruence.
  Qed.

  Lemma pa_sim s a o : pa_call o -> pinv s a ->
    match pa_step lg dflt s o with
    | Ok (r, s') => exists a', pa_spec a o (Ok (r, a')) /\ pinv s' a'
    | Abort => pa_spec a o Abort
    | UB => pa_spec a o UB
    | OutOfFuel => False
    end.
  Proof.
    intros Hc (L & K & W & F). destruct s as (m, vs). cbn [fst snd] in *. destruct o as [init|v i|v i x|v i x|v|v|v]; cbn [pa_step pa_call] in *; try tauto.
    - destruct (build_ok lg Hlg init m L K W) as (m' & r & L' & K' & E & W' & Z & G & A & P & LK & V). rewrite E. cbn [bind].
      exists (a ++ [init]). split; [reflexivity|]. exists L', K'. cbn [fst snd]. split; auto. apply Forall2_app.
      + eapply Forall2_imp; [|exact F]. intros v A0 HV. apply (vers_ext m L K m' L' K' v A0 W Z G); auto. intros i Hi. apply A. lia.
      + constructor; auto. split; auto.
    - destruct (Forall2_vget _ _ _ F v) as [(pa & A & E1 & E2 & (H1 & H2 & H3 & H4))|(E1 & E2)]; rewrite E1; cbn [bind].
      + rewrite H4 by auto. destruct (vget_cases A i) as [(x & Ex)|Ex]; rewrite Ex; cbn [bind].
        * exists a. split; [exists A; auto|]. exists L, K. auto.
        * intros A' EA. assert (A' = A) by congruence. subst A'. now apply vget_Ok_UB.
      + intros A EA. congruence.
    - destruct (Forall2_vget _ _ _ F v) as [(pa & A & E1 & E2 & (H1 & H2 & H3 & H4))|(E1 & E2)]; rewrite E1; cbn [bind].
      + destruct (set_ok lg Hlg m L K (pa_root pa) i x W Hc H2 H3) as [(O & V)|(m' & r & L' & K' & O & NU & W' & Z & G & LK & Hr & L0 & K0 & V)]; rewrite O; cbn [bind].
        * intros A' EA. assert (A' = A) by congruence. subst A'. rewrite H4 in V by auto. now apply vget_Ok_UB.
        * rewrite H4 in NU by auto. assert (Hi : 0 <= i < zlen A). { destruct (vget_cases A i) as [(y & Ey)|Ey]; [eapply vget_range; eauto|congruence]. }
          exists (a ++ [zupd A i x]). split; [exists A; auto|]. exists L', K'. cbn [fst snd]. split; auto. apply Forall2_app.
          -- eapply Forall2_imp; [|exact F]. intros v' A0 HV. apply (vers_ext m L K m' L' K' v' A0 W Z G); auto.
          -- constructor; auto. split; [cbn; now rewrite zlen_zupd|]. split; [right; auto|]. split; auto. cbn [pa_root]. apply list_ext_upd; auto.
             intros j Hj. rewrite V by auto. destruct (j =? i); auto.
      + intros A EA. congruence.
    - destruct (Forall2_vget _ _ _ F v) as [(pa & A & E1 & E2 & (H1 & H2 & H3 & H4))|(E1 & E2)]; rewrite E1; cbn [bind].
      + unfold node_mut_set. pose proof (H4 i Hc) as V. unfold node_val in V.
        destruct (nv_cases lg Hlg m L K (pa_root pa) i W Hc H2) as [Q|(c & nd & Eg & Ec & Ev)].
        * rewrite H4 in Q by auto. rewrite Q in V. 
          assert (X : (let* p := ng m (pa_root pa) i in let* nd := vget m p in let* m0 := set_val m p x in Ok (pval nd, m0)) = UB).
          { destruct (ng m (pa_root pa) i) as [p| | |]; try discriminate V; auto. cbn [bind] in *. destruct (vget m p); try discriminate V; auto. }
          rewrite X. cbn [bind]. intros A' EA. assert (A' = A) by congruence. subst A'. now apply vget_Ok_UB.
        * rewrite Eg. cbn [bind]. rewrite Ec. cbn [bind]. destruct (set_val_ok lg Hlg m L K c nd x W Ec) as (Es & _ & _). rewrite Es. cbn [bind].
          assert (Lc : L c = i). { pose proof (vget_range _ _ _ Ec). destruct (label lg Hlg m L K W i Hc _ _ H2 Eg) as [|(_ & Hr & Lj)]; [lia|]. destruct (H3 ltac:(lia)) as (L0 & K0). rewrite L0, K0, Z.pow_0_r in Lj. lia. }
          destruct (mut_all m L K c nd i x vs a W Ec Lc Hc F) as (a' & F' & Z & O & M). exists a'. split.
          -- exists A. split; auto. split; [rewrite <- H4 by auto; exact Ev|]. split; [eapply M; eauto|]. split; auto.
          -- exists L, K. cbn [fst snd]. split; auto. now apply wf_val.
      + intros A EA. congruence.
    - destruct (Forall2_vget _ _ _ F v) as [(pa & A & E1 & E2 & (H1 & H2 & H3 & H4))|(E1 & E2)]; rewrite E1; cbn [bind]; [|exact E2].
      destruct (Z.eqb_spec (pa_root pa) (-1)) as [Q|Q].
      + exists (a ++ [A]). split; [exists A; auto|]. exists L, K. cbn [fst snd]. split; auto. apply Forall2_app; auto. constructor; auto. split; auto.
      + unfold clone. destruct H2 as [|Hr]; [lia|]. destruct (vget_Ok m _ Hr) as (nd & En). rewrite En. cbn [bind]. destruct (H3 Q) as (L0 & K0).
        destruct (W _ _ En) as (Bn & _ & C).
        exists (a ++ [A]). split; [exists A; auto|]. exists (fun i => if i =? zlen m then 0 else L i), (fun i => if i =? zlen m then 0 else K i). cbn [fst snd].
        split. { apply wf_app; auto; [lia|]. intros d q Eq. destruct (C d q Eq) as [|(Hq & Lq & Kq)]; [now left|right]. rewrite Lq, Kq, L0, K0. auto. }
        apply Forall2_app.
        * eapply Forall2_imp; [|exact F]. intros v' A0 HV. apply (vers_ext m L K _ _ _ v' A0 W); [rewrite zlen_app, zlen_one; lia|intros i Hi; now rewrite vget_app1 by lia| |auto].
          intros i Hi. cbv beta. destruct (Z.eqb_spec i (zlen m)); [lia|auto].
        * constructor; auto. split; auto. cbn [pa_root]. split; [right; rewrite zlen_app, zlen_one; pose proof (zlen_nonneg m); lia|]. rewrite Z.eqb_refl. split; auto.
          intros j Hj. rewrite <- H4 by auto.
          apply (sim_val lg Hlg (m ++ [nd]) m (fun x y => (x = y /\ ptr m x) \/ (x = zlen m /\ y = pa_root pa))); auto.
          intros u w [(<- & [->|Hu])|(-> & ->)]; [left; split; apply vnull| |].
          -- right. destruct (vget_Ok m u Hu) as (nu & Eu). destruct (W u nu Eu) as (Bu & _ & Cu). exists nu, nu. rewrite vget_app1 by lia.
             split; auto. split; auto. split; auto. split; auto. split; auto. intros d qx qy X1 X2. left. split; [congruence|]. destruct (Cu d qx X1) as [|(Hq & _)]; [now left|now right].
          -- right. exists nd, nd. rewrite vget_mid by auto.
             split; auto. split; auto. split; auto. split; auto. split; auto. intros d qx qy X1 X2. left. split; [congruence|]. destruct (C d qx X1) as [|(Hq & _)]; [now left|now right].
    - destruct (Forall2_vget _ _ _ F v) as [(pa & A & E1 & E2 & (H1 & H2 & H3 & H4))|(E1 & E2)]; rewrite E1; cbn [bind]; [|exact E2].
      exists a. split; [exists A; auto|]. exists L, K. auto.
  Qed.
  Lemma pa_history ops : Forall pa_call ops -> answers pa_spec [] ops (run (pa_step lg dflt) ([], []) ops).
  Proof.
    intro F. eapply (answers_run_if pa_call) with (Inv := pinv); [exact pa_sim|auto|]. exists (fun _ => 0), (fun _ => 0). split; [|constructor].
    intros i nd E. apply vget_range in E. change (zlen (fst ([] : list (pnode T), [] : list parray))) with 0 in E. lia.
  Qed.
End H.

Lemma dump_pair {T} (dflt x y : T) : x <> y ->
  exists l, run (pa_step 4 dflt) ([], []) [PBuild [x; y]; PGet 0 1; PDump 0] = ([PUnit; PVal y; PList l], Ok tt) /\ l <> [x; y].
Proof.
  intros N. eexists. split; [vm_compute; reflexivity|]. intros E. injection E. exact N.
Qed.
