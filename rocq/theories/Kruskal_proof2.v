(* The loop of build() and histories. *)
From Coq Require Import Permutation Sorted Relations.
From Verif Require Import Base BaseLemmas ListZ UnionFind_spec UnionFind_proof Heap_spec Heap_proof PArray_proof2 Hist Kruskal_model Kruskal_spec Kruskal_proof.

Definition key (mx : bool) (e : edge) : Z := if mx then - e_c e else e_c e.
Definition below (mx : bool) (w : Z) (es : list edge) : list edge := filter (fun e => key mx e <=? w) es.
Definition covers (mx : bool) (K E : list edge) : Prop := forall w x y, connected (ends (below mx w E)) x y -> connected (ends (below mx w K)) x y.

Lemma before_key mx a b : before mx a b <-> key mx a <= key mx b.
Proof. unfold before, key. destruct mx; lia. Qed.
Lemma below_in mx w es e : In e (below mx w es) <-> In e es /\ key mx e <= w.
Proof. unfold below. rewrite filter_In, Z.leb_le. tauto. Qed.
Lemma below_all mx w es : (forall e, In e es -> key mx e <= w) -> below mx w es = es.
Proof. intro H. apply filter_all. intros e I. apply Z.leb_le. auto. Qed.
Lemma key_bound mx es : exists w, forall e, In e es -> key mx e <= w.
Proof.
  induction es as [|e es (w & H)]; [exists 0; cbn; tauto|]. exists (Z.max w (key mx e)). intros f [<-|I]; [lia|]. specialize (H f I). lia.
Qed.
Lemma sum_keys mx t : sumz (map (key mx) t) = if mx then - total t else total t.
Proof. unfold sumz, total, key. induction t as [|e t IH]; cbn [map fold_right]; destruct mx; lia. Qed.
Lemma upto_keys mx w t : upto w (map (key mx) t) = zlen (below mx w t).
Proof.
  unfold upto, below. induction t as [|e t IH]; cbn [map filter]; [auto|]. destruct (key mx e <=? w); rewrite ?zlen_cons; lia.
Qed.
Lemma filter_split {A} (f : A -> bool) l : Permutation (filter f l ++ filter (fun x => negb (f x)) l) l.
Proof.
  induction l as [|x l IH]; cbn [filter]; [constructor|]. destruct (f x); cbn [negb app].
  - now constructor.
  - symmetry. eapply Permutation_trans; [|apply Permutation_middle]. constructor. now symmetry.
Qed.
Lemma covers_refl mx E : covers mx E E. Proof. intros w x y H. exact H. Qed.
Lemma covers_trans mx A B C : covers mx A B -> covers mx B C -> covers mx A C.
Proof. intros H G w x y I. apply H, G, I. Qed.
Lemma covers_incl mx A B : (forall e, In e B -> In e A) -> covers mx A B.
Proof. intros H w x y. apply conn_incl. intros e. rewrite !below_in. intros (I & J). auto. Qed.
Lemma covers_add mx K E X : covers mx K E -> covers mx (K ++ X) (E ++ X).
Proof.
  intros H w x y. apply conn_sub. intros e. rewrite below_in, in_app_iff. intros ([I|I] & L).
  - assert (C : connected (ends (below mx w K)) (e_u e) (e_v e)) by (apply H, conn_in; rewrite below_in; auto).
    revert C. apply conn_incl. intro f. rewrite !below_in, in_app_iff. tauto.
  - apply conn_in. rewrite below_in, in_app_iff. auto.
Qed.
Lemma covers_conn mx K E x y : covers mx K E -> connected (ends E) x y -> connected (ends K) x y.
Proof.
  intros H C. destruct (key_bound mx E) as (w & B). rewrite <- (below_all mx w E B) in C. apply H in C.
  revert C. apply conn_incl. intro e. rewrite below_in. tauto.
Qed.
Lemma covers_before mx K pre e : covers mx K pre -> Forall (fun f => before mx f e) pre -> connected (ends pre) (e_u e) (e_v e) ->
  covers mx K (pre ++ [e]).
Proof.
  intros H B C w x y. apply conn_sub. intros f. rewrite below_in, in_app_iff. intros ([I|[<-|[]]] & L).
  - apply H, conn_in. rewrite below_in. auto.
  - apply H. rewrite below_all; [auto|]. intros g I. rewrite Forall_forall in B. specialize (B g I). apply before_key in B. lia.
Qed.

Section N.
  Variable mx : bool.
  Variable n : Z.
  Hypothesis Hn : 0 <= n.
  Definition part (K E : list edge) : Prop := exists R, Permutation (K ++ R) E.
  Lemma part_inside K E : inside n E -> part K E -> inside n K.
  Proof. intros I (R & P). apply (Permutation_Forall (Permutation_sym P)) in I. apply Forall_app in I. tauto. Qed.
  Lemma part_in K E e : part K E -> In e K -> In e E.
  Proof. intros (R & P) I. apply (Permutation_in _ P). rewrite in_app_iff. auto. Qed.
  Lemma part_trans A B C : part A B -> part B C -> part A C.
  Proof.
    intros (R & P) (Q & G). exists (R ++ Q). rewrite app_assoc. eapply Permutation_trans; [|exact G]. now apply Permutation_app_tail.
  Qed.
  Lemma part_app A B X : part A B -> part (A ++ X) (B ++ X).
  Proof.
    intros (R & P). exists R. rewrite <- app_assoc. eapply Permutation_trans; [apply Permutation_app_head, Permutation_app_comm|].
    rewrite app_assoc. now apply Permutation_app_tail.
  Qed.
  Lemma inside_below w E : inside n E -> inside n (below mx w E).
  Proof. unfold inside. rewrite !Forall_forall. intros H e I. apply below_in in I. apply H. tauto. Qed.

  Lemma optimal_of E K : inside n E -> part K E -> free n K -> covers mx K E -> optimal mx E K.
  Proof.
    intros I P F C. pose proof (part_inside K E I P) as IK.
    assert (Conn : forall u v, connected (ends K) u v <-> connected (ends E) u v).
    { intros u v. split; [|apply covers_conn with mx; auto]. apply conn_incl. intros e J. eapply part_in; eauto. }
    split.
    - split; [exact P|]. split; [|exact Conn]. apply free_forest with n; auto.
    - intros t (Pt & Ft & Ct).
      assert (It : inside n t) by (apply part_inside with E; auto).
      apply forest_free with (n := n) in Ft; auto.
      assert (D : sumz (map (key mx) K) <= sumz (map (key mx) t)).
      { apply dominated with (k := length (map (key mx) K)); [auto| |].
        - rewrite !zlen_map. unfold free in *. rewrite <- F, <- Ft. apply Z.le_antisymm; apply rank_mono; auto; intros x y; rewrite Conn, Ct; auto.
        - intro w. rewrite !upto_keys.
          assert (Fb : free n (below mx w t)) by (eapply free_sub; [exact Hn|exact It|apply filter_split|exact Ft]).
          unfold free in Fb. rewrite <- Fb. eapply Z.le_trans; [|apply rank_le; [exact Hn|apply inside_below; auto]].
          apply rank_mono; [auto|apply inside_below; auto|apply inside_below; auto|]. intros x y Q. apply C. revert Q.
          apply conn_incl. intro e. rewrite !below_in. intros (J & L). split; [eapply part_in; eauto|auto]. }
      rewrite !sum_keys in D. destruct mx; lia.
  Qed.

  Lemma all_connected D E : labels n D E -> 0 < n -> zlen (fixed n D) = 1 <-> forall u v, 0 <= u < n -> 0 <= v < n -> connected (ends E) u v.
  Proof.
    intros (L & F & C) N. split.
    - intros Z1 u v Hu Hv. rewrite C by auto.
      assert (Iu : In (lab D u) (fixed n D)) by (apply fixed_in, F; auto).
      assert (Iv : In (lab D v) (fixed n D)) by (apply fixed_in, F; auto).
      destruct (fixed n D) as [|a [|b l]]; [destruct Iu| |].
      + destruct Iu as [<-|[]], Iv as [<-|[]]. auto.
      + rewrite !zlen_cons in Z1. pose proof (zlen_nonneg l). lia.
    - intro H. pose proof (fixed_nodup n D) as ND.
      assert (I0 : In (lab D 0) (fixed n D)) by (apply fixed_in, F; lia).
      assert (U : forall x, In x (fixed n D) -> x = lab D 0).
      { intros x I. apply fixed_in in I. destruct I as (R & Q). rewrite <- Q. apply C; [auto|lia|]. apply H; lia. }
      destruct (fixed n D) as [|a [|b l]]; [destruct I0|auto|]. exfalso.
      inversion ND as [|? ? Na _]; subst. apply Na. left. rewrite (U a), (U b) by (cbn; auto). auto.
  Qed.

  Variable sort : list edge -> list edge.
  Hypothesis Hsort : sorts mx sort.

  Definition live (e : edge) : bool := negb (e_u e =? n).
  Lemma live_in e : in_graph n e -> live e = true.
  Proof. intros (H & _). unfold live. destruct (Z.eqb_spec (e_u e) n); [lia|auto]. Qed.

  Definition kinv (St : list edge) (i : Z) (st : list Z * list edge * Z) : Prop :=
    let '(d, es, w) := st in
    exists pre post p K, St = pre ++ post /\ es = p ++ post /\ zlen pre = i /\ zlen p = i /\ filter live p = K /\
      labels n d pre /\ free n K /\ w = total K /\ covers mx K pre /\ part K pre /\ StronglySorted (before mx) K.
  Lemma ss_app_end {A} (R : A -> A -> Prop) l x : StronglySorted R l -> Forall (fun y => R y x) l -> StronglySorted R (l ++ [x]).
  Proof.
    induction 1 as [|y l S IH F]; intro G; cbn [app]; [repeat constructor|]. inversion G; subst. constructor; [auto|].
    apply Forall_app. split; auto.
  Qed.
  Lemma ss_mid {A} (R : A -> A -> Prop) a x b : StronglySorted R (a ++ x :: b) -> Forall (fun y => R y x) a.
  Proof.
    induction a as [|y a IH]; intro S; [constructor|]. cbn [app] in S. inversion S as [|? ? Sl F]; subst. constructor; [|auto].
    rewrite Forall_forall in F. apply F. rewrite in_app_iff. cbn. auto.
  Qed.
  Lemma total_end K e : total (K ++ [e]) = total K + e_c e.
  Proof. unfold total. induction K as [|f K IH]; cbn [app fold_right]; lia. Qed.

  Lemma kr_body_ok St i st : inside n St -> StronglySorted (before mx) St -> 0 <= i < zlen St -> kinv St i st ->
    exists st', kr_body n i st = Ok st' /\ kinv St (i + 1) st'.
  Proof.
    destruct st as ((d, es), w). intros I So Hi (pre & post & p & K & -> & -> & Lp & Lq & FK & La & Fr & W & Co & Pa & SK).
    destruct post as [|e post]; [rewrite zlen_app in Hi; change (zlen (@nil edge)) with 0 in Hi; lia|].
    assert (Ipre : inside n pre) by (apply Forall_app in I; tauto).
    assert (Ie : in_graph n e) by (apply Forall_app in I; destruct I as (_ & I); inversion I; auto).
    assert (IK : inside n K) by (apply part_inside with pre; auto).
    pose proof (ss_mid _ _ _ _ So) as B.
    unfold kr_body. rewrite <- Lq, vget_mid by auto. cbn [bind].
    pose proof La as (Ld & Fd & Cd). destruct Ie as (Iu & Iv) eqn:HIe. clear HIe. pose proof (conj Iu Iv : in_graph n e) as Ie'.
    unfold dsu_same, dsu_merge. rewrite (lab_get n d (e_u e) Ld Iu), (lab_get n d (e_v e) Ld Iv). cbn [bind].
    destruct (Z.eqb_spec (lab d (e_u e)) (lab d (e_v e))) as [Q|Q].
    - rewrite vset_mid by auto. cbn [bind]. eexists. split; [reflexivity|].
      exists (pre ++ [e]), post, (p ++ [(n, n, e_c e)]), K.
      rewrite <- !app_assoc, !zlen_app. change (zlen [e]) with 1. change (zlen [(n, n, e_c e)]) with 1. cbn [app].
      split; [auto|]. split; [auto|]. split; [lia|]. split; [lia|]. split.
      { rewrite filter_app. cbn [filter]. unfold live at 2. unfold e_u. cbn [fst]. rewrite Z.eqb_refl. cbn [negb]. now rewrite app_nil_r. }
      split.
      { apply labels_ext with (e :: pre); [apply labels_same; auto|]. intros x y. split; apply conn_perm; [|symmetry]; apply Permutation_cons_append. }
      split; [auto|]. split; [auto|]. split.
      { apply covers_before; auto. now apply Cd. }
      split; [|auto]. eapply part_trans; [exact Pa|]. exists [e]. reflexivity.
    - eexists. split; [reflexivity|].
      assert (NK : ~ connected (ends K) (e_u e) (e_v e)).
      { intro C. apply Q. apply Cd; auto. revert C. apply conn_incl. intros f J. eapply part_in; eauto. }
      exists (pre ++ [e]), post, (p ++ [e]), (K ++ [e]).
      rewrite <- !app_assoc, !zlen_app. change (zlen [e]) with 1. cbn [app].
      split; [auto|]. split; [auto|]. split; [lia|]. split; [lia|]. split.
      { rewrite filter_app. cbn [filter]. rewrite live_in by auto. congruence. }
      split.
      { apply labels_ext with (e :: pre); [apply labels_cons; auto|]. intros x y. split; apply conn_perm; [|symmetry]; apply Permutation_cons_append. }
      split.
      { unfold free in *. rewrite (rank_perm n Hn (K ++ [e]) (e :: K)).
        - rewrite rank_cons_new by (auto; constructor; auto). rewrite zlen_app. change (zlen [e]) with 1. lia.
        - apply Forall_app. split; [auto|constructor; auto].
        - symmetry. apply Permutation_cons_append. }
      split; [rewrite total_end; lia|]. split; [apply covers_add; auto|]. split; [apply part_app; auto|].
      apply ss_app_end; auto. rewrite Forall_forall in *. intros f J. apply B. eapply part_in; eauto.
  Qed.

  Definition kcorrect (es : list edge) (built : bool) (s : kruskal) : Prop :=
    kr_n s = n /\ inside n es /\ part (kr_edges s) es /\ covers mx (kr_edges s) es /\ kr_built s = built /\
    (built = true -> free n (kr_edges s) /\ kr_sum s = total (kr_edges s) /\ StronglySorted (before mx) (kr_edges s)).

  Lemma kr_build_ok es built s : kcorrect es built s ->
    exists b s', kr_build sort s = Ok (b, s') /\ kcorrect es true s' /\ (b = true <-> forall u v, 0 <= u < n -> 0 <= v < n -> connected (ends es) u v).
  Proof.
    intros (En & I & Pa & Co & Eb & _). unfold kr_build. rewrite En. destruct (Z.eqb_spec n 0) as [N0|N0].
    - assert (NE : kr_edges s = []).
      { pose proof (part_inside _ _ I Pa) as J. destruct (kr_edges s) as [|e l]; [auto|]. inversion J as [|? ? (Q & _)]; subst. lia. }
      eexists _, _. split; [reflexivity|]. split; [|split; [intros; lia|auto]].
      unfold kcorrect. cbn [kr_n kr_edges kr_built kr_sum]. rewrite NE in *. split; [auto|]. split; [auto|]. split; [auto|]. split; [auto|]. split; [auto|].
      intros _. split; [apply rank_nil; auto|]. split; [auto|constructor].
    - destruct (Hsort (kr_edges s)) as (P & So). set (St := sort (kr_edges s)) in *.
      assert (ISt : inside n St) by (apply (Permutation_Forall (Permutation_sym P)); eapply part_inside; eauto).
      destruct (for_inv (kinv St) 0 (zlen St) (kr_body n) (dsu_new n, St, 0)) as (((d, fs), w) & -> & J).
      { apply zlen_nonneg. }
      { exists [], St, [], []. split; [auto|]. split; [auto|]. split; [auto|]. split; [auto|]. split; [auto|]. split; [apply labels_new; auto|].
        split; [apply rank_nil; auto|]. split; [auto|]. split; [apply covers_refl|]. split; [exists []; constructor|constructor]. }
      { intros i st Hi K. apply kr_body_ok; auto. }
      cbn [bind]. destruct J as (pre & post & p & K & E1 & E2 & Lp & Lq & FK & La & Fr & W & Cov & Pt & SK).
      assert (post = []) as ->.
      { destruct post; [auto|]. rewrite E1, zlen_app, zlen_cons in Lp. pose proof (zlen_nonneg post). lia. }
      rewrite app_nil_r in E1, E2. subst fs. rewrite <- E1 in *. clear E1 pre.
      change (filter (fun e => negb (e_u e =? n)) p) with (filter live p). rewrite FK.
      assert (CovE : covers mx K es).
      { eapply covers_trans; [exact Cov|]. eapply covers_trans; [|exact Co]. apply covers_incl. intro e. apply Permutation_in. now symmetry. }
      assert (PtE : part K es).
      { eapply part_trans; [exact Pt|]. eapply part_trans; [|exact Pa]. exists []. now rewrite app_nil_r. }
      assert (IK : inside n K) by (apply part_inside with es; auto).
      eexists _, _. split; [reflexivity|]. split.
      { split; [auto|]. split; [auto|]. cbn [kr_edges kr_built kr_sum]. auto 12. }
      assert (Rk : zlen K = rank n es).
      { unfold free in Fr. rewrite <- Fr. apply Z.le_antisymm; apply rank_mono; auto; intros x y.
        - apply conn_incl. intros e Ie. eapply part_in; eauto.
        - apply covers_conn with mx; auto. }
      rewrite Z.eqb_eq. rewrite <- (all_connected (lof n es) es) by (try apply lof_ok; auto; lia).
      rewrite (fixed_of n Hn (lof n es) es I (lof_ok n Hn es I)). lia.
  Qed.

  Lemma kr_sim s a o : kop_ok n o -> kcorrect (fst a) (snd a) s ->
    match kr_step sort s o with
    | Ok (r, s') => exists a', kr_spec mx n a o (Ok (r, a')) /\ kcorrect (fst a') (snd a') s'
    | Abort => kr_spec mx n a o Abort
    | UB => kr_spec mx n a o UB
    | OutOfFuel => False
    end.
  Proof.
    destruct a as (es, built). cbn [fst snd]. intros Ho K. destruct o as [e| | |]; cbn [kr_step].
    - exists (es ++ [e], false). split; [reflexivity|]. cbn [fst snd]. destruct K as (En & I & Pa & Co & Eb & _). unfold kr_add.
      split; [auto|]. split; [apply Forall_app; split; auto; constructor; auto|]. cbn [kr_edges kr_built kr_sum].
      split; [apply part_app; auto|]. split; [apply covers_add; auto|]. split; [auto|discriminate].
    - destruct (kr_build_ok _ _ _ K) as (b & s' & -> & K' & B). cbn [bind]. exists (es, true). split; [|exact K']. split; [reflexivity|exact B].
    - destruct K as (En & I & Pa & Co & Eb & G). unfold kr_weight. rewrite Eb. destruct built; cbn [assert_ bind]; [|reflexivity].
      exists (es, true). destruct (G eq_refl) as (Fr & Su & So). split.
      + split; [auto|]. split; [auto|]. exists (kr_edges s). split; [apply optimal_of; auto|auto].
      + split; [auto|]. cbn [fst snd]. auto 10.
    - destruct K as (En & I & Pa & Co & Eb & G). unfold kr_mst. rewrite Eb. destruct built; cbn [assert_ bind]; [|reflexivity].
      exists (es, true). destruct (G eq_refl) as (Fr & Su & So). split.
      + split; [auto|]. split; [auto|]. split; [apply optimal_of; auto|auto].
      + split; [auto|]. cbn [fst snd]. auto 10.
  Qed.
  Lemma kr_history ops : Forall (kop_ok n) ops -> answers (kr_spec mx n) ([], false) ops (run (kr_step sort) (kr_new n) ops).
  Proof.
    intro F. apply (answers_run_if (kop_ok n)) with (Inv := fun s a => kcorrect (fst a) (snd a) s); auto.
    - intros s a o. apply kr_sim.
    - split; [auto|]. split; [constructor|]. split; [exists []; constructor|]. split; [apply covers_refl|]. split; [auto|discriminate].
  Qed.
End N.
