(* Proofs about Kruskal_model. *)
From Coq Require Import Permutation Sorted Relations.
From Verif Require Import Base BaseLemmas ListZ Kruskal_model UnionFind_spec UnionFind_proof Kruskal_spec NumTheory Heap_spec Heap_proof PArray_proof2 Hist.

(* ---- connectivity depends only on the set of pairs ---- *)
Lemma connected_incl E G x y : (forall p, In p E -> In p G) -> connected E x y -> connected G x y.
Proof.
  intros H C. induction C as [x y I|x|x y _ IH|x y z _ IH1 _ IH2].
  - apply rst_step. now apply H.
  - apply rst_refl.
  - now apply rst_sym.
  - now apply rst_trans with y.
Qed.
Lemma connected_sub E G x y : (forall a b, In (a, b) E -> connected G a b) -> connected E x y -> connected G x y.
Proof.
  intros H C. induction C as [x y I|x|x y _ IH|x y z _ IH1 _ IH2].
  - now apply H.
  - apply rst_refl.
  - now apply rst_sym.
  - now apply rst_trans with y.
Qed.
Lemma ends_in e es : In e es -> In (e_u e, e_v e) (ends es).
Proof. intro H. apply (in_map (fun e => (e_u e, e_v e))) in H. exact H. Qed.
Lemma in_ends a b es : In (a, b) (ends es) -> exists e, In e es /\ a = e_u e /\ b = e_v e.
Proof. intro H. apply in_map_iff in H. destruct H as (e & Q & I). injection Q as <- <-. eauto. Qed.
Lemma conn_in e es : In e es -> connected (ends es) (e_u e) (e_v e).
Proof. intro H. apply rst_step. now apply ends_in. Qed.
Lemma conn_incl E G x y : (forall e, In e E -> In e G) -> connected (ends E) x y -> connected (ends G) x y.
Proof. intro H. apply connected_incl. intros (a, b) I. apply in_ends in I. destruct I as (e & I & -> & ->). now apply ends_in, H. Qed.
Lemma conn_sub E G x y : (forall e, In e E -> connected (ends G) (e_u e) (e_v e)) -> connected (ends E) x y -> connected (ends G) x y.
Proof. intro H. apply connected_sub. intros a b I. apply in_ends in I. destruct I as (e & I & -> & ->). now apply H. Qed.
Lemma conn_perm E G x y : Permutation E G -> connected (ends E) x y -> connected (ends G) x y.
Proof. intro P. apply conn_incl. intros e. now apply Permutation_in. Qed.

Lemma filter_all {A} (f : A -> bool) l : (forall x, In x l -> f x = true) -> filter f l = l.
Proof. induction l as [|x l IH]; intro H; cbn; [auto|]. rewrite (H x) by (cbn; auto). f_equal. apply IH. intros; apply H; cbn; auto. Qed.

Section N.
  Variable n : Z.
  Hypothesis Hn : 0 <= n.
  Definition inside (es : list edge) := Forall (in_graph n) es.

  Definition lab (D : list Z) (x : Z) : Z := nth (Z.to_nat x) D 0.
  Definition labels (D : list Z) (E : list edge) : Prop :=
    zlen D = n /\ (forall x, 0 <= x < n -> 0 <= lab D x < n /\ lab D (lab D x) = lab D x) /\
    forall x y, 0 <= x < n -> 0 <= y < n -> (connected (ends E) x y <-> lab D x = lab D y).
  Lemma lab_get D x : zlen D = n -> 0 <= x < n -> vget D x = Ok (lab D x).
  Proof. intros L H. apply vget_nth. lia. Qed.
  Definition relabel (a b : Z) (D : list Z) : list Z := map (fun c => if c =? a then b else c) D.
  Lemma lab_relabel a b D x : zlen D = n -> 0 <= x < n -> lab (relabel a b D) x = if lab D x =? a then b else lab D x.
  Proof.
    intros L H. unfold lab, relabel. rewrite (nth_indep _ 0 ((fun c => if c =? a then b else c) 0)) by (rewrite map_length; unfold zlen in L; lia).
    exact (map_nth (fun c => if c =? a then b else c) D 0 (Z.to_nat x)).
  Qed.
  Definition fixed (D : list Z) : list Z := filter (fun x => lab D x =? x) (zrange n).
  Lemma fixed_in D x : In x (fixed D) <-> 0 <= x < n /\ lab D x = x.
  Proof. unfold fixed. rewrite filter_In, In_zrange by lia. rewrite Z.eqb_eq. tauto. Qed.
  Lemma fixed_nodup D : NoDup (fixed D). Proof. apply NoDup_filter, NoDup_zrange. Qed.

  Lemma lab_new x : 0 <= x < n -> lab (dsu_new n) x = x.
  Proof.
    intro H. assert (G : vget (zrange n) x = Ok x) by (apply vget_zrange; lia).
    assert (L : zlen (dsu_new n) = n) by (apply zlen_zrange; lia).
    pose proof (lab_get _ _ L H) as Q. unfold dsu_new in *. congruence.
  Qed.
  Lemma labels_new : labels (dsu_new n) [].
  Proof.
    split; [apply zlen_zrange; lia|]. split.
    - intros x H. rewrite !lab_new by (rewrite ?lab_new; lia). auto.
    - intros x y Hx Hy. rewrite !lab_new by lia. unfold ends. cbn [map]. apply connected_nil.
  Qed.
  Lemma labels_cons D E e : labels D E -> in_graph n e ->
    labels (relabel (lab D (e_u e)) (lab D (e_v e)) D) (e :: E).
  Proof.
    intros (L & F & C) (Iu & Iv). set (a := lab D (e_u e)). set (b := lab D (e_v e)).
    assert (Fa : 0 <= a < n /\ lab D a = a) by (apply F; auto). assert (Fb : 0 <= b < n /\ lab D b = b) by (apply F; auto).
    split; [unfold relabel; rewrite zlen_map; auto|]. split.
    - intros x H. rewrite (lab_relabel a b D x L H). destruct (F x H) as (R & Q).
      destruct (lab D x =? a) eqn:K.
      + split; [lia|]. rewrite lab_relabel by (auto; lia). rewrite (proj2 Fb). destruct (b =? a); auto.
      + split; [auto|]. rewrite lab_relabel by auto. rewrite Q, K. auto.
    - intros x y Hx Hy. unfold ends. cbn [map]. rewrite connected_cons. fold (ends E).
      rewrite !C by auto. fold a b. rewrite !lab_relabel by auto.
      destruct (Z.eqb_spec (lab D x) a), (Z.eqb_spec (lab D y) a); lia.
  Qed.
  Lemma labels_ext D E G : labels D E -> (forall x y, connected (ends E) x y <-> connected (ends G) x y) -> labels D G.
  Proof. intros (L & F & C) H. split; [auto|]. split; [auto|]. intros x y Hx Hy. rewrite <- H. auto. Qed.
  Lemma labels_same D E e : labels D E -> in_graph n e -> lab D (e_u e) = lab D (e_v e) -> labels D (e :: E).
  Proof.
    intros H I Q. apply (labels_ext D E); auto. intros x y. split; [apply conn_incl; cbn; auto|].
    apply conn_sub. intros f [<-|J]; [|now apply conn_in]. destruct H as (L & F & C), I. now apply C.
  Qed.
  Lemma fixed_relabel D E e : labels D E -> in_graph n e -> lab D (e_u e) <> lab D (e_v e) ->
    zlen (fixed (relabel (lab D (e_u e)) (lab D (e_v e)) D)) = zlen (fixed D) - 1.
  Proof.
    intros (L & F & C) (Iu & Iv). set (a := lab D (e_u e)). set (b := lab D (e_v e)). intro N.
    assert (Fa : 0 <= a < n /\ lab D a = a) by (apply F; auto). assert (Fb : 0 <= b < n /\ lab D b = b) by (apply F; auto).
    assert (P : Permutation (fixed D) (a :: fixed (relabel a b D))).
    { apply NoDup_Permutation; [apply fixed_nodup| |].
      - constructor; [|apply fixed_nodup]. rewrite fixed_in. intros (_ & Q). rewrite lab_relabel in Q by (auto; lia).
        rewrite (proj2 Fa), Z.eqb_refl in Q. lia.
      - intro x. cbn [In]. rewrite !fixed_in. split.
        + intros (R & Q). destruct (Z.eq_dec a x); [auto|]. right. split; [auto|]. rewrite lab_relabel by auto. rewrite Q.
          destruct (Z.eqb_spec x a); lia.
        + intros [<-|(R & Q)]; [auto|]. split; [auto|]. rewrite lab_relabel in Q by auto. destruct (Z.eqb_spec (lab D x) a); [|auto].
          subst x. lia. }
    apply Permutation_length in P. cbn [length] in P. unfold zlen. lia.
  Qed.
  Lemma fixed_mono D E D' G : labels D E -> labels D' G -> (forall x y, connected (ends E) x y -> connected (ends G) x y) ->
    zlen (fixed D') <= zlen (fixed D).
  Proof.
    intros (L & F & C) (L' & F' & C') H. unfold zlen.
    enough (length (fixed D') <= length (fixed D))%nat by lia.
    rewrite <- (map_length (lab D) (fixed D')). apply NoDup_incl_length.
    - apply NoDup_map_inj'; [|apply fixed_nodup]. intros x y Ix Iy Q. apply fixed_in in Ix, Iy.
      destruct Ix as (Rx & Qx), Iy as (Ry & Qy). apply C in Q; auto. apply H in Q. apply C' in Q; auto. congruence.
    - intros z I. apply in_map_iff in I. destruct I as (x & <- & I). apply fixed_in in I. apply fixed_in. apply F. tauto.
  Qed.

  (* ---- rank ---- *)
  Fixpoint lof (E : list edge) : list Z :=
    match E with [] => dsu_new n | e :: E => relabel (lab (lof E) (e_u e)) (lab (lof E) (e_v e)) (lof E) end.
  Lemma lof_ok E : inside E -> labels (lof E) E.
  Proof. induction 1; cbn [lof]; [apply labels_new|]. apply labels_cons; auto. Qed.
  Definition rank (E : list edge) : Z := n - zlen (fixed (lof E)).
  Lemma fixed_of D E : inside E -> labels D E -> zlen (fixed D) = n - rank E.
  Proof.
    intros I L. unfold rank. pose proof (fixed_mono D E (lof E) E L (lof_ok E I) ltac:(auto)).
    pose proof (fixed_mono (lof E) E D E (lof_ok E I) L ltac:(auto)). lia.
  Qed.
  Lemma rank_mono E G : inside E -> inside G -> (forall x y, connected (ends E) x y -> connected (ends G) x y) -> rank E <= rank G.
  Proof. intros I J H. unfold rank. pose proof (fixed_mono _ _ _ _ (lof_ok E I) (lof_ok G J) H). lia. Qed.
  Lemma rank_nil : rank [] = 0.
  Proof.
    unfold rank. cbn [lof]. unfold fixed. replace (filter _ _) with (zrange n); [rewrite zlen_zrange by lia; lia|].
    symmetry. apply filter_all. intros x I. apply In_zrange in I. rewrite lab_new by lia. apply Z.eqb_refl.
  Qed.
  Lemma rank_cons_old e E : inside (e :: E) -> connected (ends E) (e_u e) (e_v e) -> rank (e :: E) = rank E.
  Proof.
    intros I C. inversion I; subst. apply Z.le_antisymm; apply rank_mono; auto; intros x y.
    - apply conn_sub. intros f [<-|J]; [auto|now apply conn_in].
    - apply conn_incl. cbn. auto.
  Qed.
  Lemma rank_cons_new e E : inside (e :: E) -> ~ connected (ends E) (e_u e) (e_v e) -> rank (e :: E) = rank E + 1.
  Proof.
    intros I C. inversion I as [|? ? Ie IE]; subst. unfold rank at 1. cbn [lof]. rewrite (fixed_relabel _ E); auto.
    - unfold rank. lia.
    - now apply lof_ok.
    - intro Q. apply C. destruct (lof_ok E IE) as (L & F & K). destruct Ie. now apply K.
  Qed.
  Lemma conn_dec E e : inside E -> in_graph n e -> connected (ends E) (e_u e) (e_v e) \/ ~ connected (ends E) (e_u e) (e_v e).
  Proof.
    intros I (Iu & Iv). destruct (lof_ok E I) as (L & F & C). rewrite (C _ _ Iu Iv). lia.
  Qed.
  Lemma rank_cons e E : inside (e :: E) -> rank E <= rank (e :: E) <= rank E + 1.
  Proof.
    intro I. inversion I; subst. destruct (conn_dec E e) as [C|C]; auto.
    - rewrite rank_cons_old; auto. lia.
    - rewrite rank_cons_new; auto. lia.
  Qed.
  Lemma rank_le E : inside E -> rank E <= zlen E.
  Proof.
    induction E as [|e E IH]; intro I; [rewrite rank_nil; change (zlen (@nil edge)) with 0; lia|].
    inversion I; subst. pose proof (rank_cons e E I). rewrite zlen_cons. specialize (IH ltac:(auto)). lia.
  Qed.
  Lemma rank_app A B : inside A -> inside B -> rank (A ++ B) <= zlen A + rank B.
  Proof.
    intros IA IB. induction A as [|e A IH]; [change (zlen (@nil edge)) with 0; cbn; lia|]. inversion IA; subst.
    cbn [app]. rewrite zlen_cons. specialize (IH ltac:(auto)).
    pose proof (rank_cons e (A ++ B)). assert (inside (e :: A ++ B)) by (constructor; auto; apply Forall_app; auto). specialize (H H0). lia.
  Qed.
  Lemma rank_perm A B : inside A -> Permutation A B -> rank A = rank B.
  Proof.
    intros I P. assert (J : inside B) by (apply (Permutation_Forall P); auto).
    apply Z.le_antisymm; apply rank_mono; auto; intros x y; apply conn_perm; auto. now apply Permutation_sym.
  Qed.

  Definition free (T : list edge) : Prop := rank T = zlen T.
  Lemma free_sub A B C : inside C -> Permutation (A ++ B) C -> free C -> free A.
  Proof.
    intros I P F. unfold free in *. assert (J : inside (A ++ B)) by (apply (Permutation_Forall (Permutation_sym P)); auto).
    apply Forall_app in J. destruct J as (JA & JB).
    assert (Q : rank C <= zlen B + rank A).
    { rewrite <- (rank_perm (B ++ A) C). - now apply rank_app. - apply Forall_app; auto. - eapply Permutation_trans; [apply Permutation_app_comm|auto]. }
    apply Permutation_length in P. rewrite app_length in P. pose proof (rank_le A JA). unfold zlen in *. lia.
  Qed.
  Lemma free_forest T : inside T -> free T -> forest T.
  Proof.
    intros I F a e b -> C. assert (P : Permutation (a ++ e :: b) (e :: a ++ b)) by (symmetry; apply Permutation_middle).
    assert (J : inside (e :: a ++ b)) by (apply (Permutation_Forall P); auto).
    unfold free in F. rewrite (rank_perm _ _ I P) in F. rewrite rank_cons_old in F by auto.
    inversion J; subst. pose proof (rank_le (a ++ b) ltac:(auto)). rewrite zlen_app in *. rewrite zlen_cons in F. lia.
  Qed.
  Lemma forest_free T : inside T -> forest T -> free T.
  Proof.
    induction T as [|e T IH]; intros I F; unfold free in *; [apply rank_nil|]. inversion I as [|? ? Ie IT]; subst.
    pose proof (F [] e T eq_refl) as N. cbn [app] in N. rewrite rank_cons_new by auto. rewrite zlen_cons. rewrite IH; [lia|auto|].
    intros a f b -> C. apply (F (e :: a) f b eq_refl). revert C. apply conn_incl. cbn. auto.
  Qed.
End N.

(* ---- weights ---- *)
Definition upto (w : Z) (l : list Z) : Z := zlen (filter (fun x => x <=? w) l).
Definition sumz (l : list Z) : Z := fold_right Z.add 0 l.
Lemma upto_app w a b : upto w (a ++ b) = upto w a + upto w b.
Proof. unfold upto. now rewrite filter_app, zlen_app. Qed.
Lemma upto_cons w x a : upto w (x :: a) = (if x <=? w then 1 else 0) + upto w a.
Proof. unfold upto. cbn [filter]. destruct (x <=? w); rewrite ?zlen_cons; lia. Qed.
Lemma upto_le w l : upto w l <= zlen l.
Proof. induction l as [|x l IH]; [unfold upto; cbn; lia|]. rewrite upto_cons, zlen_cons. destruct (x <=? w); lia. Qed.
Lemma upto_all w l : (forall x, In x l -> x <= w) -> upto w l = zlen l.
Proof.
  induction l as [|x l IH]; intro H; [auto|]. rewrite upto_cons, zlen_cons, IH by (intros; apply H; cbn; auto).
  destruct (Z.leb_spec x w); [lia|]. specialize (H x ltac:(cbn; auto)). lia.
Qed.
Lemma upto_lt w l : upto w l < zlen l -> exists x, In x l /\ w < x.
Proof.
  induction l as [|x l IH]; [unfold upto; cbn; lia|]. rewrite upto_cons, zlen_cons. destruct (Z.leb_spec x w).
  - intro G. destruct IH as (y & I & J); [lia|]. exists y. cbn. auto.
  - exists x. cbn. auto.
Qed.
Lemma has_max (l : list Z) : l <> [] -> exists m, In m l /\ forall x, In x l -> x <= m.
Proof.
  induction l as [|x l IH]; [congruence|]. intros _. destruct l as [|y l].
  - exists x. cbn. split; [auto|]. intros z [->|[]]. lia.
  - destruct IH as (m & I & M); [discriminate|]. exists (Z.max x m). split.
    + destruct (Z.max_spec x m) as [(_ & ->)|(_ & ->)]; cbn in *; auto.
    + intros z [->|J]; [lia|]. specialize (M z J). lia.
Qed.
Lemma sumz_app a b : sumz (a ++ b) = sumz a + sumz b.
Proof. unfold sumz. induction a as [|x a IH]; cbn; lia. Qed.
Lemma dominated k : forall K F, length K = k -> zlen K = zlen F -> (forall w, upto w F <= upto w K) -> sumz K <= sumz F.
Proof.
  induction k as [|k IH]; intros K F LK LF H.
  - destruct K; [|discriminate]. destruct F; [cbn; lia|]. rewrite zlen_cons in LF. change (zlen (@nil Z)) with 0 in LF. pose proof (zlen_nonneg F). lia.
  - destruct (has_max K) as (m & Im & Mm); [intros ->; discriminate|].
    assert (G : exists f, In f F /\ m - 1 < f).
    { apply upto_lt. rewrite <- LF. eapply Z.le_lt_trans; [apply H|]. apply in_split in Im. destruct Im as (a & b & ->).
      rewrite upto_app, upto_cons, zlen_app, zlen_cons. pose proof (upto_le (m - 1) a). pose proof (upto_le (m - 1) b).
      destruct (Z.leb_spec m (m - 1)); lia. }
    destruct G as (f & If & Gf). apply in_split in Im, If. destruct Im as (a & b & ->), If as (c & d & ->).
    specialize (IH (a ++ b) (c ++ d)). rewrite !sumz_app in *. cbn [sumz fold_right]. fold (sumz b) (sumz d).
    rewrite app_length in LK. cbn [length] in LK. rewrite !zlen_app, !zlen_cons in LF.
    assert (sumz a + sumz b <= sumz c + sumz d); [|lia]. apply IH.
    + rewrite app_length. lia.
    + rewrite !zlen_app. lia.
    + intro w. rewrite !upto_app. specialize (H w). rewrite !upto_app, !upto_cons in H.
      destruct (Z.leb_spec m w), (Z.leb_spec f w); try lia.
      assert (Ua : upto w a = zlen a) by (apply upto_all; intros; eapply Z.le_trans; [apply Mm; rewrite in_app_iff; auto|auto]).
      assert (Ub : upto w b = zlen b) by (apply upto_all; intros; eapply Z.le_trans; [apply Mm; rewrite in_app_iff; cbn; auto|auto]).
      pose proof (upto_le w c). pose proof (upto_le w d). lia.
Qed.
