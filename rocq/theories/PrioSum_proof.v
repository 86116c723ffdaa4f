From Coq Require Import Permutation Sorted.
From Verif Require Import Base BaseLemmas ListZ Sorting PrioSum_model PrioSum_spec.

Section Proof.
  Variable cmp : Z -> Z -> bool.
  Hypothesis asym : forall x y, cmp x y = true -> cmp y x = false.
  Hypothesis ntrans : forall x y z, cmp x y = false -> cmp y z = false -> cmp x z = false.

  Let le x y := negb (cmp x y).
  Lemma le_total x y : le x y = true \/ le y x = true.
  Proof. unfold le. destruct (cmp x y) eqn:E; auto. right. now rewrite (asym _ _ E). Qed.
  Lemma le_trans x y z : le x y = true -> le y z = true -> le x z = true.
  Proof. unfold le. rewrite !negb_true_iff. apply ntrans. Qed.
  Definition desc (l : list Z) : Prop := StronglySorted (fun x y => le x y = true) l.
  Let ler x y := negb (rev_cmp cmp x y).
  Lemma ler_total x y : ler x y = true \/ ler y x = true.
  Proof. unfold ler, rev_cmp. destruct (cmp x y) eqn:E; auto. left. now rewrite (asym _ _ E). Qed.
  Lemma ler_trans x y z : ler x y = true -> ler y z = true -> ler x z = true.
  Proof. unfold ler, rev_cmp. rewrite !negb_true_iff. intros. eapply ntrans; eauto. Qed.
  Definition asc (l : list Z) : Prop := StronglySorted (fun x y => ler x y = true) l.

  Lemma push_head l v : desc l -> desc (pq_push cmp l v) /\ Permutation (pq_push cmp l v) (v :: l).
  Proof. intro H. split; [apply (insert_sorted le le_total le_trans); exact H|apply insert_perm]. Qed.
  Lemma push_tail l v : asc l -> asc (pq_push (rev_cmp cmp) l v) /\ Permutation (pq_push (rev_cmp cmp) l v) (v :: l).
  Proof. intro H. split; [apply (insert_sorted ler ler_total ler_trans); exact H|apply insert_perm]. Qed.

  (* everything in the head comes before everything in the tail *)
  Definition before (h t : list Z) : Prop := forall x y, In x h -> In y t -> cmp y x = false.
  Record inv0 (c : list Z) (s : psum) : Prop := {
    i_dh : ps_dhead s = []; i_dt : ps_dtail s = [];
    i_h : desc (ps_head s); i_t : asc (ps_tail s);
    i_c : Permutation (ps_head s ++ ps_tail s) c;
    i_s : ps_sum s = fold_right Z.add 0 (ps_head s) }.
  Definition inv (c : list Z) (s : psum) : Prop :=
    inv0 c s /\ 0 <= ps_k s /\ zlen (ps_head s) = Z.min (ps_k s) (zlen c) /\ before (ps_head s) (ps_tail s).

  Lemma sum_perm l l' : Permutation l l' -> fold_right Z.add 0 l = fold_right Z.add 0 l'.
  Proof. induction 1; cbn [fold_right]; lia. Qed.
  Lemma zlen_perm (l l' : list Z) : Permutation l l' -> zlen l = zlen l'.
  Proof. intro H. unfold zlen. now rewrite (Permutation_length H). Qed.

  (* growing: [before] holds already *)
  Lemma grow_ok c s : inv0 c s -> before (ps_head s) (ps_tail s) ->
    exists s', loop (S (length (ps_tail s))) (fix_grow cmp) s = Ok s' /\ inv0 c s' /\ before (ps_head s') (ps_tail s') /\
      ps_k s' = ps_k s /\ (ps_k s <= zlen (ps_head s') \/ ps_tail s' = []) /\
      (ps_k s <= zlen (ps_head s) -> zlen (ps_head s') = zlen (ps_head s)) /\ (zlen (ps_head s) <= ps_k s -> zlen (ps_head s') <= ps_k s).
  Proof.
    intros I B.
    destruct (loop_inv (fun t => inv0 c t /\ before (ps_head t) (ps_tail t) /\ ps_k t = ps_k s /\ (ps_k s <= zlen (ps_head s) -> zlen (ps_head t) = zlen (ps_head s)) /\ (zlen (ps_head s) <= ps_k s -> zlen (ps_head t) <= ps_k s))
      (fun t => length (ps_tail t))
      (fun t => inv0 c t /\ before (ps_head t) (ps_tail t) /\ ps_k t = ps_k s /\ (ps_k s <= zlen (ps_head t) \/ ps_tail t = []) /\ (ps_k s <= zlen (ps_head s) -> zlen (ps_head t) = zlen (ps_head s)) /\ (zlen (ps_head s) <= ps_k s -> zlen (ps_head t) <= ps_k s))
      (fix_grow cmp) (S (length (ps_tail s))) s) as (t & E & H).
    - repeat split; auto; apply I.
    - lia.
    - intros t (It & Bt & Kt & Lt & Ut). unfold fix_grow. rewrite (i_dh _ _ It). change (zlen (@nil Z)) with 0.
      destruct ((zlen (ps_head t) - 0 <? ps_k t) && negb (zlen (ps_tail t) =? 0)) eqn:C.
      + destruct (ps_tail t) as [|v tail] eqn:Et; [change (zlen (@nil Z)) with 0 in C; lia|].
        rewrite (i_dt _ _ It). eexists. split; [reflexivity|]. cbv iota beta. cbn [ps_head ps_tail ps_k ps_dhead ps_dtail ps_sum].
        pose proof (i_t _ _ It) as A. rewrite Et in A. apply StronglySorted_inv in A. destruct A as (A1 & A2).
        destruct (push_head (ps_head t) v (i_h _ _ It)) as (D & P).
        assert (Lp : zlen (pq_push cmp (ps_head t) v) = zlen (ps_head t) + 1) by (rewrite (zlen_perm _ _ P); apply zlen_cons).
        split; [split; [|split; [|split; [|split]]]|].
        * constructor; cbn [ps_head ps_tail ps_k ps_dhead ps_dtail ps_sum]; auto; try apply It.
          -- rewrite P. pose proof (i_c _ _ It) as Pc. rewrite Et in Pc. rewrite <- Pc. apply Permutation_middle.
          -- rewrite (sum_perm _ _ P). cbn [fold_right]. pose proof (i_s _ _ It). lia.
        * intros x y Hx Hy. apply (Permutation_in _ P) in Hx. destruct Hx as [<-|Hx].
          -- rewrite Forall_forall in A2. specialize (A2 y Hy). unfold ler, rev_cmp in A2. now apply negb_true_iff in A2.
          -- apply Bt; auto. now right.
        * auto.
        * intro. lia.
        * intro. lia.
        * cbn [length]. lia.
      + eexists. split; [reflexivity|]. cbv iota beta. split; [exact It|]. split; [exact Bt|]. split; [exact Kt|]. split; [|auto].
        destruct (ps_tail t); auto. rewrite zlen_cons in C. pose proof (zlen_nonneg l). left. lia.
    - exists t. split; [exact E|]. exact H.
  Qed.

  (* shrinking: every step moves the last of the head; [before] holds but for what was just put in *)
  Definition almost (h t : list Z) : Prop := match h with [] => True | m :: h' => before h' t /\ before h' [m] end.

  Lemma shrink_ok c s : inv0 c s -> 0 <= ps_k s -> before (ps_head s) (ps_tail s) ->
    exists s', loop (S (length (ps_head s))) (fix_shrink cmp) s = Ok s' /\ inv0 c s' /\ before (ps_head s') (ps_tail s') /\
      ps_k s' = ps_k s /\ zlen (ps_head s') = Z.min (ps_k s) (zlen (ps_head s)).
  Proof.
    intros I K0 B.
    destruct (loop_inv (fun t => inv0 c t /\ before (ps_head t) (ps_tail t) /\ ps_k t = ps_k s /\ zlen (ps_head t) <= zlen (ps_head s) /\ Z.min (ps_k s) (zlen (ps_head s)) <= zlen (ps_head t))
      (fun t => length (ps_head t))
      (fun t => inv0 c t /\ before (ps_head t) (ps_tail t) /\ ps_k t = ps_k s /\ zlen (ps_head t) = Z.min (ps_k s) (zlen (ps_head s)))
      (fix_shrink cmp) (S (length (ps_head s))) s) as (t & E & H).
    - repeat split; try apply I; auto; lia.
    - lia.
    - intros t (It & Bt & Kt & Lt & Ut). unfold fix_shrink. rewrite (i_dh _ _ It). change (zlen (@nil Z)) with 0.
      destruct (ps_k t <? zlen (ps_head t) - 0) eqn:C.
      + destruct (ps_head t) as [|v head] eqn:Et; [change (zlen (@nil Z)) with 0 in C; lia|].
        eexists. split; [reflexivity|]. cbv iota beta. cbn [ps_head ps_tail ps_k ps_dhead ps_dtail ps_sum].
        pose proof (i_h _ _ It) as A. rewrite Et in A. apply StronglySorted_inv in A. destruct A as (A1 & A2).
        destruct (push_tail (ps_tail t) v (i_t _ _ It)) as (D & P). rewrite zlen_cons in *.
        split; [split; [|split; [|split; [|split]]]|].
        * constructor; cbn [ps_head ps_tail ps_k ps_dhead ps_dtail ps_sum]; auto; try apply It.
          -- rewrite P. pose proof (i_c _ _ It) as Pc. rewrite Et in Pc. rewrite <- Pc. cbn [app]. symmetry. apply Permutation_middle.
          -- pose proof (i_s _ _ It) as Q. rewrite Et in Q. cbn [fold_right] in Q. lia.
        * intros x y Hx Hy. apply (Permutation_in _ P) in Hy. destruct Hy as [<-|Hy].
          -- rewrite Forall_forall in A2. specialize (A2 x Hx). unfold le in A2. now apply negb_true_iff in A2.
          -- apply Bt; auto. now right.
        * auto.
        * lia.
        * lia.
        * cbn [length]. lia.
      + eexists. split; [reflexivity|]. cbv iota beta. split; [exact It|]. split; [exact Bt|]. split; [exact Kt|]. lia.
    - exists t. split; [exact E|]. exact H.
  Qed.

  Lemma fix_ok c s : inv0 c s -> 0 <= ps_k s -> before (ps_head s) (ps_tail s) -> exists s', ps_fix cmp s = Ok s' /\ inv c s' /\ ps_k s' = ps_k s.
  Proof.
    intros I K B. unfold ps_fix. destruct (grow_ok c s I B) as (s1 & -> & I1 & B1 & K1 & F1 & L1 & U1). cbn [bind].
    destruct (shrink_ok c s1 I1) as (s2 & -> & I2 & B2 & K2 & L2); auto; [congruence|].
    exists s2. split; auto. split; [|congruence]. split; auto. split; [lia|]. split; auto.
    rewrite L2, K2, K1. pose proof (zlen_perm _ _ (i_c _ _ I1)) as Z1. rewrite zlen_app in Z1. pose proof (zlen_nonneg (ps_tail s1)).
    destruct F1 as [F1|F1]; [lia|]. rewrite F1 in Z1. change (zlen (@nil Z)) with 0 in Z1. lia.
  Qed.

  (* insertion: first one step of shrinking when the head was full *)
  Lemma insert_ok c s v : inv c s -> exists s', ps_insert cmp s v = Ok s' /\ inv (v :: c) s' /\ ps_k s' = ps_k s.
  Proof.
    intros (I & K & L & B). unfold ps_insert.
    destruct (push_head (ps_head s) v (i_h _ _ I)) as (D & P).
    set (s1 := PS (ps_k s) (ps_sum s + v) (pq_push cmp (ps_head s) v) (ps_dhead s) (ps_tail s) (ps_dtail s)).
    assert (I1 : inv0 (v :: c) s1).
    { constructor; cbn [s1 ps_head ps_tail ps_k ps_dhead ps_dtail ps_sum]; auto; try apply I.
      - rewrite P. cbn [app]. constructor. apply I.
      - rewrite (sum_perm _ _ P). cbn [fold_right]. pose proof (i_s _ _ I). lia. }
    assert (Lp : zlen (ps_head s1) = zlen (ps_head s) + 1) by (cbn [s1 ps_head]; rewrite (zlen_perm _ _ P); apply zlen_cons).
    pose proof (zlen_perm _ _ (i_c _ _ I)) as Zc. rewrite zlen_app in Zc. pose proof (zlen_nonneg (ps_tail s)) as Zt.
    destruct (Z.lt_ge_cases (zlen (ps_head s)) (ps_k s)) as [C|C].
    - assert (Et : ps_tail s = []) by (apply zlen_0_nil; lia).
      destruct (fix_ok (v :: c) s1 I1) as (s2 & E & I2 & K2); auto.
      { intros x y Hx Hy. cbn [s1 ps_tail] in Hy. rewrite Et in Hy. destruct Hy. }
      exists s2. auto.
    - (* full: the first loop does nothing, the second moves exactly one element *)
      unfold ps_fix.
      assert (E1 : loop (S (length (ps_tail s1))) (fix_grow cmp) s1 = Ok s1).
      { cbn [loop]. unfold fix_grow. replace (ps_dhead s1) with (@nil Z) by (symmetry; apply I1). change (zlen (@nil Z)) with 0.
        change (ps_k s1) with (ps_k s). replace (zlen (ps_head s1) - 0 <? ps_k s) with false by lia. reflexivity. }
      rewrite E1. cbn [bind].
      destruct (ps_head s1) as [|m h] eqn:Eh; [change (zlen (@nil Z)) with 0 in Lp; pose proof (zlen_nonneg (ps_head s)); lia|].
      cbn [length loop]. 
      assert (E2 : fix_shrink cmp s1 = Ok (inl (PS (ps_k s) (ps_sum s1 - m) h [] (pq_push (rev_cmp cmp) (ps_tail s) m) []))).
      { unfold fix_shrink. replace (ps_dhead s1) with (@nil Z) by (symmetry; apply I1). change (zlen (@nil Z)) with 0. rewrite Eh.
        change (ps_k s1) with (ps_k s). replace (ps_k s <? zlen (m :: h) - 0) with true by lia.
        change (ps_dtail s1) with (ps_dtail s). rewrite (i_dt _ _ I). reflexivity. }
      rewrite E2. cbn [bind].
      set (s2 := PS (ps_k s) (ps_sum s1 - m) h [] (pq_push (rev_cmp cmp) (ps_tail s) m) []).
      destruct (push_tail (ps_tail s) m (i_t _ _ I)) as (D2 & P2).
      pose proof (i_h _ _ I1) as A. rewrite Eh in A. apply StronglySorted_inv in A. destruct A as (A1 & A2). rewrite Forall_forall in A2.
      assert (Mh : forall x, In x h -> cmp m x = false).
      { intros x Hx. specialize (A2 x Hx). unfold le in A2. now apply negb_true_iff in A2. }
      assert (Hin : forall x, In x (m :: h) -> x = v \/ In x (ps_head s)).
      { intros x Hx. rewrite <- Eh in Hx. cbn [s1 ps_head] in Hx. apply (Permutation_in _ P) in Hx. destruct Hx as [<-|Hx]; auto. }
      assert (I2 : inv0 (v :: c) s2).
      { constructor; cbn [s2 ps_head ps_tail ps_k ps_dhead ps_dtail ps_sum]; auto.
        - rewrite P2. pose proof (i_c _ _ I1) as Pc. rewrite Eh in Pc. rewrite <- Pc. cbn [app s1 ps_tail]. symmetry. apply Permutation_middle.
        - pose proof (i_s _ _ I1) as Q. rewrite Eh in Q. cbn [fold_right] in Q. lia. }
      assert (B2 : before h (pq_push (rev_cmp cmp) (ps_tail s) m)).
      { intros x y Hx Hy. apply (Permutation_in _ P2) in Hy. destruct Hy as [<-|Hy]; [now apply Mh|].
        destruct (Hin x ltac:(now right)) as [->|Hx'].
        - (* x = v stays; then m came from the old head, or equals v *)
          destruct (Hin m ltac:(now left)) as [->|Hm].
          + (* m = v too: v occurs twice, some copy is in the old head *)
            assert (In v (ps_head s)); [|apply B; auto].
            assert (Q : Permutation (v :: h) (v :: ps_head s)) by (rewrite <- Eh; exact P).
            apply Permutation_cons_inv in Q. eapply Permutation_in; eauto.
          + apply (ntrans y m v); [apply B; auto|now apply Mh].
        - apply B; auto. }
      destruct (shrink_ok (v :: c) s2 I2) as (s3 & E3 & I3 & B3 & K3 & L3); auto.
      change (length (ps_head s2)) with (length h) in E3. change (fix_shrink cmp) with (fix_shrink cmp).
      exists s3. split.
      { exact E3. }
      split; [|exact K3]. split; auto. split; [change (ps_k s2) with (ps_k s) in K3; lia|]. split; auto.
      rewrite L3, K3. change (ps_k s2) with (ps_k s). change (ps_head s2) with h. rewrite !zlen_cons in *. lia.
  Qed.

  Lemma set_k_ok c s k : inv c s -> 0 <= k -> exists s', ps_set_k cmp s k = Ok s' /\ inv c s' /\ ps_k s' = k.
  Proof.
    intros (I & K & L & B) Hk. unfold ps_set_k. apply (fix_ok c (PS k (ps_sum s) (ps_head s) (ps_dhead s) (ps_tail s) (ps_dtail s))); auto.
    constructor; apply I.
  Qed.

  Lemma run_ok ops : forall c s, inv c s -> (forall k, In (PSetK k) ops -> 0 <= k) ->
    exists s', for_each ops (ps_do cmp) s = Ok s' /\ ps_k s' = last_k (ps_k s) ops /\ exists c', Permutation c' (c ++ inserted ops) /\ inv c' s'.
  Proof.
    induction ops as [|o ops IH]; intros c s I Hk; cbn [for_each].
    - exists s. repeat split; auto. exists c. cbn [inserted]. rewrite app_nil_r. auto.
    - destruct o as [v|k]; cbn [ps_do last_k inserted].
      + destruct (insert_ok c s v I) as (s1 & -> & I1 & K1). cbn [bind].
        destruct (IH _ _ I1) as (s2 & E2 & K2 & c' & P & I2); [intros; apply Hk; now right|]. exists s2. rewrite K1 in K2. repeat split; auto.
        exists c'. split; auto. rewrite P. apply Permutation_middle.
      + destruct (set_k_ok c s k I) as (s1 & -> & I1 & K1); [apply Hk; now left|]. cbn [bind].
        destruct (IH _ _ I1) as (s2 & E2 & K2 & c' & P & I2); [intros; apply Hk; now right|]. exists s2. rewrite K1 in K2. repeat split; auto.
        exists c'. auto.
  Qed.
  Lemma inv_new k : 0 <= k -> inv [] (ps_new k).
  Proof.
    intro H. split; [|split; [exact H|split]].
    - constructor; cbn; auto; constructor.
    - cbn [ps_new ps_k ps_head]. change (zlen (@nil Z)) with 0. lia.
    - intros x y [].
  Qed.
  Lemma inv_sum c s : inv c s -> sum_first cmp (ps_k s) c (ps_sum s) /\ ps_size s = zlen c.
  Proof.
    intros (I & K & L & B). split.
    - exists (ps_head s), (ps_tail s). repeat split; auto; apply I.
    - unfold ps_size. rewrite (i_dh _ _ I), (i_dt _ _ I). change (zlen (@nil Z)) with 0. rewrite <- (zlen_perm _ _ (i_c _ _ I)), zlen_app. lia.
  Qed.
End Proof.
