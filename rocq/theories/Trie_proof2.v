(* BinaryTrie: histories *)
From Verif Require Import Base BaseLemmas ListZ ListMore Seq Sorting Hist Trie_model Trie_spec Heap_spec Wavelet_model Wavelet_spec Wavelet_proof Wavelet_proof2 Wavelet_proof3 PArray_proof2 Trie_proof.
From Coq Require Import Permutation Sorted.

Lemma count_bounds {A} (p : A -> bool) s : 0 <= count_if p s <= zlen s.
Proof. unfold count_if. pose proof (zlen_filter_split p s). pose proof (zlen_nonneg (filter p s)). pose proof (zlen_nonneg (filter (fun x => negb (p x)) s)). lia. Qed.
Lemma count_zero {A} (p : A -> bool) s : count_if p s = 0 -> forall v, In v s -> p v = false.
Proof.
  intros H v Hv. destruct (p v) eqn:E; auto. exfalso. unfold count_if in H. assert (I : In v (filter p s)) by (apply filter_In; auto).
  destruct (filter p s); [destruct I|]. rewrite zlen_cons in H. pose proof (zlen_nonneg l). lia.
Qed.
Lemma count_full {A} (p : A -> bool) s : zlen s <= count_if p s -> forall v, In v s -> p v = true.
Proof.
  intros H v Hv. destruct (p v) eqn:E; auto. exfalso. pose proof (zlen_filter_split p s) as Q. unfold count_if in H.
  assert (Z0 : count_if (fun x => negb (p x)) s = 0) by (unfold count_if; pose proof (zlen_nonneg (filter (fun x => negb (p x)) s)); lia).
  pose proof (count_zero _ _ Z0 v Hv) as X. cbv beta in X. rewrite E in X. discriminate.
Qed.

Section H.
  Variable L : nat.
  Notation W := (word L).
  Definition tinv (t : trie) (a : list Z) : Prop := t <> Nil /\ rep L t a /\ forall w, In w a -> W w.
  Lemma insert_nonnil k t v num : snd (trie_insert k t v num) <> Nil.
  Proof.
    destruct k; cbn [trie_insert]; destruct (match t with Nil => (0, Nil, Nil) | Nd s c0 c1 => (s, c0, c1) end) as ((s, c0), c1); [discriminate|].
    destruct (tbit v k); destruct (trie_insert _ _ _ _); discriminate.
  Qed.
  Lemma zlen_map_x x (a : list Z) : zlen (map (Z.lxor x) a) = zlen a.
  Proof. unfold zlen. now rewrite map_length. Qed.
  Lemma count_correct t a v : tinv t a -> W v -> bt_count L t v = cnt (Z.eqb v) a.
  Proof.
    intros (_ & R & F) Hv. unfold bt_count. rewrite (prefix_ok v 0 L t a R). apply cnt_ext. intros w Hw. rewrite agrl_0. apply agr_eq; auto. now apply F.
  Qed.
  Lemma prefix_correct t a v l : tinv t a -> W v -> 0 <= l -> trie_prefix L t v l = cnt (fun w => Z.shiftr w l =? Z.shiftr v l) a.
  Proof. intros (_ & R & F) Hv Hl. rewrite (prefix_ok v l L t a R). apply cnt_ext. intros w Hw. apply agrl_word; auto. now apply F. Qed.
  Lemma lt_correct t a x v : tinv t a -> W x -> W v -> bt_lt L t x v = cnt (fun w => Z.lxor x w <? v) a.
  Proof.
    intros (_ & R & F) Hx Hv. unfold bt_lt. rewrite (trie_lt_ok x v L t a 0 R), Z.add_0_l. apply cnt_ext. intros w Hw. apply ltl_word; auto.
    apply lxor_word; auto. now apply F.
  Qed.
  Lemma cnt_or p q r a : (forall w, In w a -> r w = p w || q w) -> (forall w, In w a -> p w = true -> q w = false) -> cnt r a = cnt p a + cnt q a.
  Proof.
    unfold count_if. induction a as [|w a IH]; intros H1 H2; auto. cbn [filter]. rewrite (H1 w) by now left.
    specialize (IH (fun u Hu => H1 u (or_intror Hu)) (fun u Hu => H2 u (or_intror Hu))). specialize (H2 w (or_introl eq_refl)).
    destruct (p w) eqn:Ep; cbn [orb]; [rewrite H2 by auto; rewrite !zlen_cons; lia|]. destruct (q w); rewrite ?zlen_cons; lia.
  Qed.
  Lemma leq_correct t a v : tinv t a -> W v -> bt_leq L t 0 v = cnt (fun w => Z.lxor 0 w <=? v) a.
  Proof.
    intros I Hv. unfold bt_leq. rewrite (lt_correct t a) by (auto; unfold word; pose proof (Z.pow_pos_nonneg 2 (Z.of_nat L)); lia). rewrite (count_correct t a) by auto.
    symmetry. apply cnt_or; intros w _; rewrite Z.lxor_0_l; lia.
  Qed.
  Lemma cnt_compl p a : cnt p a + cnt (fun w => negb (p w)) a = zlen a.
  Proof. unfold count_if. rewrite <- (zlen_filter_split p a). lia. Qed.
  Lemma kth_correct t a x mx k : tinv t a -> W x -> 0 <= k < zlen a ->
    exists y, trie_kth mx L t x k 0 = Ok y /\ kth_smallest (map (Z.lxor x) a) (if mx then zlen a - 1 - k else k) y.
  Proof.
    intros (_ & R & F) Hx Hk. apply kth_ok; auto; [unfold word in Hx; lia|]. intros w Hw. pose proof (F w Hw). split; [unfold word in *; lia|].
    apply agree_top; [lia|]. exact H.
  Qed.
  Lemma kth_bt t a x mx k : tinv t a -> W x ->
    (exists y, bt_kth L mx t x k = Ok y /\ 0 <= k < zlen a /\ kth_smallest (map (Z.lxor x) a) (if mx then zlen a - 1 - k else k) y) \/
    (bt_kth L mx t x k = Abort /\ ~ 0 <= k < zlen a).
  Proof.
    intros I Hx. pose proof I as (_ & R & _). unfold bt_kth. rewrite (rep_size _ _ _ R). destruct (Z.leb_spec 0 k); [destruct (Z.ltb_spec k (zlen a))|]; cbn [andb assert_ bind].
    - left. destruct (kth_correct t a x mx k I Hx ltac:(lia)) as (y & E & K). exists y. auto.
    - right. split; auto. lia.
    - right. split; auto. lia.
  Qed.
  Lemma X_word a x w : W x -> (forall w, In w a -> W w) -> In w (map (Z.lxor x) a) -> W w.
  Proof. intros Hx F Hw. apply in_map_iff in Hw. destruct Hw as (u & <- & Hu). apply lxor_word; auto. now apply F. Qed.
  Lemma cnt_map x p (a : list Z) : cnt p (map (Z.lxor x) a) = cnt (fun w => p (Z.lxor x w)) a.
  Proof. unfold count_if. induction a as [|b l IH]; auto. cbn [map filter]. destruct (p (Z.lxor x b)); rewrite ?zlen_cons; lia. Qed.
  Lemma low_ok t a x c d k : tinv t a -> W x -> k = cnt (fun w => Z.lxor x w <? c) a ->
    exists y, (if k - 1 <? 0 then Ok d else trie_kth false L t x (k - 1) 0) = Ok y /\ best_or greatest (fun z => z < c) a x d y.
  Proof.
    intros I Hx ->. pose proof (count_bounds (fun w => Z.lxor x w <? c) a) as B. destruct (Z.ltb_spec (cnt (fun w => Z.lxor x w <? c) a - 1) 0).
    - exists d. split; auto. right. split; auto. intros w Hw. pose proof (count_zero (fun w => Z.lxor x w <? c) a ltac:(lia) w Hw) as Q. cbv beta in Q. lia.
    - destruct (kth_correct t a x false (cnt (fun w => Z.lxor x w <? c) a - 1) I Hx ltac:(lia)) as (y & E & K). exists y. split; auto. left.
      apply kth_greatest. rewrite cnt_map. exact K.
  Qed.
  Lemma high_ok t a x c d k : tinv t a -> W x -> k = cnt (fun w => Z.lxor x w <? c) a ->
    exists y, (if k =? tsize t then Ok d else trie_kth false L t x k 0) = Ok y /\ best_or least (fun z => c <= z) a x d y.
  Proof.
    intros I Hx ->. pose proof I as (_ & R & _). rewrite (rep_size _ _ _ R). pose proof (count_bounds (fun w => Z.lxor x w <? c) a) as B. destruct (Z.eqb_spec (cnt (fun w => Z.lxor x w <? c) a) (zlen a)).
    - exists d. split; auto. right. split; auto. intros w Hw. pose proof (count_full (fun w => Z.lxor x w <? c) a ltac:(lia) w Hw) as Q. cbv beta in Q. lia.
    - destruct (kth_correct t a x false (cnt (fun w => Z.lxor x w <? c) a) I Hx ltac:(lia)) as (y & E & K). exists y. split; auto. left.
      apply kth_least. rewrite cnt_map. exact K.
  Qed.
  Lemma best_impl (best : list Z -> (Z -> Prop) -> Z -> Prop) (P Q : Z -> Prop) a x d y : (forall z, P z <-> Q z) -> best = least \/ best = greatest -> best_or best P a x d y -> best_or best Q a x d y.
  Proof.
    intros H [-> | ->] [B|(E & N)]; try (right; split; auto; intros w Hw; rewrite <- H; auto); left; destruct B as (B1 & B2 & B3); split; auto; (split; [now apply H|]);
      intros z Hz; rewrite <- H; auto.
  Qed.

  Lemma erase_sim t a v num : tinv t a -> W v -> 0 <= num ->
    exists r t' a', bt_erase L t v num = Ok (r, t') /\ r = Z.min (cnt (Z.eqb v) a) num /\ Permutation a (vrep r v ++ a') /\ tinv t' a'.
  Proof.
    intros I Hv Hn. pose proof I as (N & R & F). unfold bt_erase. pose proof (count_bounds (Z.eqb v) a) as B. destruct (Z.eqb_spec num 0) as [->|Q].
    - exists 0, t, a. split; auto. split; [lia|]. split; [reflexivity|auto].
    - destruct (erase_ok v num Hn L t a N R) as (r & t' & E & N' & Er & H').
      { intros w Hw A. rewrite (agr_eq L) in A; auto; [lia|]. now apply F. }
      destruct (take_copies v a r ltac:(lia)) as (a' & P). exists r, t', a'. split; auto. split; auto. split; auto. split; auto. split; [now apply H'|].
      intros w Hw. apply F. rewrite P. apply in_app_iff. now right.
  Qed.

  Lemma bt_sim t a o : bt_call L o -> tinv t a ->
    match bt_step L t o with
    | Ok (r, t') => exists a', bt_spec a o (Ok (r, a')) /\ tinv t' a'
    | Abort => bt_spec a o Abort
    | UB => bt_spec a o UB
    | OutOfFuel => False
    end.
  Proof.
    intros Hc I. pose proof I as (N & R & F). pose proof (rep_size _ _ _ R) as Sz.
    assert (W0 : W 0) by (unfold word; pose proof (Z.pow_pos_nonneg 2 (Z.of_nat L)); lia).
    destruct o; cbn [bt_step bt_call bt_spec] in *; unfold num_of.
    - destruct Hc as (Hv & Hn). unfold bt_insert. destruct (Z.eqb_spec num 0) as [->|Q].
      + exists a. auto.
      + destruct (insert_ok v num Hn L t a R) as (E & R'). pose proof (insert_nonnil L t v num) as N'. destruct (trie_insert L t v num) as (r, t'). cbn [fst snd] in *.
        exists (vrep num v ++ a). split; [split; auto; rewrite E; f_equal; apply cnt_ext; intros w Hw; apply agr_eq; auto; now apply F|]. split; auto. split; auto.
        intros w Hw. apply in_app_iff in Hw. destruct Hw as [Hw|Hw]; [|now apply F]. unfold vrep in Hw. apply repeat_spec in Hw. now subst.
    - destruct Hc as (Hv & Hn). destruct (erase_sim t a v num I Hv Hn) as (r & t' & a' & E & Er & P & I'). rewrite E. cbn [bind]. exists a'. auto.
    - destruct (erase_sim t a v 2147483647 I Hc ltac:(lia)) as (r & t' & a' & E & Er & P & I'). rewrite E. cbn [bind]. exists a'. auto.
    - exists a. auto.
    - exists a. split; auto. split; auto. rewrite Sz. destruct a as [|w a]; [split; auto|]. rewrite zlen_cons. pose proof (zlen_nonneg a). split; [lia|discriminate].
    - destruct Hc. exists a. split; auto. split; auto. now apply prefix_correct.
    - exists a. split; auto. split; auto. now apply count_correct.
    - exists a. split; auto. split; auto. rewrite (count_correct t a) by auto. split.
      + intro H. destruct (filter (Z.eqb v) a) as [|w l] eqn:E; [unfold count_if in H; rewrite E in H; discriminate|].
        assert (In w (filter (Z.eqb v) a)) as Q by (rewrite E; now left). apply filter_In in Q. destruct Q as (Q1 & Q2). apply Z.eqb_eq in Q2. now subst.
      + intro H. destruct (Z.gtb_spec (cnt (Z.eqb v) a) 0); auto. exfalso. pose proof (count_bounds (Z.eqb v) a). pose proof (count_zero (Z.eqb v) a ltac:(lia) v H). lia.
    - destruct (kth_bt t a x false k I Hc) as [(y & E & Hk & K)|(E & Hk)]; rewrite E; cbn [bind]; auto. exists a. auto.
    - destruct (kth_bt t a x true k I Hc) as [(y & E & Hk & K)|(E & Hk)]; rewrite E; cbn [bind]; auto. exists a. split; auto. split; auto. apply kth_rev. now rewrite zlen_map_x.
    - destruct (kth_bt t a x false 0 I Hc) as [(y & E & Hk & K)|(E & Hk)]; rewrite E; cbn [bind].
      + exists a. split; auto. split; auto. assert (Q : least (map (Z.lxor x) a) (fun z => 0 <= z) y).
        { apply kth_least. replace (cnt (fun x0 => x0 <? 0) (map (Z.lxor x) a)) with 0; auto. symmetry. unfold count_if. rewrite filter_none; auto.
          intros z Hz. apply X_word in Hz; auto. unfold word in Hz. lia. }
        destruct Q as (Q1 & _ & Q2). split; auto. split; auto. intros z Hz _. apply Q2; auto. apply X_word in Hz; auto. unfold word in Hz. lia.
      + destruct a; auto. rewrite zlen_cons in Hk. pose proof (zlen_nonneg a). lia.
    - destruct (kth_bt t a x true 0 I Hc) as [(y & E & Hk & K)|(E & Hk)]; rewrite E; cbn [bind].
      + exists a. split; auto. split; auto. assert (Q : greatest (map (Z.lxor x) a) (fun z => z < 2 ^ Z.of_nat L) y).
        { apply kth_greatest. replace (cnt (fun x0 => x0 <? 2 ^ Z.of_nat L) (map (Z.lxor x) a)) with (zlen a); [now rewrite Z.sub_0_r in K|]. symmetry. unfold count_if. rewrite filter_all; [apply zlen_map_x|].
          intros z Hz. apply X_word in Hz; auto. unfold word in Hz. lia. }
        destruct Q as (Q1 & _ & Q2). split; auto. split; auto. intros z Hz _. apply Q2; auto. apply X_word in Hz; auto. unfold word in Hz. lia.
      + destruct a; auto. rewrite zlen_cons in Hk. pose proof (zlen_nonneg a). lia.
    - destruct Hc. exists a. split; auto. split; auto. now apply lt_correct.
    - destruct Hc as (-> & Hv). exists a. split; auto. split; auto. now apply leq_correct.
    - destruct Hc as (-> & Hv). exists a. split; auto. split; auto. unfold bt_gt. rewrite Sz, (leq_correct t a) by auto.
      rewrite <- (cnt_compl (fun w => Z.lxor 0 w <=? v) a). rewrite (cnt_ext (fun w => v <? Z.lxor 0 w) (fun w => negb (Z.lxor 0 w <=? v))); [lia|intros; lia].
    - destruct Hc as (Hx & Hv). exists a. split; auto. split; auto. unfold bt_geq. rewrite Sz, (lt_correct t a) by auto.
      rewrite <- (cnt_compl (fun w => Z.lxor x w <? v) a). rewrite (cnt_ext (fun w => v <=? Z.lxor x w) (fun w => negb (Z.lxor x w <? v))); [lia|intros; lia].
    - destruct Hc as (Hx & Hv). unfold bt_lower, bt_geq. replace (tsize t - (tsize t - bt_lt L t x v) - 1) with (bt_lt L t x v - 1) by lia.
      destruct (low_ok t a x v d _ I Hx (lt_correct t a x v I Hx Hv)) as (y & E & B). cbv zeta. rewrite E. cbn [bind]. exists a. auto.
    - destruct Hc as (-> & Hv). unfold bt_floor, bt_gt. replace (tsize t - (tsize t - bt_leq L t 0 v) - 1) with (bt_leq L t 0 v - 1) by lia.
      destruct (low_ok t a 0 (v + 1) d (bt_leq L t 0 v) I W0) as (y & E & B). { rewrite (leq_correct t a) by auto. apply cnt_ext. intros; lia. }
      cbv zeta. rewrite E. cbn [bind]. exists a. split; auto. split; auto. eapply best_impl; [|auto|exact B]. intro z; cbv beta; lia.
    - destruct Hc as (-> & Hv). unfold bt_higher.
      destruct (high_ok t a 0 (v + 1) d (bt_leq L t 0 v) I W0) as (y & E & B). { rewrite (leq_correct t a) by auto. apply cnt_ext. intros; lia. }
      cbv zeta. rewrite E. cbn [bind]. exists a. split; auto. split; auto. eapply best_impl; [|auto|exact B]. intro z; cbv beta; lia.
    - destruct Hc as (Hx & Hv). unfold bt_ceil. destruct (high_ok t a x v d _ I Hx (lt_correct t a x v I Hx Hv)) as (y & E & B). cbv zeta. rewrite E. cbn [bind]. exists a. auto.
  Qed.
  Lemma tinv_new : tinv bt_new [].
  Proof. split; [discriminate|]. split; [|intros w []]. unfold bt_new. destruct L; cbn; auto using rep_nil. Qed.
  Lemma bt_history ops : Forall (bt_call L) ops -> answers bt_spec [] ops (run (bt_step L) bt_new ops).
  Proof. intro F. eapply (answers_run_if (bt_call L)) with (Inv := tinv); [exact bt_sim|auto|apply tinv_new]. Qed.

  (* max() of a trie holding one word *)
  Lemma bt_max_single v : W v -> bt_max L (Z.of_nat L) (snd (bt_insert L bt_new v 1)) = Ok (2 ^ Z.of_nat L - 1 - v).
  Proof.
    intro Hv. assert (I : tinv (snd (bt_insert L bt_new v 1)) [v]).
    { unfold bt_insert. change (1 =? 0) with false. cbn iota. split; [apply insert_nonnil|]. split; [|intros w [->|[]]; auto].
      destruct tinv_new as (_ & R & _). destruct (insert_ok v 1 ltac:(lia) L bt_new [] R) as (_ & R'). exact R'. }
    assert (Hx : W (2 ^ Z.of_nat L - 1)) by (unfold word; pose proof (Z.pow_pos_nonneg 2 (Z.of_nat L)); lia).
    unfold bt_max. destruct (kth_bt _ _ (2 ^ Z.of_nat L - 1) false 0 I Hx) as [(y & E & _ & K)|(_ & K)]; [|exfalso; apply K; rewrite zlen_cons; change (zlen []) with 0; lia].
    rewrite E. f_equal. cbn [map] in K. assert (Y : y = Z.lxor (2 ^ Z.of_nat L - 1) v).
    { apply (kth_unique [Z.lxor (2 ^ Z.of_nat L - 1) v] 0); auto. apply kth_const; [intros z [->|[]]; auto|]. rewrite zlen_cons. change (zlen []) with 0. lia. }
    rewrite Y. replace (2 ^ Z.of_nat L - 1) with (Z.ones (Z.of_nat L)) by (rewrite Z.ones_equiv; lia).
    assert (Q : Z.land (Z.lxor (Z.ones (Z.of_nat L)) v) v = 0).
    { apply Z.bits_inj'. intros i Hi. rewrite Z.land_spec, Z.lxor_spec, Z.testbit_0_l. destruct (Z.lt_ge_cases i (Z.of_nat L)).
      - rewrite Z.ones_spec_low by lia. now destruct (Z.testbit v i).
      - pose proof (word_bits L v (Z.to_nat i) Hv ltac:(lia)) as B. rewrite tbit_tb, Z2Nat.id in B by lia. rewrite B. apply andb_false_r. }
    apply Z.add_nocarry_lxor in Q. rewrite Z.lxor_assoc, Z.lxor_nilpotent, Z.lxor_0_r in Q. lia.
  Qed.
End H.
