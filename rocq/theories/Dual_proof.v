From Verif Require Import Base BaseLemmas ListZ Bits Seq Hist SegTree_model SegTree_proof LazySeg_proof Dual_model Dual_spec.

Lemma zrange_nat (n : nat) : zrange (Z.of_nat n) = map Z.of_nat (seq 0 n).
Proof. unfold zrange. now rewrite Nat2Z.id. Qed.
Lemma vget_combine {X} (v : list X) i x : vget v i = Ok x -> vget (combine (zrange (zlen v)) v) i = Ok (i, x).
Proof.
  intro H. pose proof (vget_range _ _ _ H) as B. unfold vget in *.
  replace (i <? 0) with false in * by lia.
  destruct (nth_error v (Z.to_nat i)) as [y|] eqn:E; [|discriminate]. assert (y = x) by congruence. subst y.
  unfold zlen. rewrite zrange_nat.
  assert (G : forall (w : list X) k j, nth_error w j = Some x -> nth_error (combine (map Z.of_nat (seq k (length w))) w) j = Some (Z.of_nat (k + j), x)).
  { induction w as [|y w IH]; intros k [|j] Hj; cbn in *; try discriminate.
    - injection Hj as ->. now rewrite Nat.add_0_r.
    - rewrite (IH (S k) j Hj). do 3 f_equal. lia. }
  rewrite (G v 0%nat _ E). do 2 f_equal. lia.
Qed.
Lemma zlen_combine {X} (v : list X) : zlen (combine (zrange (zlen v)) v) = zlen v.
Proof. unfold zlen at 1. rewrite combine_length. unfold zlen. rewrite zrange_nat, map_length, seq_length. lia. Qed.
Lemma ctz_pow h : 0 <= h -> ctz (2 ^ h) = h.
Proof. intro H. replace (2 ^ h) with (2 ^ h * (2 * 0 + 1)) by lia. apply ctz_unique; lia. Qed.
Lemma aligned x i : 0 < x -> 0 <= i -> (x / 2 ^ i * 2 ^ i =? x) = (i <=? ctz x).
Proof.
  intros Hx Hi. pose proof (Z.pow_pos_nonneg 2 i ltac:(lia) Hi). pose proof (Z.div_mod x (2 ^ i) ltac:(lia)).
  pose proof (ctz_mod x i Hx Hi). destruct (i <=? ctz x) eqn:B.
  - assert (x mod 2 ^ i = 0) by (apply H1; lia). lia.
  - assert (x mod 2 ^ i <> 0) by (intro Q; apply H1 in Q; lia). lia.
Qed.
Lemma pred_div x i : 0 < x -> 0 <= i -> ctz x < i -> (x - 1) / 2 ^ i = x / 2 ^ i.
Proof.
  intros Hx Hi C. pose proof (Z.pow_pos_nonneg 2 i ltac:(lia) Hi). pose proof (ctz_mod x i Hx Hi) as M.
  assert (x mod 2 ^ i <> 0) by (intro Q; apply M in Q; lia).
  pose proof (Z.div_mod x (2 ^ i) ltac:(lia)). pose proof (Z.mod_pos_bound x (2 ^ i) ltac:(lia)).
  symmetry. apply Z.div_unique with (x mod 2 ^ i - 1); lia.
Qed.

Section DP.
  Context {T F : Type}.
  Variables (mapping : F -> T -> T) (comp : F -> F -> F) (idf : F).
  Hypothesis Act : is_act mapping comp idf.
  Notation dseg := (dseg T F).

  (* A k: what the nodes above k still have to do; u i: what has been done to element i of v *)
  Record DI (S : Z -> Prop) (v : list T) (h : Z) (s : dseg) (z : Z -> F) (A : Z -> T -> T) (u : Z -> T -> T) : Prop := {
    di_n : d_n s = zlen v;
    di_m : d_m s = 2 ^ h;
    di_data : zlen (d_data s) = zlen v;
    di_lazy : rep (d_lazy s) (2 ^ h) z;
    di_A1 : forall x, A 1 x = x;
    di_A : forall k b x, 1 <= k < 2 ^ h -> 0 <= b <= 1 -> A (2 * k + b) x = A k (mapping (z k) x);
    di_leaf : forall i x0, vget v i = Ok x0 -> exists x, vget (d_data s) i = Ok x /\ A (2 ^ h + i) x = u i x0;
    di_S : forall k, S k -> 1 <= k < 2 ^ h /\ (k = 1 \/ S (k / 2)) /\ forall x, mapping (z k) x = x
  }.
  Definition none (k : Z) : Prop := False.
  Definition DJ S v h s u : Prop := exists z A, DI S v h s z A u.

  Lemma DJ_weaken (S S' : Z -> Prop) v h s u u' : DJ S v h s u -> (forall k, S k <-> S' k) ->
    (forall i x, 0 <= i < zlen v -> u i x = u' i x) -> DJ S' v h s u'.
  Proof.
    intros (z & A & [I1 I2 I3 I4 I5 I6 I7 I8]) HS Ha. exists z, A. constructor; auto.
    - intros i x0 Hi. destruct (I7 i x0 Hi) as (x & E & Q). exists x. rewrite <- Ha; auto. apply (vget_range _ _ _ Hi).
    - intros k Sk. apply HS in Sk. destruct (I8 k Sk) as (B & P & Q). split; auto. split; auto.
      destruct P as [P|P]; auto. right. now apply HS.
  Qed.
  Lemma DJ_forget S v h s u : DJ S v h s u -> DJ none v h s u.
  Proof. intros (z & A & [I1 I2 I3 I4 I5 I6 I7 I8]). exists z, A. constructor; auto. intros k []. Qed.

  Section Facts.
    Variables (S : Z -> Prop) (v : list T) (h : Z) (s : dseg) (z : Z -> F) (A : Z -> T -> T) (u : Z -> T -> T).
    Hypothesis Hh : 0 <= h.
    Hypothesis I : DI S v h s z A u.
    Lemma dA_id k : 1 <= k < 2 * 2 ^ h -> k = 1 \/ S (k / 2) -> forall x, A k x = x.
    Proof.
      intros Hk HS. assert (G : forall N k, (Z.to_nat k <= N)%nat -> 1 <= k < 2 * 2 ^ h -> k = 1 \/ S (k / 2) -> forall x, A k x = x).
      { clear k Hk HS. induction N as [|N IH]; intros k HN Hk HS x; [lia|].
        destruct (Z.eq_dec k 1) as [->|N1]; [apply I|].
        destruct HS as [?|HS]; [lia|]. destruct (di_S _ _ _ _ _ _ _ I _ HS) as (B & P & Q).
        replace k with (2 * (k / 2) + k mod 2) by (pose proof (Z.div_mod k 2); lia).
        pose proof (Z.mod_pos_bound k 2 ltac:(lia)).
        rewrite (di_A _ _ _ _ _ _ _ I) by lia. rewrite Q. apply IH; auto; lia. }
      apply (G (Z.to_nat k)); auto.
    Qed.
    Lemma dA_comm f : (forall g x, mapping f (mapping g x) = mapping g (mapping f x)) ->
      forall k, 1 <= k < 2 * 2 ^ h -> forall x, A k (mapping f x) = mapping f (A k x).
    Proof.
      intros HC k Hk. assert (G : forall N k, (Z.to_nat k <= N)%nat -> 1 <= k < 2 * 2 ^ h -> forall x, A k (mapping f x) = mapping f (A k x)).
      { clear k Hk. induction N as [|N IH]; intros k HN Hk x; [lia|].
        destruct (Z.eq_dec k 1) as [->|N1]; [now rewrite !(di_A1 _ _ _ _ _ _ _ I)|].
        replace k with (2 * (k / 2) + k mod 2) by (pose proof (Z.div_mod k 2); lia).
        pose proof (Z.mod_pos_bound k 2 ltac:(lia)).
        rewrite !(di_A _ _ _ _ _ _ _ I) by lia. rewrite <- HC. apply IH; lia. }
      apply (G (Z.to_nat k)); auto.
    Qed.
  End Facts.

  (* the effect of one node application, whatever it means *)
  Lemma node_ok (v : list T) h s z k f : d_n s = zlen v -> d_m s = 2 ^ h -> zlen (d_data s) = zlen v -> rep (d_lazy s) (2 ^ h) z -> 1 <= k ->
    exists s', dual_apply_node mapping comp s k f = Ok s' /\ d_n s' = zlen v /\ d_m s' = 2 ^ h /\ zlen (d_data s') = zlen v /\
      rep (d_lazy s') (2 ^ h) (fupd z k (comp f (z k))) /\
      forall i x, vget (d_data s) i = Ok x -> vget (d_data s') i = Ok (if 2 ^ h + i =? k then mapping f x else x).
  Proof.
    intros E1 E2 E3 E4 Hk. unfold dual_apply_node. rewrite E1, E2. destruct (k <? 2 ^ h) eqn:B.
    - rewrite (rep_get _ _ _ _ E4) by lia. cbn [bind]. rewrite (rep_set _ _ _ _ _ E4) by lia. cbn [bind].
      eexists; split; [reflexivity|]. cbn [d_n d_m d_data d_lazy]. do 3 (split; [assumption || reflexivity|]). split.
      + apply rep_upd; auto; lia.
      + intros i x Hi. pose proof (vget_range _ _ _ Hi). replace (2 ^ h + i =? k) with false by lia. auto.
    - assert (R : rep (d_lazy s) (2 ^ h) (fupd z k (comp f (z k)))).
      { eapply rep_ext; eauto. intros i Hi. rewrite fupd_diff; auto; lia. }
      destruct (k - 2 ^ h <? zlen v) eqn:C.
      + destruct (vget_Ok (d_data s) (k - 2 ^ h) ltac:(lia)) as [x Ex]. rewrite Ex. cbn [bind].
        rewrite vset_ok by lia. cbn [bind]. eexists; split; [reflexivity|]. cbn [d_n d_m d_data d_lazy].
        do 2 (split; [assumption || reflexivity|]). rewrite zlen_zupd. split; auto. split; auto.
        intros i y Hi. rewrite vget_zupd by lia. destruct (k - 2 ^ h =? i) eqn:D.
        * replace (2 ^ h + i =? k) with true by lia. replace (k - 2 ^ h) with i in Ex by lia. congruence.
        * replace (2 ^ h + i =? k) with false by lia. auto.
      + eexists; split; [reflexivity|]. do 3 (split; [assumption|]). split; auto.
        intros i y Hi. pose proof (vget_range _ _ _ Hi). replace (2 ^ h + i =? k) with false by lia. auto.
  Qed.

  Lemma dnode_ok S v h s u k j f z A : 0 <= h -> zlen v <= 2 ^ h -> DI S v h s z A u -> 0 <= j <= h -> 2 ^ (h - j) <= k < 2 * 2 ^ (h - j) ->
    (forall x, A k (mapping f x) = mapping f (A k x)) -> ~ S k ->
    exists s', dual_apply_node mapping comp s k f = Ok s' /\
      DJ S v h s' (fun i x => if (k * 2 ^ j <=? 2 ^ h + i) && (2 ^ h + i <? (k + 1) * 2 ^ j) then mapping f (u i x) else u i x).
  Proof.
    intros Hh Hn I Hj Hk Ak NS. pose proof I as [I1 I2 I3 I4 I5 I6 I7 I8].
    assert (Pk : 1 <= k < 2 * 2 ^ h).
    { pose proof (Z.pow_pos_nonneg 2 (h - j) ltac:(lia) ltac:(lia)). assert (2 ^ (h - j) <= 2 ^ h) by (apply Z.pow_le_mono_r; lia). lia. }
    destruct (node_ok v h s z k f I1 I2 I3 I4 ltac:(lia)) as (s' & E & N1 & N2 & N3 & N4 & N5). rewrite E. eexists; split; [reflexivity|].
    exists (fupd z k (comp f (z k))), (fun q x => if sdesc k q then mapping f (A q x) else A q x). constructor; auto.
    - intro x. replace (sdesc k 1) with false; auto. unfold sdesc. change (Z.log2 1) with 0. pose proof (Z.log2_nonneg k). lia.
    - intros q b x Hq Hb. rewrite sdesc_child by lia. destruct (Z.eq_dec q k) as [->|Nk].
      + rewrite sub_self, sdesc_self, fupd_same. rewrite (a_comp _ _ _ Act). rewrite I6 by lia. now rewrite Ak.
      + rewrite sub_other by auto. rewrite fupd_diff by auto. rewrite I6 by auto. auto.
    - intros i x0 Hi. pose proof (vget_range _ _ _ Hi) as Bi. destruct (I7 i x0 Hi) as (x & Ex & Q). rewrite (N5 _ _ Ex). eexists; split; [reflexivity|].
      rewrite <- (sub_leaf h j k i) by (auto; lia). destruct (Z.eq_dec (2 ^ h + i) k) as [Ek|Nk].
      + rewrite Ek, Z.eqb_refl, sub_self, sdesc_self, Ak, <- Ek, Q. auto.
      + rewrite sub_other by auto. replace (2 ^ h + i =? k) with false by lia. now rewrite Q.
    - intros q Sq. destruct (I8 q Sq) as (B & P & Q). split; auto. split; auto. intro x.
      rewrite fupd_diff; auto. intros ->; auto.
  Qed.

  Lemma dpush_ok S v h s u k : 0 <= h -> DJ S v h s u -> 1 <= k < 2 ^ h -> k = 1 \/ S (k / 2) ->
    exists s', dual_push mapping comp idf s k = Ok s' /\ DJ (fun q => S q \/ q = k) v h s' u.
  Proof.
    intros Hh (z & A & I) Hk HS. pose proof I as [I1 I2 I3 I4 I5 I6 I7 I8].
    unfold dual_push. rewrite (rep_get _ _ _ _ I4) by lia. cbn [bind].
    set (f := z k).
    destruct (node_ok v h s z (2 * k) f I1 I2 I3 I4 ltac:(lia)) as (s1 & E1 & N1 & N2 & N3 & N4 & N5). rewrite E1. cbn [bind].
    rewrite (rep_get _ _ _ _ N4) by lia. cbn [bind]. rewrite fupd_diff by lia. fold f.
    destruct (node_ok v h s1 _ (2 * k + 1) f N1 N2 N3 N4 ltac:(lia)) as (s2 & E2 & O1 & O2 & O3 & O4 & O5). rewrite E2. cbn [bind].
    rewrite (rep_set _ _ _ _ _ O4) by lia. cbn [bind]. eexists; split; [reflexivity|].
    pose proof (rep_upd _ _ _ k idf O4 ltac:(lia)) as R3.
    set (z' := fupd (fupd (fupd z (2 * k) (comp f (z (2 * k)))) (2 * k + 1) (comp f (fupd z (2 * k) (comp f (z (2 * k))) (2 * k + 1)))) k idf) in *.
    assert (Z0 : z' k = idf) by (unfold z'; now rewrite fupd_same).
    assert (Z1 : forall b, 0 <= b <= 1 -> z' (2 * k + b) = comp f (z (2 * k + b))).
    { intros b Hb. unfold z'. rewrite fupd_diff by lia. assert (b = 0 \/ b = 1) as [->| ->] by lia.
      - rewrite Z.add_0_r. rewrite fupd_diff by lia. now rewrite fupd_same.
      - rewrite fupd_same. now rewrite fupd_diff by lia. }
    assert (Z2 : forall q, q <> k -> q <> 2 * k -> q <> 2 * k + 1 -> z' q = z q).
    { intros q Q1 Q2 Q3. unfold z'. now rewrite !fupd_diff by auto. }
    set (A' := fupd (fupd A (2 * k) (A k)) (2 * k + 1) (A k)).
    assert (A1 : forall b, 0 <= b <= 1 -> A' (2 * k + b) = A k).
    { intros b Hb. unfold A'. assert (b = 0 \/ b = 1) as [->| ->] by lia.
      - rewrite Z.add_0_r. rewrite fupd_diff by lia. now rewrite fupd_same.
      - now rewrite fupd_same. }
    assert (A2 : forall q, q <> 2 * k -> q <> 2 * k + 1 -> A' q = A q).
    { intros q Q1 Q2. unfold A'. now rewrite !fupd_diff by auto. }
    exists z', A'. constructor; cbn [d_lazy d_data d_m d_n]; auto.
    - intro x. rewrite A2 by lia. auto.
    - intros q b x Hq Hb. destruct (Z.eq_dec q k) as [->|Nk].
      + rewrite A1 by lia. rewrite Z0, (a_id _ _ _ Act). rewrite A2 by lia. auto.
      + rewrite (A2 (2 * q + b)) by lia. rewrite I6 by auto.
        destruct (Z.eq_dec q (2 * k)) as [->|M1]; [|destruct (Z.eq_dec q (2 * k + 1)) as [->|M2]].
        * pose proof (A1 0 ltac:(lia)) as AA. pose proof (Z1 0 ltac:(lia)) as ZZ. rewrite Z.add_0_r in AA, ZZ. rewrite AA, ZZ.
          rewrite (a_comp _ _ _ Act). rewrite <- (Z.add_0_r (2 * k)) at 1. rewrite I6 by lia. auto.
        * rewrite A1, Z1 by lia. rewrite (a_comp _ _ _ Act). rewrite I6 by lia. auto.
        * rewrite A2, Z2 by lia. auto.
    - intros i x0 Hi. pose proof (vget_range _ _ _ Hi) as Bi. destruct (I7 i x0 Hi) as (x & Ex & Q).
      rewrite (O5 _ _ (N5 _ _ Ex)). eexists; split; [reflexivity|]. rewrite <- Q.
      destruct (Z.eq_dec (2 ^ h + i) (2 * k)) as [M1|M1]; [|destruct (Z.eq_dec (2 ^ h + i) (2 * k + 1)) as [M2|M2]].
      + rewrite M1. replace (2 * k =? 2 * k + 1) with false by lia. rewrite Z.eqb_refl. rewrite <- (Z.add_0_r (2 * k)). rewrite A1, I6 by lia. auto.
      + rewrite M2. replace (2 * k + 1 =? 2 * k) with false by lia. rewrite Z.eqb_refl. rewrite A1, I6 by lia. auto.
      + replace (2 ^ h + i =? 2 * k + 1) with false by lia. replace (2 ^ h + i =? 2 * k) with false by lia. rewrite A2 by auto. auto.
    - intros q [Sq| ->].
      + destruct (I8 q Sq) as (B & P & Q). split; auto. split; [tauto|]. intro x.
        destruct (Z.eq_dec q k) as [->|Nk]; [rewrite Z0; apply Act|].
        destruct (Z.eq_dec (q / 2) k) as [Ek|Nk2].
        * assert (S k) as Sk by (destruct P as [->|P]; [exfalso; change (1 / 2) with 0 in Ek; lia|now rewrite <- Ek]).
          destruct (I8 k Sk) as (_ & _ & Qk).
          pose proof (Z.div_mod q 2 ltac:(lia)) as Dq. pose proof (Z.mod_pos_bound q 2 ltac:(lia)). rewrite Ek in Dq.
          rewrite Dq. rewrite Z1 by lia. rewrite <- Dq. rewrite (a_comp _ _ _ Act). unfold f. now rewrite Qk.
        * assert (q <> 2 * k) by (intro Qe; apply Nk2; rewrite Qe, Z.mul_comm; apply Z.div_mul; lia).
          assert (q <> 2 * k + 1) by (intro Qe; apply Nk2; rewrite Qe; symmetry; apply Z.div_unique with 1; lia).
          rewrite Z2 by auto. auto.
      + split; auto. split; [tauto|]. intro x. rewrite Z0. apply Act.
  Qed.

  Lemma DJ_m S v h s u : DJ S v h s u -> d_m s = 2 ^ h.
  Proof. intros (z & A & I). apply I. Qed.
  Lemma DJ_n S v h s u : DJ S v h s u -> d_n s = zlen v.
  Proof. intros (z & A & I). apply I. Qed.

  (* the ancestors with index >= i of L and of R that are not aligned *)
  Definition above (h L R i q : Z) : Prop := exists j, i < j <= h /\ (ctz L < j /\ q = L / 2 ^ j \/ ctz R < j /\ q = R / 2 ^ j).
  Lemma above_Spair h L R q : above h L R 0 q <-> Spair h L R q.
  Proof.
    unfold above, Spair, path. pose proof (ctz_nonneg L). pose proof (ctz_nonneg R). split.
    - intros (j & Hj & [[C ->]|[C ->]]); [left|right]; exists j; split; auto; lia.
    - intros [(j & Hj & ->)|(j & Hj & ->)]; exists j; (split; [lia|]); [left|right]; split; auto; lia.
  Qed.

  Lemma dpush2_ok v h s u l r : 0 <= h -> DJ none v h s u -> 0 <= l -> l <= r <= 2 ^ h ->
    exists s', dual_push2 mapping comp idf s l r = Ok s' /\ DJ (Spair h (l + 2 ^ h) (r + 2 ^ h)) v h s' u.
  Proof.
    intros Hh I Hl Hr. unfold dual_push2. rewrite (DJ_m _ _ _ _ _ I). pose proof (Z.pow_pos_nonneg 2 h ltac:(lia) Hh).
    unfold ctz_. replace (2 ^ h =? 0) with false by lia. cbn [bind]. cbv zeta. rewrite ctz_pow by auto.
    set (L := l + 2 ^ h) in *. set (R := r + 2 ^ h) in *.
    assert (Half : forall x j, 2 ^ h <= x <= 2 * 2 ^ h -> 0 < j <= h -> ctz x < j ->
      1 <= x / 2 ^ j < 2 ^ h /\ (x / 2 ^ j = 1 \/ (x / 2 ^ j / 2 = x / 2 ^ (j + 1) /\ j + 1 <= h))).
    { intros x j Hx Hj C. assert (x <> 2 * 2 ^ h).
      { intros ->. replace (2 * 2 ^ h) with (2 ^ (h + 1) * (2 * 0 + 1)) in C by (rewrite Z.pow_add_r by lia; change (2 ^ 1) with 2; lia).
        rewrite ctz_unique in C; lia. }
      pose proof (path_range h x j Hh ltac:(lia) ltac:(lia)) as P. pose proof (Z.pow_pos_nonneg 2 (h - j) ltac:(lia) ltac:(lia)).
      assert (2 * 2 ^ (h - j) <= 2 ^ h) by (rewrite <- Z.pow_succ_r by lia; apply Z.pow_le_mono_r; lia).
      split; [lia|]. destruct (Z.eq_dec j h) as [->|Nj].
      - left. apply path_top; auto; lia.
      - right. split; [apply div_S; lia|lia]. }
    destruct (ford_inv (fun i s' => DJ (above h L R i) v h s' u) h 0 (push_body mapping comp idf L R) s) as (s' & E & I').
    - lia.
    - eapply DJ_weaken; eauto. intro q. unfold above, none. split; [tauto|]. intros (j & Hj & _). lia.
    - intros i s' Hi I'. unfold push_body. rewrite !aligned by lia.
      assert (X1 : exists s1, (if negb (i <=? ctz L) then dual_push mapping comp idf s' (L / 2 ^ i) else Ok s') = Ok s1 /\
        DJ (fun q => above h L R i q \/ (ctz L < i /\ q = L / 2 ^ i)) v h s1 u).
      { destruct (i <=? ctz L) eqn:B; cbn [negb].
        - exists s'. split; auto. eapply DJ_weaken; eauto. intro q. split; [tauto|]. intros [?|[? _]]; auto; lia.
        - destruct (Half L i ltac:(lia) ltac:(lia) ltac:(lia)) as [H1 H2].
          destruct (dpush_ok _ v h s' u (L / 2 ^ i) Hh I' H1) as (s1 & E1 & J1).
          + destruct H2 as [H2|[H2 H3]]; auto. right. rewrite H2. exists (i + 1). split; [lia|]. left. split; auto. lia.
          + exists s1. split; auto. eapply DJ_weaken; eauto. intro q. split; [intros [?| ->]; auto; right; split; auto; lia|].
            intros [?|[_ ->]]; auto. }
      destruct X1 as (s1 & E1 & J1). rewrite E1. cbn [bind].
      assert (X2 : exists s2, (if negb (i <=? ctz R) then dual_push mapping comp idf s1 ((R - 1) / 2 ^ i) else Ok s1) = Ok s2 /\
        DJ (fun q => (above h L R i q \/ (ctz L < i /\ q = L / 2 ^ i)) \/ (ctz R < i /\ q = R / 2 ^ i)) v h s2 u).
      { destruct (i <=? ctz R) eqn:B; cbn [negb].
        - exists s1. split; auto. eapply DJ_weaken; eauto. intro q. split; [tauto|]. intros [?|[? _]]; auto; lia.
        - destruct (Half R i ltac:(lia) ltac:(lia) ltac:(lia)) as [H1 H2]. rewrite pred_div by lia.
          destruct (dpush_ok _ v h s1 u (R / 2 ^ i) Hh J1 H1) as (s2 & E2 & J2).
          + destruct H2 as [H2|[H2 H3]]; auto. right. left. rewrite H2. exists (i + 1). split; [lia|]. right. split; auto. lia.
          + exists s2. split; auto. eapply DJ_weaken; eauto. intro q. split; [intros [?| ->]; auto; right; split; auto; lia|].
            intros [?|[_ ->]]; auto. }
      destruct X2 as (s2 & E2 & J2). exists s2. split; auto. eapply DJ_weaken; eauto. intro q. unfold above. split.
      + intros [[(j & Hj & Q)|Q]|Q]; [exists j|exists i|exists i]; (split; [lia|]); tauto.
      + intros (j & Hj & Q). destruct (Z.eq_dec j i) as [->|]; [tauto|]. left. left. exists j. split; auto. lia.
    - rewrite E. exists s'. split; auto. eapply DJ_weaken; eauto. intro q. apply above_Spair.
  Qed.

  (* one walk: at every visited node the pending work above commutes with f *)
  Lemma dwalk_ok (S : Z -> Prop) v h s u l r f : 0 <= h -> zlen v <= 2 ^ h -> DJ S v h s u -> 0 <= l -> l <= r <= 2 ^ h ->
    (forall j k s' u' z A, 0 <= j <= h -> 2 ^ (h - j) <= k < 2 * 2 ^ (h - j) -> DI S v h s' z A u' ->
      ((k = 1 \/ Spair h (l + 2 ^ h) (r + 2 ^ h) (k / 2)) /\ ~ Spair h (l + 2 ^ h) (r + 2 ^ h) k) ->
      (forall x, A k (mapping f x) = mapping f (A k x)) /\ ~ S k) ->
    exists s', dual_walk mapping comp s (l + 2 ^ h) (r + 2 ^ h) f = Ok s' /\
      DJ S v h s' (fun i x => if (l <=? i) && (i <? r) then mapping f (u i x) else u i x).
  Proof.
    intros Hh Hn I Hl Hr HC. pose proof (Z.pow_pos_nonneg 2 h ltac:(lia) Hh). set (L := l + 2 ^ h) in *. set (R := r + 2 ^ h) in *.
    unfold dual_walk.
    set (up := fun l2 r2 w i x => if ((L <=? 2 ^ h + i) && (2 ^ h + i <? l2 * w)) || ((r2 * w <=? 2 ^ h + i) && (2 ^ h + i <? R)) then mapping f (u i x) else u i x).
    match goal with |- context [loop ?fu ?bo ?st] =>
      destruct (loop_inv (fun '(l2, r2, s') => exists j, 0 <= j /\ l2 = cdiv L j /\ r2 = R / 2 ^ j /\ (0 < j -> l2 <= r2) /\ DJ S v h s' (up l2 r2 (2 ^ j)))
        (fun '(l2, r2, _) => Z.to_nat r2) (fun s' => DJ S v h s' (fun i x => if (l <=? i) && (i <? r) then mapping f (u i x) else u i x)) bo fu st) as (s' & E & I')
    end.
    - exists 0. rewrite cdiv_0, Z.pow_0_r, Z.div_1_r. repeat split; try lia. eapply DJ_weaken; eauto; [tauto|].
      intros i x Hi. unfold up. replace (_ || _) with false by lia. auto.
    - lia.
    - intros [[l2 r2] s'] (j & Hj & -> & -> & Hlr & I'). set (l2 := cdiv L j) in *. set (r2 := R / 2 ^ j) in *.
      pose proof (Z.pow_pos_nonneg 2 j ltac:(lia) Hj) as Pw.
      pose proof (cdiv_bound L j Hj) as BL. pose proof (div_bound R j Hj) as BR. fold l2 in BL. fold r2 in BR.
      destruct (l2 <? r2) eqn:B.
      + destruct (decomp h L R j Hh ltac:(lia) ltac:(lia) Hj ltac:(fold l2 r2; lia)) as (Hjh & Bl & Br & Pl & Pr). fold l2 r2 in Bl, Br, Pl, Pr.
        set (w := 2 ^ j) in *.
        assert (X1 : exists s1, (if Z.odd l2 then let* s := dual_apply_node mapping comp s' l2 f in Ok (l2 + 1, s) else Ok (l2, s')) = Ok (2 * ((l2 + 1) / 2), s1) /\
          DJ S v h s1 (up (2 * ((l2 + 1) / 2)) r2 w)).
        { destruct (Z.odd l2) eqn:Ol.
          - destruct I' as (z' & A' & I'). destruct (HC j l2 s' _ z' A' ltac:(lia) ltac:(lia) I' (Pl eq_refl)) as [P1 P2].
            destruct (dnode_ok S v h s' _ l2 j f z' A' Hh Hn I' ltac:(lia) ltac:(lia) P1 P2) as (s1 & E1 & I1).
            rewrite E1; cbn [bind]. pose proof (odd_div _ Ol). replace (2 * ((l2 + 1) / 2)) with (l2 + 1) by lia.
            exists s1. split; auto. eapply DJ_weaken; eauto; [tauto|]. cbn. fold w. intros i x Hi. unfold up.
            assert ((l2 + 1) * w <= r2 * w) by (apply Z.mul_le_mono_nonneg_r; lia).
            replace ((l2 + 1) * w) with (l2 * w + w) in * by lia.
            destruct (l2 * w <=? 2 ^ h + i) eqn:U1; destruct (2 ^ h + i <? l2 * w + w) eqn:U2; cbn [andb].
            + replace (((L <=? 2 ^ h + i) && (2 ^ h + i <? l2 * w)) || ((r2 * w <=? 2 ^ h + i) && (2 ^ h + i <? R))) with false by lia.
              replace (((L <=? 2 ^ h + i) && (true)) || ((r2 * w <=? 2 ^ h + i) && (2 ^ h + i <? R))) with true by lia. auto.
            + apply if_eq. lia.
            + apply if_eq. lia.
            + exfalso; lia.
          - pose proof (even_div _ Ol). replace (2 * ((l2 + 1) / 2)) with l2 by lia. eauto. }
        destruct X1 as (s1 & E1 & I1). rewrite E1; cbn [bind]. clear E1.
        assert (Lr : 2 * ((l2 + 1) / 2) <= 2 * (r2 / 2)).
        { destruct (Z.odd l2) eqn:Ol; [pose proof (odd_div _ Ol)|pose proof (even_div _ Ol)]; lia. }
        set (l3 := 2 * ((l2 + 1) / 2)) in *.
        assert (X2 : exists s2, (if Z.odd r2 then let* s := dual_apply_node mapping comp s1 (r2 - 1) f in Ok (r2 - 1, s) else Ok (r2, s1)) = Ok (2 * (r2 / 2), s2) /\
          DJ S v h s2 (up l3 (2 * (r2 / 2)) w)).
        { destruct (Z.odd r2) eqn:Or.
          - destruct I1 as (z' & A' & I1). destruct (HC j (r2 - 1) s1 _ z' A' ltac:(lia) ltac:(lia) I1 (Pr eq_refl)) as [P1 P2].
            destruct (dnode_ok S v h s1 _ (r2 - 1) j f z' A' Hh Hn I1 ltac:(lia) ltac:(lia) P1 P2) as (s2 & E2 & I2).
            rewrite E2; cbn [bind]. pose proof (odd_div _ Or). replace (2 * (r2 / 2)) with (r2 - 1) in * by lia.
            exists s2. split; auto. eapply DJ_weaken; eauto; [tauto|]. cbn. fold w. intros i x Hi. unfold up.
            assert (l3 * w <= (r2 - 1) * w) by (apply Z.mul_le_mono_nonneg_r; lia).
            replace ((r2 - 1 + 1) * w) with (r2 * w) in * by lia. replace ((r2 - 1) * w) with (r2 * w - w) in * by lia.
            destruct (r2 * w - w <=? 2 ^ h + i) eqn:U1; destruct (2 ^ h + i <? r2 * w) eqn:U2; cbn [andb].
            + replace (((L <=? 2 ^ h + i) && (2 ^ h + i <? l3 * w)) || ((r2 * w <=? 2 ^ h + i) && (2 ^ h + i <? R))) with false by lia.
              replace (((L <=? 2 ^ h + i) && (2 ^ h + i <? l3 * w)) || (2 ^ h + i <? R)) with true by lia. auto.
            + apply if_eq. lia.
            + apply if_eq. lia.
            + exfalso; lia.
          - pose proof (even_div _ Or). replace (2 * (r2 / 2)) with r2 by lia. eauto. }
        destruct X2 as (s2 & E2 & I2). rewrite E2; cbn [bind]. clear E2.
        eexists; split; [reflexivity|]. cbn. unfold l3 in *. rewrite !(Z.mul_comm 2), !Z.div_mul by lia.
        pose proof (cdiv_pos L j Hj ltac:(lia)) as Pl2. fold l2 in Pl2. split; [|lia].
        exists (j + 1). split; [lia|]. split; [now apply cdiv_S|]. split; [now apply div_S|]. split; [lia|].
        rewrite Z.pow_add_r by lia. change (2 ^ 1) with 2. fold w.
        eapply DJ_weaken; eauto; [tauto|]. intros i x Hi. unfold up. rewrite !(Z.mul_comm 2), <- !Z.mul_assoc, !(Z.mul_comm 2). auto.
      + eexists; split; [reflexivity|]. cbn. eapply DJ_weaken; eauto; [tauto|]. intros i x Hi. unfold up.
        destruct (Z.eq_dec j 0) as [->|Nj].
        * rewrite Z.pow_0_r in *. assert (l2 = L) by (unfold l2; apply cdiv_0). assert (r2 = R) by (unfold r2; rewrite Z.pow_0_r; apply Z.div_1_r).
          apply if_eq. lia.
        * assert (Elr : l2 = r2) by lia. rewrite <- Elr in *. set (w := 2 ^ j) in *. apply if_eq. lia.
    - rewrite E. exists s'. auto.
  Qed.

  (* ---- against the plain vector -------------------------------------------- *)
  Definition DS (s : dseg) (v : list T) : Prop := exists h, 0 <= h /\ zlen v <= 2 ^ h /\ DJ none v h s (fun _ x => x).

  Lemma vget_apply_range l r f v i x : vget v i = Ok x ->
    vget (apply_range mapping l r f v) i = Ok (if (l <=? i) && (i <? r) then mapping f x else x).
  Proof. intro H. unfold apply_range. rewrite vget_map. rewrite (vget_combine _ _ _ H). reflexivity. Qed.
  Lemma zlen_apply_range l r f v : zlen (apply_range mapping l r f v) = zlen v.
  Proof. unfold apply_range. rewrite zlen_map. apply zlen_combine. Qed.
  Lemma apply_range_nil l r f v : r <= l -> apply_range mapping l r f v = v.
  Proof.
    intro H. apply list_eq; [apply zlen_apply_range|]. intros i Hi. rewrite zlen_apply_range in Hi.
    destruct (vget_Ok v i ltac:(lia)) as [x Ex]. rewrite (vget_apply_range _ _ _ _ _ _ Ex), Ex. replace ((l <=? i) && (i <? r)) with false by lia. auto.
  Qed.
  Lemma rebase v h s l r f : DJ none v h s (fun i x => if (l <=? i) && (i <? r) then mapping f x else x) ->
    DJ none (apply_range mapping l r f v) h s (fun _ x => x).
  Proof.
    intros (z & A & [I1 I2 I3 I4 I5 I6 I7 I8]). exists z, A. constructor; auto; try (rewrite zlen_apply_range; auto).
    intros i x0 Hi. pose proof (vget_range _ _ _ Hi) as B. rewrite zlen_apply_range in B. destruct (vget_Ok v i ltac:(lia)) as [y Ey].
    rewrite (vget_apply_range _ _ _ _ _ _ Ey) in Hi. injection Hi as <-. destruct (I7 i y Ey) as (x & Ex & Q). eauto.
  Qed.

  Lemma dual_apply_ok s v l r f : DS s v -> 0 <= l <= r -> r <= zlen v ->
    exists s', dual_apply mapping comp idf s l r f = Ok s' /\ DS s' (apply_range mapping l r f v).
  Proof.
    intros (h & Hh & Hn & I) Hl Hr. unfold dual_apply.
    destruct (dpush2_ok v h s _ l r Hh I ltac:(lia) ltac:(lia)) as (s1 & E1 & I1). rewrite E1. cbn [bind].
    unfold cdual_apply. rewrite (DJ_n _ _ _ _ _ I1), (DJ_m _ _ _ _ _ I1). replace ((0 <=? l) && (r <=? zlen v)) with true by lia. cbn [assert_ bind].
    destruct (dwalk_ok _ v h s1 _ l r f Hh Hn I1 ltac:(lia) ltac:(lia)) as (s2 & E2 & I2).
    - intros j k s' u' z A Hj Hk J [P1 P2]. split; auto.
      assert (Pk : 1 <= k < 2 * 2 ^ h).
      { pose proof (Z.pow_pos_nonneg 2 (h - j) ltac:(lia) ltac:(lia)). assert (2 ^ (h - j) <= 2 ^ h) by (apply Z.pow_le_mono_r; lia). lia. }
      intro x. rewrite !(dA_id _ _ _ _ _ _ _ Hh J k Pk P1). auto.
    - exists s2. split; auto. exists h. rewrite zlen_apply_range. split; auto. split; auto. apply rebase. now apply DJ_forget in I2.
  Qed.
  Lemma cdual_apply_ok s v l r f : (forall f g x, mapping f (mapping g x) = mapping g (mapping f x)) -> DS s v -> 0 <= l -> r <= zlen v ->
    exists s', cdual_apply mapping comp s l r f = Ok s' /\ DS s' (apply_range mapping l r f v).
  Proof.
    intros HC (h & Hh & Hn & I) Hl Hr. unfold cdual_apply. rewrite (DJ_n _ _ _ _ _ I), (DJ_m _ _ _ _ _ I).
    replace ((0 <=? l) && (r <=? zlen v)) with true by lia. cbn [assert_ bind].
    destruct (Z.le_gt_cases l r) as [B|B].
    - destruct (dwalk_ok _ v h s _ l r f Hh Hn I ltac:(lia) ltac:(lia)) as (s2 & E2 & I2).
      + intros j k s' u' z A Hj Hk J _. split; [|intros []].
        assert (Pk : 1 <= k < 2 * 2 ^ h).
        { pose proof (Z.pow_pos_nonneg 2 (h - j) ltac:(lia) ltac:(lia)). assert (2 ^ (h - j) <= 2 ^ h) by (apply Z.pow_le_mono_r; lia). lia. }
        apply (dA_comm _ _ _ _ _ _ _ Hh J); auto.
      + exists s2. split; auto. exists h. rewrite zlen_apply_range. split; auto. split; auto. now apply rebase.
    - rewrite apply_range_nil by lia. unfold dual_walk. cbn [loop]. replace (l + 2 ^ h <? r + 2 ^ h) with false by lia.
      exists s. split; auto. exists h. auto.
  Qed.

  Lemma dual_get_ok s v i x : DS s v -> vget v i = Ok x -> dual_get mapping s i = Ok x.
  Proof.
    intros (h & Hh & Hn & (z & A & I)) Hx. pose proof (vget_range _ _ _ Hx) as B. pose proof I as [I1 I2 I3 I4 I5 I6 I7 I8].
    unfold dual_get. rewrite I1, I2. replace ((0 <=? i) && (i <? zlen v)) with true by lia. cbn [assert_ bind].
    destruct (I7 i x Hx) as (y & Ey & Q). rewrite Ey. cbn [bind]. pose proof (Z.pow_pos_nonneg 2 h ltac:(lia) Hh).
    match goal with |- context [loop ?fu ?bo ?st] =>
      destruct (loop_inv (fun '(k, y) => 0 <= k < 2 ^ h /\ (k = 0 -> y = x) /\ (1 <= k -> A k (mapping (z k) y) = x))
        (fun '(k, _) => Z.to_nat k) (fun y => y = x) bo fu st) as (y' & E & ->)
    end.
    - split; [split; [apply Z.div_pos; lia|apply Z.div_lt_upper_bound; lia]|].
      pose proof (Z.div_mod (i + 2 ^ h) 2 ltac:(lia)) as D. pose proof (Z.mod_pos_bound (i + 2 ^ h) 2 ltac:(lia)).
      split.
      + intro K. rewrite Z.add_comm in Q. replace (i + 2 ^ h) with 1 in Q by lia. now rewrite I5 in Q.
      + intro K. rewrite Z.add_comm in Q. rewrite D in Q. rewrite I6 in Q by lia. auto.
    - assert ((i + 2 ^ h) / 2 <= i + 2 ^ h) by (apply Z.div_le_upper_bound; lia). lia.
    - intros [k y'] (Bk & K0 & K1). destruct (k =? 0) eqn:C.
      + eexists; split; [reflexivity|]. apply K0. lia.
      + rewrite (rep_get _ _ _ _ I4) by lia. cbn [bind]. eexists; split; [reflexivity|]. cbn.
        pose proof (Z.div_mod k 2 ltac:(lia)) as D. pose proof (Z.mod_pos_bound k 2 ltac:(lia)). split; [|lia].
        split; [lia|]. specialize (K1 ltac:(lia)). split.
        * intro. replace k with 1 in * by lia. now rewrite I5 in K1.
        * intro. rewrite D in K1 at 1. rewrite I6 in K1 by lia. auto.
    - exact E.
  Qed.
  Lemma dual_get_out s v i : DS s v -> ~ 0 <= i < zlen v -> dual_get mapping s i = Abort.
  Proof.
    intros (h & Hh & Hn & I) B. unfold dual_get. rewrite (DJ_n _ _ _ _ _ I). replace ((0 <=? i) && (i <? zlen v)) with false by lia. auto.
  Qed.
  Lemma dual_of_ok v : exists s, dual_of idf v = Ok s /\ DS s v.
  Proof.
    unfold dual_of. destruct (ceil_pow2_ok (zlen v)) as (h & Hh & E & Hn). rewrite E. cbn [bind]. eexists; split; [reflexivity|].
    exists h. split; auto. split; auto. pose proof (Z.pow_pos_nonneg 2 h ltac:(lia) Hh).
    exists (fun _ => idf), (fun _ x => x). constructor; cbn [d_n d_m d_data d_lazy]; auto.
    - apply rep_vrep. lia.
    - intros. now rewrite (a_id _ _ _ Act).
    - eauto.
    - intros k [].
  Qed.

  Lemma dget_sim s v i : DS s v ->
    match dget v i with
    | Ok (r, a') => exists s', (let* x := dual_get mapping s i in Ok (DuVal x, s)) = Ok (r, s') /\ DS s' a'
    | Abort => (let* x := dual_get mapping s i in Ok (DuVal x, s)) = Abort
    | OutOfFuel => False
    | UB => True
    end.
  Proof.
    intro I. unfold dget. destruct ((0 <=? i) && (i <? zlen v)) eqn:B.
    - destruct (vget_Ok v i ltac:(lia)) as [x Ex]. rewrite Ex. cbn [bind]. rewrite (dual_get_ok _ _ _ _ I Ex). cbn [bind]. eauto.
    - rewrite (dual_get_out _ _ _ I) by lia. reflexivity.
  Qed.
  Lemma dual_history_ v ops : snd (run (duspec mapping) v ops) <> UB ->
    exists s, dual_of idf v = Ok s /\ run (dustep mapping comp idf) s ops = run (duspec mapping) v ops.
  Proof.
    intro H. destruct (dual_of_ok v) as (s & E & I). exists s. split; auto.
    apply (run_sim _ _ DS); auto. clear - Act. intros s v [l r f|i] I; cbn [duspec dustep].
    - destruct ((0 <=? l) && (l <=? r) && (r <=? zlen v)) eqn:B; auto.
      destruct (dual_apply_ok s v l r f I ltac:(lia) ltac:(lia)) as (s' & E & I'). rewrite E. cbn [bind]. eauto.
    - now apply dget_sim.
  Qed.
  Lemma cdual_history_ v ops : (forall f g x, mapping f (mapping g x) = mapping g (mapping f x)) ->
    exists s, dual_of idf v = Ok s /\ run (cdustep mapping comp) s ops = run (cduspec mapping) v ops.
  Proof.
    intro HC. destruct (dual_of_ok v) as (s & E & I). exists s. split; auto.
    apply (run_sim _ _ DS); auto.
    - clear s E I v ops. intros s v [l r f|i] I; cbn [cduspec cdustep].
      + destruct ((0 <=? l) && (r <=? zlen v)) eqn:B.
        * destruct (cdual_apply_ok s v l r f HC I ltac:(lia) ltac:(lia)) as (s' & E & I'). rewrite E. cbn [bind]. eauto.
        * destruct I as (h & Hh & Hn & I). unfold cdual_apply. rewrite (DJ_n _ _ _ _ _ I), B. reflexivity.
      + now apply dget_sim.
    - clear. revert v. induction ops as [|o ops IH]; intros v; cbn; [discriminate|].
      assert (X : (exists rr, cduspec mapping v o = Ok rr) \/ cduspec mapping v o = Abort).
      { destruct o as [l r f|i]; cbn [cduspec].
        - destruct ((0 <=? l) && (r <=? zlen v)); eauto.
        - unfold dget. destruct ((0 <=? i) && (i <? zlen v)) eqn:B; auto. destruct (vget_Ok v i ltac:(lia)) as [x Ex]. rewrite Ex. cbn [bind]. eauto. }
      destruct X as [[[r v'] E]|E]; rewrite E; [|discriminate]. specialize (IH v'). destruct (run (cduspec mapping) v' ops). auto.
  Qed.
End DP.
