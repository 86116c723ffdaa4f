From Verif Require Import Base BaseLemmas ZMod Seq ListZ RingSum Transform_model Kron_proof.
From Coq Require Import Ring.

Lemma rep_map {T} (v : list T) n g : rep v n g -> v = map g (zrange n).
Proof.
  intros [L H]. pose proof (zlen_nonneg v). apply list_eq; [rewrite zlen_map, zlen_zrange; lia|].
  intros i Hi. rewrite vget_map, vget_zrange by lia. apply H. lia.
Qed.
Lemma map_rep {T} (g : Z -> T) n : 0 <= n -> rep (map g (zrange n)) n g.
Proof. intro H. split; [rewrite zlen_map, zlen_zrange; lia|]. intros i Hi. rewrite vget_map, vget_zrange by lia. reflexivity. Qed.
Lemma rep_eq {T} (v w : list T) n g : rep v n g -> rep w n g -> v = w.
Proof. intros H1 H2. rewrite (rep_map _ _ _ H1). now rewrite (rep_map _ _ _ H2). Qed.

Section Alg.
  Context {T : Type}.
  Variables (r0 r1 : T) (add mul sub : T -> T -> T) (opp : T -> T).
  Hypothesis RT : ring_theory r0 r1 add mul sub opp (@eq T).
  Add Ring R : RT.
  Notation sum := (sum r0 add).
  Variable D : Z.
  Hypothesis HD : 2 <= D.
  Notation kmat := (kmat r1 mul D).
  Definition mmul (B A : Z -> Z -> T) (c c2 : Z) : T := sum 0 D (fun c' => mul (B c c') (A c' c2)).
  Lemma Dp k : 0 < D ^ Z.of_nat k. Proof. apply Z.pow_pos_nonneg; lia. Qed.
  Lemma DS k : D ^ Z.of_nat (S k) = D * D ^ Z.of_nat k. Proof. rewrite Nat2Z.inj_succ, Z.pow_succ_r by lia. reflexivity. Qed.
  Lemma digit k i : 0 <= i < D ^ Z.of_nat (S k) -> 0 <= i / D ^ Z.of_nat k < D /\ 0 <= i mod D ^ Z.of_nat k < D ^ Z.of_nat k.
  Proof.
    rewrite DS. pose proof (Dp k). set (b := D ^ Z.of_nat k) in *. intro Hi. split; [|apply Z.mod_pos_bound; lia].
    split; [apply Z.div_pos; lia|apply Z.div_lt_upper_bound; lia].
  Qed.
  Lemma kmat_ext A B k i j : (forall c d, 0 <= c < D -> 0 <= d < D -> A c d = B c d) -> 0 <= i < D ^ Z.of_nat k -> 0 <= j < D ^ Z.of_nat k ->
    kmat A k i j = kmat B k i j.
  Proof.
    intro H. revert i j. induction k as [|k IH]; intros i j Hi Hj; [reflexivity|]. cbn [Kron_proof.kmat].
    destruct (digit k i Hi), (digit k j Hj). rewrite H, IH; auto.
  Qed.
  Lemma kmat_mul B A k i l : 0 <= i < D ^ Z.of_nat k -> 0 <= l < D ^ Z.of_nat k ->
    sum 0 (D ^ Z.of_nat k) (fun j => mul (kmat B k i j) (kmat A k j l)) = kmat (mmul B A) k i l.
  Proof.
    revert i l. induction k as [|k IH]; intros i l Hi Hl.
    - unfold RingSum.sum. change (span 0 (D ^ Z.of_nat 0)) with [0]. cbn. ring.
    - cbn [Kron_proof.kmat]. destruct (digit k i Hi) as (_ & Hi2). destruct (digit k l Hl) as (_ & Hl2). pose proof (Dp k). rewrite DS. set (b := D ^ Z.of_nat k) in *.
      rewrite (sum_blocks _ _ _ _ _ _ RT) by lia. unfold mmul at 1. rewrite <- (sum_scale_r _ _ _ _ _ _ RT). apply sum_ext. intros c Hc.
      rewrite <- IH by auto. rewrite <- (sum_scale _ _ _ _ _ _ RT). apply sum_ext. intros j Hj.
      destruct (div_uniq (c * b + j) b c j) as (-> & ->); [lia|ring|]. ring.
  Qed.
  Definition delta (s : T) (i j : Z) : T := if i =? j then s else r0.
  Fixpoint rpow (s : T) (k : nat) : T := match k with O => r1 | S k => mul s (rpow s k) end.
  Lemma kmat_delta s k i j : 0 <= i < D ^ Z.of_nat k -> 0 <= j < D ^ Z.of_nat k -> kmat (delta s) k i j = delta (rpow s k) i j.
  Proof.
    revert i j. induction k as [|k IH]; intros i j Hi Hj.
    - change (D ^ Z.of_nat 0) with 1 in *. replace i with 0 by lia. replace j with 0 by lia. reflexivity.
    - cbn [Kron_proof.kmat rpow]. destruct (digit k i Hi), (digit k j Hj). rewrite IH by auto. pose proof (Dp k).
      set (b := D ^ Z.of_nat k) in *. pose proof (Z.div_mod i b ltac:(lia)). pose proof (Z.div_mod j b ltac:(lia)). unfold delta.
      destruct (Z.eqb_spec i j) as [->|Ne].
      + now rewrite !Z.eqb_refl.
      + destruct (Z.eqb_spec (i / b) (j / b)) as [E1|]; [|ring]. destruct (Z.eqb_spec (i mod b) (j mod b)) as [E2|]; [|ring].
        exfalso. apply Ne. rewrite H4, H5. congruence.
  Qed.
  (* a digit-wise operation *)
  Definition digitwise (op OP : Z -> Z -> Z) : Prop := forall k i j, 0 <= i < D ^ Z.of_nat (S k) -> 0 <= j < D ^ Z.of_nat (S k) ->
    OP i j / D ^ Z.of_nat k = op (i / D ^ Z.of_nat k) (j / D ^ Z.of_nat k) /\
    OP i j mod D ^ Z.of_nat k = OP (i mod D ^ Z.of_nat k) (j mod D ^ Z.of_nat k).
  Lemma kmat_char A op OP k s i j : digitwise op OP ->
    (forall s c d, 0 <= s < D -> 0 <= c < D -> 0 <= d < D -> A s (op c d) = mul (A s c) (A s d)) ->
    0 <= s < D ^ Z.of_nat k -> 0 <= i < D ^ Z.of_nat k -> 0 <= j < D ^ Z.of_nat k ->
    kmat A k s (OP i j) = mul (kmat A k s i) (kmat A k s j).
  Proof.
    intros Hop HA. revert s i j. induction k as [|k IH]; intros s i j Hs Hi Hj; [cbn; ring|].
    cbn [Kron_proof.kmat]. destruct (Hop k i j Hi Hj) as (-> & ->). destruct (digit k s Hs), (digit k i Hi), (digit k j Hj).
    rewrite HA, IH by auto. ring.
  Qed.

  Definition unit_for (A : Z -> Z -> T) (u : list T -> res (list T)) : Prop :=
    forall w g, rep w D g -> exists w', u w = Ok w' /\ rep w' D (fun c => sum 0 D (fun c' => mul (A c c') (g c'))).
  Definition kfun A k (g : Z -> T) i := sum 0 (D ^ Z.of_nat k) (fun j => mul (kmat A k i j) (g j)).
  Lemma kron_fun A u k x g : unit_for A u -> rep x (D ^ Z.of_nat k) g -> exists y, kron r0 D u x = Ok y /\ rep y (D ^ Z.of_nat k) (kfun A k g).
  Proof. intros Hu Rx. exact (kron_ok _ _ _ _ _ _ RT D HD A u Hu x k g Rx). Qed.
  Lemma kfun_comp B A k g i : 0 <= i < D ^ Z.of_nat k -> kfun B k (kfun A k g) i = kfun (mmul B A) k g i.
  Proof.
    intro Hi. unfold kfun.
    transitivity (sum 0 (D ^ Z.of_nat k) (fun j => sum 0 (D ^ Z.of_nat k) (fun l => mul (mul (kmat B k i j) (kmat A k j l)) (g l)))).
    - apply sum_ext. intros j Hj. rewrite <- (sum_scale _ _ _ _ _ _ RT). apply sum_ext. intros l Hl. ring.
    - rewrite (sum_swap _ _ _ _ _ _ RT). apply sum_ext. intros l Hl. rewrite (sum_scale_r _ _ _ _ _ _ RT). f_equal. now apply kmat_mul.
  Qed.
  Lemma kfun_ext A B k g h i : (forall c d, 0 <= c < D -> 0 <= d < D -> A c d = B c d) -> (forall j, 0 <= j < D ^ Z.of_nat k -> g j = h j) ->
    0 <= i < D ^ Z.of_nat k -> kfun A k g i = kfun B k h i.
  Proof. intros H1 H2 Hi. apply sum_ext. intros j Hj. rewrite H2 by auto. f_equal. now apply kmat_ext. Qed.
  Lemma kfun_delta s k g i : 0 <= i < D ^ Z.of_nat k -> kfun (delta s) k g i = mul (rpow s k) (g i).
  Proof.
    intro Hi. unfold kfun. rewrite <- (sum_one _ _ _ _ _ _ RT 0 (D ^ Z.of_nat k) i (fun j => mul (rpow s k) (g j)) Hi).
    apply sum_ext. intros j Hj. rewrite kmat_delta by auto. unfold delta. rewrite Z.eqb_sym. destruct (j =? i); ring.
  Qed.
  (* two unit transforms whose matrices multiply to s times the identity *)
  Lemma kron_inverse B A u v k x g s : unit_for A u -> unit_for B v -> (forall c d, 0 <= c < D -> 0 <= d < D -> mmul B A c d = delta s c d) ->
    rep x (D ^ Z.of_nat k) g ->
    exists y z, kron r0 D u x = Ok y /\ kron r0 D v y = Ok z /\ rep z (D ^ Z.of_nat k) (fun i => mul (rpow s k) (g i)).
  Proof.
    intros Hu Hv HI Rx. destruct (kron_fun A u k x g Hu Rx) as (y & E1 & Ry). destruct (kron_fun B v k y _ Hv Ry) as (z & E2 & Rz).
    exists y, z. split; auto. split; auto. eapply rep_ext; [exact Rz|]. intros i Hi. rewrite kfun_comp by auto.
    rewrite (kfun_ext _ (delta s) k g g i) by auto. now apply kfun_delta.
  Qed.
  Lemma rpow_1 k : rpow r1 k = r1. Proof. induction k; cbn; auto. rewrite IHk. ring. Qed.

  (* the convolution for OP *)
  Definition conv (OP : Z -> Z -> Z) n (g h : Z -> T) (k : Z) : T :=
    sum 0 n (fun i => sum 0 n (fun j => if OP i j =? k then mul (g i) (h j) else r0)).
  Lemma conv_char A op OP k g h s : digitwise op OP -> (forall i j, 0 <= i < D ^ Z.of_nat k -> 0 <= j < D ^ Z.of_nat k -> 0 <= OP i j < D ^ Z.of_nat k) ->
    (forall s c d, 0 <= s < D -> 0 <= c < D -> 0 <= d < D -> A s (op c d) = mul (A s c) (A s d)) -> 0 <= s < D ^ Z.of_nat k ->
    kfun A k (conv OP (D ^ Z.of_nat k) g h) s = mul (kfun A k g s) (kfun A k h s).
  Proof.
    intros Hop HO HA Hs. set (n := D ^ Z.of_nat k) in *. unfold kfun. fold n. rewrite (sum_mul _ _ _ _ _ _ RT). unfold conv.
    transitivity (sum 0 n (fun t => sum 0 n (fun i => sum 0 n (fun j => mul (kmat A k s t) (if OP i j =? t then mul (g i) (h j) else r0))))).
    { apply sum_ext. intros t Ht. rewrite <- (sum_scale _ _ _ _ _ _ RT). apply sum_ext. intros i Hi. now rewrite <- (sum_scale _ _ _ _ _ _ RT). }
    rewrite (sum_swap _ _ _ _ _ _ RT). apply sum_ext. intros i Hi. rewrite (sum_swap _ _ _ _ _ _ RT). apply sum_ext. intros j Hj.
    transitivity (sum 0 n (fun t => if t =? OP i j then mul (kmat A k s t) (mul (g i) (h j)) else r0)).
    { apply sum_ext. intros t Ht. rewrite (Z.eqb_sym t). destruct (OP i j =? t); ring. }
    rewrite (sum_one _ _ _ _ _ _ RT) by auto. rewrite (kmat_char A op OP) by auto. ring.
  Qed.
  Lemma pointwise_ok (a b : list T) n g h : rep a n g -> rep b n h -> 0 <= n ->
    exists c, for_ 0 n (fun i a => let* x := vget a i in let* y := vget b i in vset a i (mul x y)) a = Ok c /\ rep c n (fun i => mul (g i) (h i)).
  Proof.
    intros Ra Rb Hn.
    destruct (for_inv (fun i c => rep c n (fun j => if j <? i then mul (g j) (h j) else g j)) 0 n
      (fun i a => let* x := vget a i in let* y := vget b i in vset a i (mul x y)) a) as (c & E & Rc); [lia| | |].
    - eapply rep_ext; [exact Ra|]. intros j Hj. cbn beta. destruct (Z.ltb_spec j 0); auto; lia.
    - intros i c Hi Rc. rewrite (rep_get _ _ _ _ Rc), (rep_get _ _ _ _ Rb) by lia. cbn [bind]. rewrite Z.ltb_irrefl. rewrite (rep_set _ _ _ _ _ Rc) by lia.
      eexists; split; [reflexivity|]. eapply rep_ext; [apply rep_upd; [exact Rc|lia]|]. intros j Hj. unfold fupd.
      destruct (Z.eqb_spec j i) as [E|]; destruct (Z.ltb_spec j i); destruct (Z.ltb_spec j (i + 1)); try rewrite E; auto; lia.
    - exists c. split; auto. eapply rep_ext; [exact Rc|]. intros j Hj. cbn beta. destruct (Z.ltb_spec j n); auto; lia.
  Qed.
  Lemma tconv_ok A B u v op OP k a b g h s : unit_for A u -> unit_for B v -> (forall c d, 0 <= c < D -> 0 <= d < D -> mmul B A c d = delta s c d) ->
    digitwise op OP -> (forall i j, 0 <= i < D ^ Z.of_nat k -> 0 <= j < D ^ Z.of_nat k -> 0 <= OP i j < D ^ Z.of_nat k) ->
    (forall s c d, 0 <= s < D -> 0 <= c < D -> 0 <= d < D -> A s (op c d) = mul (A s c) (A s d)) ->
    rep a (D ^ Z.of_nat k) g -> rep b (D ^ Z.of_nat k) h -> forall (fin : list T -> res (list T)),
    exists c, transform_convolution mul (kron r0 D u) (fun x => let* y := kron r0 D v x in fin y) a b = fin c /\
      rep c (D ^ Z.of_nat k) (fun i => mul (rpow s k) (conv OP (D ^ Z.of_nat k) g h i)).
  Proof.
    intros Hu Hv HI Hop HO HA Ra Rb fin. pose proof (Dp k) as HN. unfold transform_convolution.
    rewrite (rep_len _ _ _ Ra), (rep_len _ _ _ Rb), Z.eqb_refl. cbn [assert_ bind].
    destruct (kron_fun A u k a g Hu Ra) as (ya & E1 & Rya). destruct (kron_fun A u k b h Hu Rb) as (yb & E2 & Ryb).
    rewrite E1, E2. cbn [bind]. destruct (pointwise_ok _ _ _ _ _ Rya Ryb) as (c & E3 & Rc); [lia|]. rewrite E3. cbn [bind].
    destruct (kron_fun B v k c _ Hv Rc) as (z & E4 & Rz). rewrite E4. cbn [bind]. exists z. split; auto.
    eapply rep_ext; [exact Rz|]. intros i Hi.
    rewrite (kfun_ext B B k _ (kfun A k (conv OP (D ^ Z.of_nat k) g h)) i); auto.
    - rewrite kfun_comp by auto. rewrite (kfun_ext _ (delta s) k _ (conv OP (D ^ Z.of_nat k) g h) i) by auto. now apply kfun_delta.
    - intros j Hj. symmetry. now apply conv_char with op.
  Qed.
End Alg.
