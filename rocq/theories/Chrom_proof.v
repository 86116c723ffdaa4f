From Verif Require Import Base BaseLemmas ZMod Seq Bits RingSum Transform_spec Transform_proof SubConv_proof Chrom_spec Chrom_model.
From Coq Require Import InitialRing Permutation.
Notation S_ := (RingSum.sum 0 Z.add).
Definition zsum_ext := @sum_ext Z 0 Z.add.
Lemma zsum_swap a b c d f : S_ a b (fun i => S_ c d (f i)) = S_ c d (fun j => S_ a b (fun i => f i j)). Proof. exact (sum_swap _ _ _ _ _ _ Zth a b c d f). Qed.
Lemma zsum_add a b f g : S_ a b (fun i => f i + g i) = S_ a b f + S_ a b g. Proof. exact (sum_add _ _ _ _ _ _ Zth a b f g). Qed.
Lemma zsum_scale a b c f : S_ a b (fun i => c * f i) = c * S_ a b f. Proof. exact (sum_scale _ _ _ _ _ _ Zth a b c f). Qed.
Lemma zsum_zero a b f : (forall i, a <= i < b -> f i = 0) -> S_ a b f = 0. Proof. exact (sum_zero _ _ _ _ _ _ Zth a b f). Qed.
Lemma zsum_one a b k f : a <= k < b -> S_ a b (fun i => if i =? k then f i else 0) = f k. Proof. exact (sum_one _ _ _ _ _ _ Zth a b k f). Qed.
Lemma zsum_if lo hi (b : bool) f : (if b then S_ lo hi f else 0) = S_ lo hi (fun i => if b then f i else 0). Proof. destruct b; auto. symmetry. now apply zsum_zero. Qed.
Lemma zsum_nonneg a b f : (forall i, a <= i < b -> 0 <= f i) -> 0 <= S_ a b f.
Proof.
  intro H. unfold RingSum.sum. assert (X : forall i, In i (span a b) -> 0 <= f i) by (intros i Hi; apply H, span_in, Hi). revert X. generalize (span a b).
  induction l as [|x l IH]; intro X; cbn; [lia|]. specialize (IH (fun i Hi => X i (or_intror Hi))). specialize (X x (or_introl eq_refl)). lia.
Qed.
Lemma zsum_pos a b f : (forall i, a <= i < b -> 0 <= f i) -> (0 < S_ a b f <-> exists i, a <= i < b /\ 0 < f i).
Proof.
  intro H. assert (E : (exists i, a <= i < b /\ 0 < f i) <-> exists i, In i (span a b) /\ 0 < f i) by (split; intros (i & Hi & P); exists i; (split; [now apply span_in|auto])).
  rewrite E. clear E. unfold RingSum.sum. assert (X : forall i, In i (span a b) -> 0 <= f i) by (intros i Hi; apply H, span_in, Hi). revert X. generalize (span a b).
  induction l as [|x l IH]; intro X; cbn [lsum].
  - split; [lia|]. intros (i & [] & _).
  - specialize (IH (fun i Hi => X i (or_intror Hi))). pose proof (X x (or_introl eq_refl)). split.
    + intro P. destruct (Z.eq_dec (f x) 0) as [E|]; [|exists x; split; [now left|lia]]. rewrite E in P. destruct IH as [IH _]. destruct (IH ltac:(lia)) as (i & Hi & Q). exists i. split; auto. now right.
    + intros (i & [->|Hi] & P).
      * assert (0 <= lsum 0 Z.add l f); [|lia]. clear IH. assert (Y : forall i, In i l -> 0 <= f i) by (intros j Hj; apply X; now right). revert Y. clear. induction l as [|y l IH]; intro Y; cbn; [lia|].
        specialize (IH (fun i Hi => Y i (or_intror Hi))). specialize (Y y (or_introl eq_refl)). lia.
      * assert (0 < lsum 0 Z.add l f) by (apply IH; eauto). lia.
Qed.
Lemma lxor_range n a b : 0 <= n -> 0 <= a < 2 ^ n -> 0 <= b < 2 ^ n -> 0 <= Z.lxor a b < 2 ^ n.
Proof. intros Hn. apply (range_bits xorb Z.lxor lxor_bits eq_refl eq_refl); auto. intros x y Hx Hy. apply Z.lxor_nonneg. lia. Qed.
Lemma lor_range' n a b : 0 <= n -> 0 <= a < 2 ^ n -> 0 <= b < 2 ^ n -> 0 <= Z.lor a b < 2 ^ n.
Proof. intros Hn. apply (range_bits orb Z.lor lor_bits eq_refl eq_refl); auto. intros x y Hx Hy. apply Z.lor_nonneg. lia. Qed.
Lemma lxor_invol a b : Z.lxor (Z.lxor a b) b = a. Proof. now rewrite Z.lxor_assoc, Z.lxor_nilpotent, Z.lxor_0_r. Qed.
(* flipping a fixed set of bits permutes the masks *)
Lemma sum_xor n b f : 0 <= n -> 0 <= b < 2 ^ n -> S_ 0 (2 ^ n) f = S_ 0 (2 ^ n) (fun s => f (Z.lxor s b)).
Proof.
  intros Hn Hb. unfold RingSum.sum. rewrite <- (lsum_map 0 Z.add (span 0 (2 ^ n)) (fun s => Z.lxor s b) f). apply (lsum_perm _ _ _ _ _ _ Zth).
  apply NoDup_Permutation; [apply span_nodup| |].
  - apply FinFun.Injective_map_NoDup; [|apply span_nodup]. intros x y E. apply (f_equal (fun z => Z.lxor z b)) in E. now rewrite !lxor_invol in E.
  - intro x. rewrite in_map_iff, span_in. split.
    + intro Hx. exists (Z.lxor x b). split; [apply lxor_invol|]. apply span_in. now apply lxor_range.
    + intros (y & <- & Hy). apply span_in in Hy. now apply lxor_range.
Qed.
(* popcounts *)
Lemma pop_pow b : 0 <= b -> popcount (2 ^ b) = 1.
Proof. intro H. replace (2 ^ b) with (1 * 2 ^ b + 0) by lia. rewrite pop_digit by (pose proof (Z.pow_pos_nonneg 2 b); lia). reflexivity. Qed.
Lemma testbit_pow b m : 0 <= b -> 0 <= m -> Z.testbit (2 ^ b) m = (m =? b).
Proof. intros Hb Hm. rewrite Z.pow2_bits_eqb by lia. apply Z.eqb_sym. Qed.
Lemma add_bit s b : 0 <= s -> 0 <= b -> Z.testbit s b = false -> popcount (Z.lxor s (2 ^ b)) = popcount s + 1.
Proof.
  intros Hs Hb H. assert (L : Z.land s (2 ^ b) = 0).
  { apply Z.bits_inj'. intros m Hm. rewrite Z.land_spec, testbit_pow, Z.bits_0 by lia. destruct (Z.eqb_spec m b) as [->|]; [now rewrite H|apply andb_false_r]. }
  assert (O : Z.lor s (2 ^ b) = Z.lxor s (2 ^ b)).
  { apply Z.bits_inj'. intros m Hm. rewrite Z.lor_spec, Z.lxor_spec, testbit_pow by lia. destruct (Z.eqb_spec m b) as [->|]; [now rewrite H|]. now destruct (Z.testbit s m). }
  pose proof (pop_lor s (2 ^ b) Hs ltac:(pose proof (Z.pow_pos_nonneg 2 b); lia)) as P. rewrite L, O, pop_pow in P by lia. cbn in P. lia.
Qed.
Lemma flip_bit s b : 0 <= s -> 0 <= b -> Z.odd (popcount (Z.lxor s (2 ^ b))) = negb (Z.odd (popcount s)).
Proof.
  intros Hs Hb. destruct (Z.testbit s b) eqn:E.
  - rewrite <- (lxor_invol s (2 ^ b)) at 2. rewrite (add_bit (Z.lxor s (2 ^ b)) b).
    + rewrite Z.odd_add. now destruct (Z.odd _).
    + apply Z.lxor_nonneg. pose proof (Z.pow_pos_nonneg 2 b). lia.
    + auto.
    + rewrite Z.lxor_spec, testbit_pow, E, Z.eqb_refl by lia. reflexivity.
  - rewrite add_bit by auto. rewrite Z.odd_add. now destruct (Z.odd _).
Qed.
(* alternating sums *)
Definition sgn (n s : Z) : Z := if Z.odd (n - popcount s) then -1 else 1.
Definition full (n : Z) : Z := 2 ^ n - 1.
Lemma full_bit n b : 0 <= b < n -> Z.testbit (full n) b = true.
Proof. intro H. unfold full. replace (2 ^ n - 1) with (Z.ones n) by (rewrite Z.ones_equiv; lia). apply Z.ones_spec_low. lia. Qed.
Lemma full_pop n : 0 <= n -> popcount (full n) = n.
Proof.
  revert n. apply natlike_ind; [reflexivity|]. intros n Hn IH. pose proof (Z.pow_pos_nonneg 2 n ltac:(lia) Hn). unfold full in *. replace (2 ^ Z.succ n - 1) with (1 * 2 ^ n + (2 ^ n - 1)) by (rewrite Z.pow_succ_r by lia; lia).
  rewrite pop_digit by lia. cbn [popcount pos_pop]. lia.
Qed.
Lemma mask_ext n s t : 0 <= n -> 0 <= s < 2 ^ n -> 0 <= t < 2 ^ n -> (forall b, 0 <= b < n -> Z.testbit s b = Z.testbit t b) -> s = t.
Proof.
  intros Hn Hs Ht H. apply Z.bits_inj'. intros m Hm. destruct (Z.lt_ge_cases m n); auto.
  assert (Z0 : forall x, 0 <= x < 2 ^ n -> Z.testbit x m = false).
  { intros x Hx. destruct (Z.eq_dec x 0) as [->|]; [apply Z.bits_0|]. apply Z.bits_above_log2; [lia|]. apply Z.log2_lt_pow2; [lia|]. apply Z.lt_le_trans with (2 ^ n); [lia|]. apply Z.pow_le_mono_r; lia. }
  now rewrite !Z0.
Qed.
Lemma sgn_sum n t : 0 <= n -> 0 <= t < 2 ^ n -> S_ 0 (2 ^ n) (fun s => if subset t s then sgn n s else 0) = if t =? full n then 1 else 0.
Proof.
  intros Hn Ht. destruct (Z.eqb_spec t (full n)) as [->|N].
  - transitivity (S_ 0 (2 ^ n) (fun s => if s =? full n then sgn n s else 0)).
    + apply zsum_ext. intros s Hs. destruct (Z.eqb_spec s (full n)) as [->|N]. { unfold subset. now rewrite Z.land_diag, Z.eqb_refl. }
      destruct (subset (full n) s) eqn:E; auto. exfalso. apply N. apply (mask_ext n); auto. intros b Hb. rewrite full_bit by auto. apply (proj1 (subset_bits _ _) E); [lia|]. now apply full_bit.
    + rewrite zsum_one by (unfold full in *; lia). unfold sgn. rewrite full_pop by auto. now rewrite Z.sub_diag.
  - assert (B : exists b, 0 <= b < n /\ Z.testbit t b = false).
    { destruct (existsb (fun b => negb (Z.testbit t b)) (zrange n)) eqn:E.
      - apply existsb_exists in E as (b & Hb & E). apply In_zrange in Hb. exists b. split; auto. now destruct (Z.testbit t b).
      - exfalso. apply N. apply (mask_ext n); auto; [unfold full; lia|]. intros b Hb. rewrite full_bit by auto. destruct (Z.testbit t b) eqn:F; auto.
        rewrite <- E. apply existsb_exists. exists b. rewrite F. split; auto. now apply In_zrange. }
    destruct B as (b & Hb & Tb). set (F := fun s => if subset t s then sgn n s else 0).
    assert (Pb : 0 <= 2 ^ b < 2 ^ n) by (split; [apply Z.pow_nonneg; lia|apply Z.pow_lt_mono_r; lia]).
    pose proof (sum_xor n (2 ^ b) F Hn Pb) as E.
    assert (E2 : S_ 0 (2 ^ n) (fun s => F (Z.lxor s (2 ^ b))) = S_ 0 (2 ^ n) (fun s => (-1) * F s)).
    { apply zsum_ext. intros s Hs. unfold F. replace (subset t (Z.lxor s (2 ^ b))) with (subset t s).
      - destruct (subset t s); [|lia]. unfold sgn. rewrite !Z.odd_sub, flip_bit by lia. destruct (Z.odd n), (Z.odd (popcount s)); reflexivity.
      - assert (X : forall m, 0 <= m -> Z.testbit t m = true -> Z.testbit (Z.lxor s (2 ^ b)) m = Z.testbit s m).
        { intros m Hm Tm. rewrite Z.lxor_spec, testbit_pow by lia. rewrite (proj2 (Z.eqb_neq m b)) by congruence. apply xorb_false_r. }
        apply eq_true_iff_eq. rewrite !subset_bits. split; intros H m Hm Tm; specialize (H m Hm Tm); rewrite X in * by auto; auto. }
    rewrite zsum_scale in E2. unfold F in *. lia.
Qed.
Lemma alternating n G : 0 <= n -> S_ 0 (2 ^ n) (fun s => sgn n s * S_ 0 (2 ^ n) (fun t => if subset t s then G t else 0)) = G (full n).
Proof.
  intro Hn. pose proof (Z.pow_pos_nonneg 2 n ltac:(lia) Hn).
  transitivity (S_ 0 (2 ^ n) (fun t => G t * S_ 0 (2 ^ n) (fun s => if subset t s then sgn n s else 0))).
  - transitivity (S_ 0 (2 ^ n) (fun s => S_ 0 (2 ^ n) (fun t => if subset t s then sgn n s * G t else 0))).
    + apply zsum_ext. intros s Hs. rewrite <- zsum_scale. apply zsum_ext. intros t Ht. destruct (subset t s); lia.
    + rewrite zsum_swap. apply zsum_ext. intros t Ht. rewrite <- zsum_scale. apply zsum_ext. intros s Hs. destruct (subset t s); lia.
  - transitivity (S_ 0 (2 ^ n) (fun t => if t =? full n then G t else 0)).
    + apply zsum_ext. intros t Ht. rewrite sgn_sum by auto. destruct (t =? full n); lia.
    + apply zsum_one. unfold full. lia.
Qed.
  (* subsets are smaller *)
  Lemma subset_le x t : 0 <= t -> subset x t = true -> x <= t.
  Proof.
    intros Ht H. unfold subset in H. apply Z.eqb_eq in H. assert (L : Z.ldiff x t = 0).
    { apply Z.bits_inj'. intros m Hm. rewrite Z.ldiff_spec, Z.bits_0, <- H, Z.land_spec. now destruct (Z.testbit x m), (Z.testbit t m). }
    pose proof (Z.sub_nocarry_ldiff t x L) as E. assert (0 <= Z.ldiff t x) by (apply Z.ldiff_nonneg; auto). lia.
  Qed.
Lemma N_pos n : 0 <= n -> 0 < 2 ^ n. Proof. intro. apply Z.pow_pos_nonneg; lia. Qed.
Section G.
  Variables (n : Z) (edges : list (Z * Z)).
  Hypothesis Hn : 0 <= n.
  Hypothesis Hed : forall u v, In (u, v) edges -> 0 <= u < n /\ 0 <= v < n /\ u <> v.
  Notation N_ := (2 ^ n).
  Notation indep := (independent edges).
  Lemma indep_iff T : indep T = true <-> forall a b, In (a, b) edges -> ~ (Z.testbit T a = true /\ Z.testbit T b = true).
  Proof.
    unfold independent. rewrite forallb_forall. split.
    - intros H a b Hab [Ha Hb]. specialize (H _ Hab). cbn in H. now rewrite Ha, Hb in H.
    - intros H [a b] Hab. cbn. specialize (H a b Hab). destruct (Z.testbit T a), (Z.testbit T b); cbn; tauto || auto.
  Qed.
  Definition ind (s : Z) : Z := S_ 0 N_ (fun T => if subset T s then (if indep T then 1 else 0) else 0).
  Lemma covers_nonneg k : forall s, 0 <= covers n edges k s.
  Proof. clear Hed Hn. induction k; intro s; cbn [covers]; [destruct (s =? 0); lia|]. apply zsum_nonneg. intros T _. apply zsum_nonneg. intros U _. destruct (_ && _); auto; lia. Qed.
  Lemma zeta_covers k s : 0 <= s < N_ -> S_ 0 N_ (fun t => if subset t s then covers n edges k t else 0) = ind s ^ Z.of_nat k.
  Proof.
    intro Hs. pose proof (N_pos n Hn) as HN. induction k.
    - cbn [covers]. transitivity (S_ 0 N_ (fun t => if t =? 0 then (if subset t s then 1 else 0) else 0)).
      + apply zsum_ext. intros t Ht. now destruct (subset t s), (t =? 0).
      + rewrite zsum_one by lia. unfold subset. now rewrite Z.land_0_l.
    - rewrite Nat2Z.inj_succ, Z.pow_succ_r by lia. rewrite <- IHk. unfold ind. cbn [covers].
      transitivity (S_ 0 N_ (fun T => S_ 0 N_ (fun U => if subset T s && subset U s && indep T then covers n edges k U else 0))).
      + transitivity (S_ 0 N_ (fun t => S_ 0 N_ (fun T => S_ 0 N_ (fun U => if t =? Z.lor T U then (if subset t s && indep T then covers n edges k U else 0) else 0)))).
        * apply zsum_ext. intros t Ht. rewrite zsum_if. apply zsum_ext. intros T HT. rewrite zsum_if. apply zsum_ext. intros U HU. rewrite (Z.eqb_sym t). now destruct (Z.lor T U =? t), (subset t s), (indep T).
        * rewrite zsum_swap. apply zsum_ext. intros T HT. rewrite zsum_swap. apply zsum_ext. intros U HU.
          rewrite (zsum_one 0 N_ (Z.lor T U) (fun t => if subset t s && indep T then covers n edges k U else 0)) by (now apply lor_range'). now rewrite subset_lor.
      + rewrite Z.mul_comm, <- zsum_scale. apply zsum_ext. intros T HT. rewrite Z.mul_comm, <- zsum_scale. apply zsum_ext. intros U HU. destruct (subset T s), (subset U s), (indep T); cbn [andb]; lia.
  Qed.
  Lemma covers_alt k : S_ 0 N_ (fun s => sgn n s * ind s ^ Z.of_nat k) = covers n edges k (full n).
  Proof. rewrite <- (alternating n (covers n edges k) Hn). apply zsum_ext. intros s Hs. now rewrite zeta_covers. Qed.
  Definition nb (v w : Z) : bool := existsb (fun e => ((fst e =? v) && (snd e =? w)) || ((snd e =? v) && (fst e =? w))) edges.
  Lemma nb_iff v w : nb v w = true <-> In (v, w) edges \/ In (w, v) edges.
  Proof.
    unfold nb. rewrite existsb_exists. split.
    - intros ([a b] & H & E). cbn in E. apply orb_true_iff in E as [E|E]; apply andb_true_iff in E as [E1 E2]; apply Z.eqb_eq in E1, E2; subst; auto.
    - intros [H|H]; eexists; (split; [exact H|]); cbn; rewrite !Z.eqb_refl; cbn; auto using orb_true_r.
  Qed.
  Lemma ind_step s v gv : 0 <= s < N_ -> 0 <= v < n -> Z.testbit s v = true -> (forall w, 0 <= w < n -> Z.testbit gv w = nb v w) ->
    let t := Z.lxor s (2 ^ v) in ind s = ind t + ind (Z.land t (Z.lnot gv)).
  Proof.
    intros Hs Hv Sv Hg t.
    assert (Pv : 0 <= 2 ^ v < 2 ^ n) by (split; [apply Z.pow_nonneg; lia|apply Z.pow_lt_mono_r; lia]).
    assert (Ht : 0 <= t < N_) by now apply lxor_range.
    assert (Tb : forall m, 0 <= m -> Z.testbit t m = if m =? v then false else Z.testbit s m).
    { intros m Hm. unfold t. rewrite Z.lxor_spec, testbit_pow by lia. destruct (Z.eqb_spec m v) as [->|]; [now rewrite Sv|apply xorb_false_r]. }
    assert (Hi : forall x m, 0 <= x < N_ -> 0 <= m -> Z.testbit x m = true -> m < n).
    { intros x m Hx Hm B. destruct (Z.lt_ge_cases m n); auto. exfalso. destruct (Z.eq_dec x 0) as [->|]; [now rewrite Z.bits_0 in B|].
      rewrite Z.bits_above_log2 in B; [discriminate|lia|]. apply Z.log2_lt_pow2; [lia|]. apply Z.lt_le_trans with (2 ^ n); [lia|]. apply Z.pow_le_mono_r; lia. }
    unfold ind.
    transitivity (S_ 0 N_ (fun T => if subset T t then (if indep T then 1 else 0) else 0) + S_ 0 N_ (fun T => if subset T s && Z.testbit T v then (if indep T then 1 else 0) else 0)).
    - rewrite <- zsum_add. apply zsum_ext. intros T HT. assert (E : subset T t = subset T s && negb (Z.testbit T v)).
      { apply eq_true_iff_eq. rewrite andb_true_iff, !subset_bits. split.
        - intro H. split.
          + intros m Hm B. specialize (H m Hm B). rewrite Tb in H by auto. now destruct (m =? v).
          + destruct (Z.testbit T v) eqn:E; auto. specialize (H v ltac:(lia) E). rewrite Tb, Z.eqb_refl in H by lia. discriminate.
        - intros [H E] m Hm B. rewrite Tb by auto. destruct (Z.eqb_spec m v) as [->|]; auto. now rewrite B in E. }
      rewrite E. destruct (subset T s), (Z.testbit T v), (indep T); reflexivity.
    - f_equal. rewrite (sum_xor n (2 ^ v)) by auto. apply zsum_ext. intros T HT. set (T' := Z.lxor T (2 ^ v)).
      assert (T'b : forall m, 0 <= m -> Z.testbit T' m = if m =? v then negb (Z.testbit T m) else Z.testbit T m).
      { intros m Hm. unfold T'. rewrite Z.lxor_spec, testbit_pow by lia. destruct (Z.eqb_spec m v) as [->|]; [apply xorb_true_r|apply xorb_false_r]. }
      assert (E : subset T' s && Z.testbit T' v && indep T' = subset T (Z.land t (Z.lnot gv)) && indep T).
      { apply eq_true_iff_eq. rewrite !andb_true_iff, !subset_bits, !indep_iff. split.
        - intros [[H1 H2] H3]. rewrite T'b, Z.eqb_refl in H2 by lia. apply negb_true_iff in H2. split.
          + intros m Hm B. assert (Nm : m <> v) by congruence. assert (B' : Z.testbit T' m = true) by (rewrite T'b by auto; now rewrite (proj2 (Z.eqb_neq _ _) Nm)).
            rewrite Z.land_spec, Z.lnot_spec, Tb, (proj2 (Z.eqb_neq _ _) Nm), (H1 m Hm B') by auto. cbn. rewrite Hg by (pose proof (Hi T m HT Hm B); lia).
            destruct (nb v m) eqn:Nb; auto. exfalso. assert (V' : Z.testbit T' v = true) by (rewrite T'b, Z.eqb_refl, H2 by lia; reflexivity). apply nb_iff in Nb as [Nb|Nb]; apply (H3 _ _ Nb); auto.
          + intros a b Hab [Ba Bb]. apply (H3 a b Hab). destruct (Hed a b Hab) as (? & ? & ?).
            assert (X : forall c, 0 <= c -> Z.testbit T c = true -> Z.testbit T' c = true) by (intros c Hc Bc; rewrite T'b by auto; destruct (Z.eqb_spec c v) as [->|]; [congruence|auto]).
            split; apply X; auto; lia.
        - intros [H1 H2]. assert (Vf : Z.testbit T v = false).
          { destruct (Z.testbit T v) eqn:E; auto. specialize (H1 v ltac:(lia) E). rewrite Z.land_spec, Tb, Z.eqb_refl in H1 by lia. discriminate. }
          assert (X : forall m, 0 <= m -> Z.testbit T m = true -> Z.testbit s m = true /\ Z.testbit gv m = false /\ m <> v).
          { intros m Hm B. assert (Nm : m <> v) by congruence. specialize (H1 m Hm B). rewrite Z.land_spec, Z.lnot_spec, Tb, (proj2 (Z.eqb_neq _ _) Nm) in H1 by auto. apply andb_true_iff in H1 as [? E]. apply negb_true_iff in E. auto. }
          split; [split|].
          + intros m Hm B. rewrite T'b in B by auto. destruct (Z.eqb_spec m v) as [->|]; auto. now apply X.
          + rewrite T'b, Z.eqb_refl, Vf by lia. reflexivity.
          + intros a b Hab [Ba Bb]. destruct (Hed a b Hab) as (Ha & Hb & Nab). rewrite T'b in Ba, Bb by lia.
            destruct (Z.eqb_spec a v) as [->|Na], (Z.eqb_spec b v) as [->|Nb].
            * lia.
            * destruct (X b ltac:(lia) Bb) as (_ & E & _). rewrite Hg in E by lia. assert (nb v b = true) by (apply nb_iff; auto). congruence.
            * destruct (X a ltac:(lia) Ba) as (_ & E & _). rewrite Hg in E by lia. assert (nb v a = true) by (apply nb_iff; auto). congruence.
            * now apply (H2 a b Hab). }
      destruct (subset T' s && Z.testbit T' v), (indep T'), (subset T (Z.land t (Z.lnot gv))), (indep T); cbn [andb] in E; auto; discriminate.
  Qed.
End G.
Section G2.
  Variables (n : Z) (edges : list (Z * Z)).
  Hypothesis Hn : 0 <= n.
  Hypothesis Hed : forall u v, In (u, v) edges -> 0 <= u < n /\ 0 <= v < n /\ u <> v.
  Notation N_ := (2 ^ n).
  Lemma masks_loop l : (forall u v, In (u, v) l -> 0 <= u < n /\ 0 <= v < n /\ u <> v) -> forall g h, rep g n h ->
    exists g' h', for_each l (fun '(u, v) g => let* x := vget g u in let* g := vset g u (Z.lor x (2 ^ v)) in let* y := vget g v in vset g v (Z.lor y (2 ^ u))) g = Ok g' /\ rep g' n h' /\
      forall v w, 0 <= v < n -> 0 <= w < n -> Z.testbit (h' v) w = Z.testbit (h v) w || nb l v w.
  Proof.
    induction l as [|[a b] l IH]; intros Hl g h R.
    - exists g, h. split; auto. split; auto. intros. cbn. now rewrite orb_false_r.
    - destruct (Hl a b (or_introl eq_refl)) as (Ha & Hb & Nab). cbn [for_each]. rewrite (rep_get _ _ _ _ R) by auto. cbn [bind]. rewrite (rep_set _ _ _ _ _ R) by auto. cbn [bind].
      pose proof (rep_upd _ _ _ a (Z.lor (h a) (2 ^ b)) R Ha) as R1. rewrite (rep_get _ _ _ _ R1) by auto. cbn [bind]. rewrite (rep_set _ _ _ _ _ R1) by auto. cbn [bind].
      rewrite fupd_diff by lia. pose proof (rep_upd _ _ _ b (Z.lor (h b) (2 ^ a)) R1 Hb) as R2.
      destruct (IH (fun u v H => Hl u v (or_intror H)) _ _ R2) as (g' & h' & E & R' & C). exists g', h'. split; auto. split; auto. intros v w Hv Hw. rewrite C by auto.
      unfold nb. cbn [existsb fst snd]. fold (nb l v w). unfold fupd. rewrite (Z.eqb_sym a v), (Z.eqb_sym b v), (Z.eqb_sym a w), (Z.eqb_sym b w).
      destruct (Z.eqb_spec v b) as [Eb|Nb]; [|destruct (Z.eqb_spec v a) as [Ea|Na]].
      + subst v. rewrite (proj2 (Z.eqb_neq b a)) by lia. rewrite Z.lor_spec, testbit_pow by lia. cbn [andb orb]. now rewrite orb_assoc.
      + subst v. rewrite Z.lor_spec, testbit_pow by lia. cbn [andb orb]. rewrite orb_false_r. now rewrite orb_assoc.
      + reflexivity.
  Qed.
  Lemma masks_ok : exists g h, masks n edges = Ok g /\ rep g n h /\ forall v w, 0 <= v < n -> 0 <= w < n -> Z.testbit (h v) w = nb edges v w.
  Proof.
    destruct (masks_loop edges Hed (vrep n 0) _ (rep_vrep n 0 Hn)) as (g & h & E & R & C). exists g, h. split; auto. split; auto. intros v w Hv Hw. rewrite C by auto. now rewrite Z.bits_0.
  Qed.
  Lemma ctz_bit s : 0 < s -> Z.testbit s (ctz s) = true.
  Proof.
    intro H. destruct (ctz_decomp s H) as (q & Hq & E). pose proof (ctz_nonneg s). rewrite E at 1. rewrite Z.mul_comm, <- Z.shiftl_mul_pow2 by auto.
    rewrite Z.shiftl_spec by auto. rewrite Z.sub_diag. apply Z.testbit_odd_0.
  Qed.
  Lemma count_ok g h : rep g n h -> (forall v w, 0 <= v < n -> 0 <= w < n -> Z.testbit (h v) w = nb edges v w) ->
    exists c, count_independent n g = Ok c /\ rep c N_ (ind n edges).
  Proof.
    intros Rg Hg. pose proof (N_pos n Hn) as HN. unfold count_independent. pose proof (rep_vrep N_ 0 ltac:(lia)) as R0. rewrite (rep_set _ _ _ _ _ R0) by lia. cbn [bind].
    match goal with |- context [for_ 1 N_ ?b ?s0] =>
      destruct (for_inv (fun i c => rep c N_ (fun s => if s <? i then ind n edges s else 0)) 1 N_ b s0) as (c & E & Rc) end; [lia| | |].
    - eapply rep_ext; [apply rep_upd; [exact R0|lia]|]. intros s Hs. unfold fupd. destruct (Z.eqb_spec s 0) as [Es|]; destruct (Z.ltb_spec s 1); try lia. subst s.
      pose proof (zeta_covers n edges Hn Hed 1%nat 0 ltac:(lia)) as Zc. rewrite Z.pow_1_r in Zc. rewrite <- Zc. clear Zc. symmetry.
      transitivity (S_ 0 N_ (fun t => if t =? 0 then covers n edges 1 t else 0)).
      + apply zsum_ext. intros t Ht. replace (subset t 0) with (t =? 0); [reflexivity|]. unfold subset. rewrite Z.land_0_r. apply Z.eqb_sym.
      + rewrite zsum_one by lia. cbn [covers].
        transitivity (S_ 0 N_ (fun T => if T =? 0 then 1 else 0)); [|now rewrite zsum_one by lia].
        apply zsum_ext. intros T HT. destruct (Z.eqb_spec T 0) as [->|NT].
        * transitivity (S_ 0 N_ (fun U => if U =? 0 then 1 else 0)); [|now rewrite zsum_one by lia]. apply zsum_ext. intros U HU. rewrite Z.lor_0_l.
          assert (I0 : independent edges 0 = true) by (apply indep_iff; intros a b _ [X _]; now rewrite Z.bits_0 in X). rewrite I0. now destruct (U =? 0).
        * apply zsum_zero. intros U HU. rewrite (proj2 (Z.eqb_neq (Z.lor T U) 0)); [reflexivity|]. intro X. apply Z.lor_eq_0_iff in X. lia.
    - intros s c Hs Rc. assert (Cz : 0 <= ctz s < n).
      { split; [apply ctz_nonneg|]. destruct (ctz_decomp s ltac:(lia)) as (q & Hq & E). apply (Z.pow_lt_mono_r_iff 2); [lia|lia|]. pose proof (Z.pow_pos_nonneg 2 (ctz s) ltac:(lia) (ctz_nonneg s)). nia. }
      unfold ctz_. rewrite (proj2 (Z.eqb_neq s 0)) by lia. cbn [bind]. cbv zeta. rewrite (rep_get _ _ _ _ Rg) by auto. cbn [bind].
      set (v := ctz s) in *. set (t := Z.lxor s (2 ^ v)). pose proof (ctz_bit s ltac:(lia)) as Sv. fold v in Sv.
      assert (St : subset t s = true).
      { apply subset_bits. intros m Hm B. unfold t in B. rewrite Z.lxor_spec, testbit_pow in B by lia. destruct (Z.eqb_spec m v) as [->|]; auto. now rewrite xorb_false_r in B. }
      assert (T0 : 0 <= t) by (apply Z.lxor_nonneg; pose proof (Z.pow_nonneg 2 v); lia).
      assert (Tl : t < s).
      { pose proof (subset_le t s ltac:(lia) St). assert (t <> s); [|lia]. intro X. assert (B : Z.testbit t v = negb (Z.testbit s v)) by (unfold t; rewrite Z.lxor_spec, testbit_pow, Z.eqb_refl by lia; apply xorb_true_r). rewrite X in B. now destruct (Z.testbit s v). }
      set (w := Z.land t (Z.lnot (h v))). assert (W0 : 0 <= w) by (apply Z.land_nonneg; auto).
      assert (Wl : w <= t) by (apply subset_le; auto; apply subset_bits; intros m Hm B; unfold w in B; rewrite Z.land_spec in B; now apply andb_true_iff in B).
      rewrite (rep_get _ _ _ _ Rc) by lia. cbn [bind]. rewrite (rep_get _ _ _ _ Rc) by lia. cbn [bind]. rewrite !(proj2 (Z.ltb_lt _ _)) by lia.
      rewrite (rep_set _ _ _ _ _ Rc) by lia. eexists; split; [reflexivity|]. eapply rep_ext; [apply rep_upd; [exact Rc|lia]|]. intros j Hj. unfold fupd.
      destruct (Z.eqb_spec j s) as [Ej|Nj]; destruct (Z.ltb_spec j s), (Z.ltb_spec j (s + 1)); try lia; auto. subst j. symmetry.
      apply (ind_step n edges Hn Hed s v (h v)); auto; lia.
    - exists c. split; auto. eapply rep_ext; [exact Rc|]. intros s Hs. cbn beta. now rewrite (proj2 (Z.ltb_lt s N_)) by lia.
  Qed.
  Lemma sum_mod lo hi f g m : m <> 0 -> (forall i, lo <= i < hi -> f i mod m = g i mod m) -> S_ lo hi f mod m = S_ lo hi g mod m.
  Proof.
    intros Hm H. unfold RingSum.sum. assert (X : forall i, In i (span lo hi) -> f i mod m = g i mod m) by (intros i Hi; apply H, span_in, Hi). revert X. generalize (span lo hi).
    induction l as [|x l IH]; intro X; cbn [lsum]; auto. rewrite Z.add_mod, (X x), (IH (fun i Hi => X i (or_intror Hi))), <- Z.add_mod by (auto; now left). reflexivity.
  Qed.
  Definition C (k : Z) : Z := covers n edges (Z.to_nat k) (full n).
  Lemma detail_loop_ok m c : 1 < m -> rep c N_ (ind n edges) -> forall fuel k f h, 1 <= k -> k + Z.of_nat fuel = n -> rep f N_ h ->
    (forall s, 0 <= s < N_ -> h s mod m = (sgn n s * ind n edges s ^ (k - 1)) mod m) ->
    exists r, detail_loop fuel n m k c f = Ok r /\ k <= r <= n /\ (r < n -> C r mod m <> 0) /\ forall j, k <= j < r -> C j mod m = 0.
  Proof.
    intros Hm Rc. pose proof (N_pos n Hn) as HN. induction fuel as [|fuel IH]; intros k f h Hk Ef Rf Hh; cbn [detail_loop].
    - exists n. split; auto. split; [lia|]. split; [lia|]. intros; lia.
    - match goal with |- context [for_ 0 N_ ?b ?s0] =>
        destruct (for_inv (fun i st => rep (fst st) N_ (fun s => if s <? i then h s * ind n edges s mod m else h s) /\ snd st = S_ 0 i (fun s => h s * ind n edges s mod m)) 0 N_ b s0) as ([f' tot] & E & Rf' & Et) end; [lia| | |].
      + cbn [fst snd]. split; [|now rewrite sum_nil by lia]. eapply rep_ext; [exact Rf|]. intros s Hs. cbn beta. now rewrite (proj2 (Z.ltb_ge s 0)) by lia.
      + intros i [f1 tt1] Hi [R1 E1]. cbn [fst snd] in *. rewrite (rep_get _ _ _ _ R1) by lia. cbn [bind]. rewrite (rep_get _ _ _ _ Rc) by lia. cbn [bind]. rewrite Z.ltb_irrefl.
        rewrite (rep_set _ _ _ _ _ R1) by lia. cbn [bind]. eexists; split; [reflexivity|]. cbn [fst snd]. split.
        * eapply rep_ext; [apply rep_upd; [exact R1|lia]|]. intros j Hj. unfold fupd. destruct (Z.eqb_spec j i) as [Ej|Nj]; destruct (Z.ltb_spec j i), (Z.ltb_spec j (i + 1)); try lia; auto. now subst j.
        * rewrite (sum_snoc _ _ _ _ _ _ Zth) by lia. now rewrite E1.
      + rewrite E. cbn [bind fst snd] in *.
        assert (Hc : forall s, 0 <= s < N_ -> (h s * ind n edges s mod m) mod m = (sgn n s * ind n edges s ^ k) mod m).
        { intros s Hs. rewrite Z.mod_mod by lia. rewrite Z.mul_mod, Hh, <- Z.mul_mod by lia. f_equal. rewrite <- Z.mul_assoc. f_equal. rewrite Z.mul_comm, <- Z.pow_succ_r by lia. f_equal. lia. }
        assert (Tm : tot mod m = C k mod m).
        { rewrite Et. unfold C. rewrite <- covers_alt by auto. rewrite Z2Nat.id by lia. apply sum_mod; [lia|]. auto. }
        destruct (Z.eqb_spec (tot mod m) 0) as [E0|N0]; cbn [negb].
        * destruct (IH (k + 1) f' (fun s => h s * ind n edges s mod m)) as (r & Er & Hr & H1 & H2); [lia|lia| | |].
          -- eapply rep_ext; [exact Rf'|]. intros s Hs. cbn beta. now rewrite (proj2 (Z.ltb_lt s N_)) by lia.
          -- intros s Hs. rewrite Hc by auto. do 3 f_equal. lia.
          -- exists r. split; auto. split; [lia|]. split; auto. intros j Hj. destruct (Z.eq_dec j k) as [->|]; [congruence|]. apply H2. lia.
        * exists k. split; auto. split; [lia|]. split; [congruence|]. intros; lia.
  Qed.
  Lemma detail_ok m c : 1 < m -> 1 <= n -> rep c N_ (ind n edges) ->
    exists r, detail m n c = Ok r /\ 1 <= r <= n /\ (r < n -> C r mod m <> 0) /\ forall j, 1 <= j < r -> C j mod m = 0.
  Proof.
    intros Hm H1 Rc. pose proof (N_pos n Hn) as HN. unfold detail.
    match goal with |- context [for_ 0 N_ ?b ?s0] =>
      destruct (for_inv (fun i f => rep f N_ (fun s => if s <? i then (if Z.odd (n - popcount s) then m - 1 else 1) else 0)) 0 N_ b s0) as (f & E & Rf) end; [lia| | |].
    - eapply rep_ext; [apply rep_vrep; lia|]. intros s Hs. cbn beta. now rewrite (proj2 (Z.ltb_ge s 0)) by lia.
    - intros i f Hi Rf. rewrite (rep_set _ _ _ _ _ Rf) by lia. eexists; split; [reflexivity|]. eapply rep_ext; [apply rep_upd; [exact Rf|lia]|]. intros j Hj. unfold fupd.
      destruct (Z.eqb_spec j i) as [Ej|Nj]; destruct (Z.ltb_spec j i), (Z.ltb_spec j (i + 1)); try lia; auto. now subst j.
    - rewrite E. cbn [bind]. apply (detail_loop_ok m c Hm Rc _ 1 f (fun s => if Z.odd (n - popcount s) then m - 1 else 1)); [lia|lia| |].
      + eapply rep_ext; [exact Rf|]. intros s Hs. cbn beta. now rewrite (proj2 (Z.ltb_lt s N_)) by lia.
      + intros s Hs. cbn. rewrite Z.mul_1_r. unfold sgn. destruct (Z.odd _); auto. replace (m - 1) with (-1 + 1 * m) by lia. now rewrite Z.mod_add by lia.
  Qed.
  (* covers and colourings *)
  Lemma covers_pos k s : 0 <= s < N_ -> 0 < covers n edges k s -> exists c : Z -> Z, (forall v, 0 <= v -> Z.testbit s v = true -> 0 <= c v < Z.of_nat k) /\
    forall u v, In (u, v) edges -> Z.testbit s u = true -> Z.testbit s v = true -> c u <> c v.
  Proof.
    revert s. induction k; intros s Hs H; cbn [covers] in H.
    - destruct (Z.eqb_spec s 0) as [->|]; [|lia]. exists (fun _ => 0). split; intros; exfalso; rewrite Z.bits_0 in *; discriminate.
    - apply zsum_pos in H; [|intros T HT; apply zsum_nonneg; intros U HU; destruct (_ && _); [apply covers_nonneg|lia]]. destruct H as (T & HT & H).
      apply zsum_pos in H; [|intros U HU; destruct (_ && _); [apply covers_nonneg|lia]]. destruct H as (U & HU & H).
      destruct (Z.eqb_spec (Z.lor T U) s) as [E|]; cbn [andb] in H; [|lia]. destruct (independent edges T) eqn:IT; [|lia].
      destruct (IHk U HU H) as (c & C1 & C2). exists (fun v => if Z.testbit U v then c v else Z.of_nat k). split.
      + intros v Hv B. destruct (Z.testbit U v) eqn:BU; [|lia]. specialize (C1 v Hv BU). lia.
      + intros u v Huv Bu Bv. destruct (Hed u v Huv) as (Hu & Hv & _). destruct (Z.testbit U u) eqn:Uu, (Z.testbit U v) eqn:Uv.
        * auto.
        * specialize (C1 u ltac:(lia) Uu). lia.
        * specialize (C1 v ltac:(lia) Uv). lia.
        * exfalso. rewrite <- E, Z.lor_spec, Uu, orb_false_r in Bu. rewrite <- E, Z.lor_spec, Uv, orb_false_r in Bv. apply (proj1 (indep_iff edges T) IT u v Huv). auto.
  Qed.
  Lemma covers_colourable k : 0 <= k -> 0 < C k -> colourable n edges k.
  Proof.
    intros Hk H. pose proof (N_pos n Hn). destruct (covers_pos (Z.to_nat k) (full n) ltac:(unfold full; lia) H) as (c & C1 & C2). rewrite Z2Nat.id in C1 by lia. exists c. split.
    - intros v Hv. apply C1; [lia|]. now apply full_bit.
    - intros u v Huv. destruct (Hed u v Huv) as (? & ? & ?). apply C2; auto; now apply full_bit.
  Qed.
  Lemma mask_of (P : Z -> bool) : forall k, 0 <= k -> exists T, 0 <= T < 2 ^ k /\ forall v, 0 <= v < k -> Z.testbit T v = P v.
  Proof.
    apply natlike_ind; [exists 0; split; [cbn; lia|intros; lia]|]. intros k Hk (T & HT & B). pose proof (Z.pow_pos_nonneg 2 k ltac:(lia) Hk). rewrite Z.pow_succ_r by lia.
    assert (L : forall v, 0 <= v -> Z.testbit (Z.lor T (2 ^ k)) v = Z.testbit T v || (v =? k)) by (intros v Hv; now rewrite Z.lor_spec, testbit_pow by lia).
    assert (Tk : Z.testbit T k = false).
    { destruct (Z.eq_dec T 0) as [->|]; [apply Z.bits_0|]. apply Z.bits_above_log2; [lia|]. apply Z.log2_lt_pow2; lia. }
    destruct (P k) eqn:Pk.
    - exists (Z.lor T (2 ^ k)). split.
      + replace (2 * 2 ^ k) with (2 ^ (k + 1)) by (rewrite Z.pow_add_r; lia). apply lor_range'; [lia| |]; rewrite Z.pow_add_r; lia.
      + intros v Hv. rewrite L by lia. destruct (Z.eqb_spec v k) as [->|]; [now rewrite Pk, orb_true_r|]. rewrite orb_false_r. apply B. lia.
    - exists T. split; [lia|]. intros v Hv. destruct (Z.eq_dec v k) as [->|]; [congruence|]. apply B. lia.
  Qed.
  Lemma colourable_covers k : 0 <= k -> colourable n edges k -> 0 < C k.
  Proof.
    intros Hk (c & C1 & C2). pose proof (N_pos n Hn).
    assert (X : forall j, exists U, 0 <= U < N_ /\ (forall v, 0 <= v < n -> Z.testbit U v = (c v <? Z.of_nat j)) /\ 0 < covers n edges j U).
    { induction j as [|j (U & HU & BU & PU)].
      - exists 0. split; [lia|]. split; [|cbn; lia]. intros v Hv. rewrite Z.bits_0. symmetry. apply Z.ltb_ge. specialize (C1 v Hv). lia.
      - destruct (mask_of (fun v => c v =? Z.of_nat j) n Hn) as (T & HT & BT). exists (Z.lor T U). split; [now apply lor_range'|]. split.
        + intros v Hv. rewrite Z.lor_spec, BT, BU by auto. destruct (Z.eqb_spec (c v) (Z.of_nat j)), (Z.ltb_spec (c v) (Z.of_nat j)), (Z.ltb_spec (c v) (Z.of_nat (S j))); auto; lia.
        + cbn [covers]. apply zsum_pos; [intros; apply zsum_nonneg; intros; destruct (_ && _); [apply covers_nonneg|lia]|]. exists T. split; auto.
          apply zsum_pos; [intros; destruct (_ && _); [apply covers_nonneg|lia]|]. exists U. split; auto. rewrite Z.eqb_refl.
          assert (IT : independent edges T = true); [|now rewrite IT].
          apply indep_iff. intros a b Hab [Ba Bb]. destruct (Hed a b Hab) as (? & ? & ?). rewrite BT in Ba, Bb by auto. apply (C2 a b Hab). lia. }
    destruct (X (Z.to_nat k)) as (U & HU & BU & PU). unfold C. replace (full n) with U; auto. apply (mask_ext n); auto; [unfold full; lia|]. intros b Hb. rewrite BU, full_bit by auto.
    apply Z.ltb_lt. rewrite Z2Nat.id by lia. now apply C1.
  Qed.
  Lemma C_nonneg k : 0 <= C k. Proof. apply covers_nonneg. Qed.
  Lemma chromatic_ok : 1 <= n -> exists r, chromatic_number n edges = Ok r /\ 1 <= r <= n /\ colourable n edges r /\
    forall k, 1 <= k < r -> (998244353 | C k) /\ (1000000007 | C k).
  Proof.
    intro H1. unfold chromatic_number. rewrite (proj2 (Z.eqb_neq n 0)) by lia.
    destruct masks_ok as (g & h & E & Rg & Hg). rewrite E. cbn [bind]. destruct (count_ok g h Rg Hg) as (c & Ec & Rc). rewrite Ec. cbn [bind].
    destruct (detail_ok 998244353 c ltac:(lia) H1 Rc) as (a & Ea & Ha & Xa & Ya). rewrite Ea. cbn [bind].
    destruct (detail_ok 1000000007 c ltac:(lia) H1 Rc) as (b & Eb & Hb & Xb & Yb). rewrite Eb. cbn [bind]. exists (Z.min a b). split; auto. split; [lia|]. split.
    - destruct (Z.eq_dec (Z.min a b) n) as [->|Nn].
      + exists (fun v => v). split; auto. intros u v Huv. now destruct (Hed u v Huv) as (? & ? & ?).
      + apply covers_colourable; [lia|]. pose proof (C_nonneg (Z.min a b)). assert (C (Z.min a b) <> 0); [|lia]. intro X.
        destruct (Z.min_spec a b) as [[? M]|[? M]]; rewrite M in *; [apply Xa|apply Xb]; try lia; rewrite X; reflexivity.
    - intros k Hk. split; apply Z.mod_divide; try lia; [apply Ya|apply Yb]; lia.
  Qed.
End G2.
