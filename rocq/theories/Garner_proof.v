From Verif Require Import Base BaseLemmas ListZ Seq ZMod ExtGcd_model ExtGcd_proof.
From Coq Require Import Znumtheory.

(* loops that either finish or fail an assertion for a reason *)
Lemma for_up_abort {S} (P : Z -> S -> Prop) (Q : Prop) body k : forall i s, P i s ->
  (forall j s, i <= j < i + Z.of_nat k -> P j s -> (exists s', body j s = Ok s' /\ P (j + 1) s') \/ (body j s = Abort /\ Q)) ->
  (exists s', for_up k i body s = Ok s' /\ P (i + Z.of_nat k) s') \/ (for_up k i body s = Abort /\ Q).
Proof.
  induction k as [|k IH]; intros i s H0 H; cbn [for_up].
  - left. exists s. split; auto. now replace (i + Z.of_nat 0) with i by lia.
  - destruct (H i s) as [(s' & E & P')|(E & q)]; auto; try lia; rewrite E; cbn [bind].
    + destruct (IH (i + 1) s' P') as [(s'' & E' & P'')|E'].
      * intros j s1 Hj Pj. apply H; auto. lia.
      * left. exists s''. split; auto. now replace (i + Z.of_nat (Datatypes.S k)) with (i + 1 + Z.of_nat k) by lia.
      * right; auto.
    + right; auto.
Qed.
Lemma for_abort {S} (P : Z -> S -> Prop) (Q : Prop) lo hi body s :
  lo <= hi -> P lo s ->
  (forall i s, lo <= i < hi -> P i s -> (exists s', body i s = Ok s' /\ P (i + 1) s') \/ (body i s = Abort /\ Q)) ->
  (exists s', for_ lo hi body s = Ok s' /\ P hi s') \/ (for_ lo hi body s = Abort /\ Q).
Proof.
  intros L H0 H. unfold for_. destruct (for_up_abort P Q body (Z.to_nat (hi - lo)) lo s H0) as [(s' & E & P')|E].
  - intros; apply H; auto; lia.
  - left. exists s'. split; auto. now replace hi with (lo + Z.of_nat (Z.to_nat (hi - lo))) by lia.
  - auto.
Qed.

Lemma zadd_monoid : is_monoid Z.add 0.
Proof. constructor; intros; lia. Qed.
Lemma zmul_monoid : is_monoid Z.mul 1.
Proof. constructor; intros; lia. Qed.

Section Garner.
  Variable eq : list (Z * Z).
  Let n := zlen eq.
  Let x i := fst (nth (Z.to_nat i) eq (0, 1)).
  Let m i := snd (nth (Z.to_nat i) eq (0, 1)).
  Hypothesis Hx : forall i, 0 <= i < n -> - 2 ^ 31 <= x i < 2 ^ 31.
  Hypothesis Hm : forall i, 0 <= i < n -> 0 < m i < 2 ^ 31.
  Definition W j := prod_ Z.mul 1 m 0 j.
  Definition V h i := prod_ Z.add 0 (fun j => h j * W j) 0 i.
  Lemma W_S j : 0 <= j -> W (j + 1) = W j * m j.
  Proof. intro H. unfold W. rewrite (prod_snoc Z.mul 1 zmul_monoid) by lia. now replace (j + 1 - 1) with j by lia. Qed.
  Lemma W_0 : W 0 = 1. Proof. reflexivity. Qed.
  Lemma V_S h j : 0 <= j -> V h (j + 1) = V h j + h j * W j.
  Proof. intro H. unfold V. rewrite (prod_snoc Z.add 0 zadd_monoid) by lia. now replace (j + 1 - 1) with j by lia. Qed.
  Lemma V_ext h h' j : (forall k, 0 <= k < j -> h k = h' k) -> V h j = V h' j.
  Proof. intro H. unfold V. apply prod_ext. intros k Hk. cbn beta. rewrite H; auto. Qed.
  Lemma eq_get i : 0 <= i < n -> vget eq i = Ok (x i, m i).
  Proof. intro H. rewrite (vget_nth (0, 1)) by auto. unfold x, m. now destruct (nth _ _ _). Qed.
  Lemma W_pos j : 0 <= j <= n -> 0 < W j.
  Proof.
    intro H. apply (natlike_ind (fun j => j <= n -> 0 < W j)); try lia.
    - rewrite W_0. lia.
    - intros k Hk IH Hk'. unfold Z.succ in *. rewrite W_S by lia. pose proof (Hm k ltac:(lia)) as Hmk. apply Z.mul_pos_pos; [apply IH; lia|lia].
  Qed.
  Lemma W_div j k : 0 <= j < k -> k <= n -> (m j | W k).
  Proof.
    intros H1 H2. unfold W. rewrite (prod_split Z.mul 1 zmul_monoid m 0 (j + 1) k) by lia.
    fold (W (j + 1)). rewrite W_S by lia. apply Z.divide_mul_l, Z.divide_mul_r. reflexivity.
  Qed.

  Lemma calc_prefix_ok a h i M : zlen a = n -> 0 <= i <= n -> (forall j, 0 <= j < i -> vget a j = Ok (h j) /\ 0 <= h j < m j) ->
    0 < M < 2 ^ 31 -> calc_prefix eq a i M = Ok (V h i mod M).
  Proof.
    intros La Hi Ha HM. unfold calc_prefix.
    match goal with |- context [for_ ?lo ?hi ?bo ?st] =>
      destruct (for_inv (fun j s => s = (V h j mod M, if j =? 0 then 1 else W j mod M)) lo hi bo st) as (s & E & ->) end.
    - lia.
    - cbn. reflexivity.
    - intros j s Hj ->. destruct (Ha j Hj) as (Ea & Bh). rewrite Ea. cbn [bind].
      pose proof (Hm j ltac:(lia)) as Hmk. set (prd := if j =? 0 then 1 else W j mod M).
      assert (Bp : 0 <= prd < 2 ^ 31 /\ prd mod M = W j mod M).
      { subst prd. destruct (Z.eqb_spec j 0) as [->|].
        - rewrite W_0. split; [lia|reflexivity].
        - pose proof (Z.mod_pos_bound (W j) M ltac:(lia)). rewrite Z.mod_mod by lia. lia. }
      destruct Bp as (Bp & Ep).
      assert (B1 : 0 <= h j * prd < 2 ^ 31 * 2 ^ 31) by (apply mul_bound; lia).
      pose proof (Z.mod_pos_bound (V h j) M ltac:(lia)) as B2.
      rewrite i64_ok by lia. cbn [bind]. rewrite i64_ok by lia. cbn [bind]. rewrite rem64_mod by lia. cbn [bind].
      rewrite eq_get by lia. cbn [bind snd].
      assert (B3 : 0 <= prd * m j < 2 ^ 31 * 2 ^ 31) by (apply mul_bound; lia).
      rewrite i64_ok by lia. cbn [bind]. rewrite rem64_mod by lia. cbn [bind].
      eexists; split; [reflexivity|]. destruct (Z.eqb_spec (j + 1) 0); [lia|]. f_equal.
      + rewrite V_S by lia. rewrite mod_add_l. rewrite <- mod_add_r, <- mod_mul_r, Ep, mod_mul_r, mod_add_r. reflexivity.
      + rewrite W_S by lia. rewrite <- mod_mul_l, Ep, mod_mul_l. reflexivity.
    - rewrite E. reflexivity.
  Qed.

  Definition coprime_upto i := forall j k, 0 <= j < k -> k < i -> Z.gcd (m j) (m k) = 1.
  Definition not_coprime := exists j k, 0 <= j < k /\ k < n /\ Z.gcd (m j) (m k) <> 1.
  Definition solved h i := forall j, 0 <= j < i -> (m j | V h i - x j).
  Definition digits (a : list Z) h i := zlen a = n /\ forall j, 0 <= j < i -> vget a j = Ok (h j) /\ 0 <= h j < m j.

  Lemma digit_loop i a h : 0 <= i < n -> digits a h i -> coprime_upto i -> solved h i ->
    forall t, 0 <= t < m i -> (m i | t - (x i - V h i)) ->
    forall a', zlen a' = n -> (forall j, 0 <= j < i -> vget a' j = vget a j) -> vget a' i = Ok t ->
    (exists a'', for_ 0 i (fun j a => let* e := vget eq j in let* inv := inv_mod (snd e) (m i) in let* ai := vget a i in
        let* ai := i64 (ai * inv) in let* ai := rem64 ai (m i) in vset a i ai) a' = Ok a'' /\
        exists t', digits a'' (fupd h i t') (i + 1) /\ coprime_upto (i + 1) /\ solved (fupd h i t') (i + 1)) \/
    (for_ 0 i (fun j a => let* e := vget eq j in let* inv := inv_mod (snd e) (m i) in let* ai := vget a i in
        let* ai := i64 (ai * inv) in let* ai := rem64 ai (m i) in vset a i ai) a' = Abort /\ not_coprime).
  Proof.
    intros Hi (La & Da) Cp Sv t Ht Dt a' La' Sa Et. pose proof (Hm i Hi) as Hmi.
    destruct (for_abort (fun j a1 => zlen a1 = n /\ (forall k, 0 <= k < i -> vget a1 k = vget a k) /\
      (forall k, 0 <= k < j -> Z.gcd (m k) (m i) = 1) /\
      exists t', vget a1 i = Ok t' /\ 0 <= t' < m i /\ (m i | t' * W j - (x i - V h i))) not_coprime 0 i
      (fun j a => let* e := vget eq j in let* inv := inv_mod (snd e) (m i) in let* ai := vget a i in
        let* ai := i64 (ai * inv) in let* ai := rem64 ai (m i) in vset a i ai) a') as [(a'' & E & L2 & S2 & C2 & t' & Et' & Bt' & Dt')|(E & N)].
    - lia.
    - repeat split; auto; try (intros; lia). exists t. rewrite W_0, Z.mul_1_r. auto.
    - intros j a1 Hj (L1 & S1 & C1 & t1 & E1 & B1 & D1). rewrite eq_get by lia. cbn [bind snd].
      pose proof (Hm j ltac:(lia)) as Hmj.
      pose proof (inv_mod_ok (m j) (m i) ltac:(lia) ltac:(lia)) as IM.
      destruct (Z.eqb_spec (Z.gcd (m j) (m i)) 1) as [G|G].
      + left. destruct IM as (v & Ev & Bv & Mv). rewrite Ev. cbn [bind]. rewrite E1. cbn [bind].
        assert (B2 : 0 <= t1 * v < 2 ^ 31 * 2 ^ 31) by (apply mul_bound; lia).
        rewrite i64_ok by lia. cbn [bind]. rewrite rem64_mod by lia. cbn [bind]. rewrite vset_ok by lia.
        eexists; split; [reflexivity|]. split; [now rewrite zlen_zupd|]. split; [|split].
        * intros k Hk. rewrite vget_zupd_diff by lia. now apply S1.
        * intros k Hk. destruct (Z.eq_dec k j); [subst; auto|apply C1; lia].
        * exists ((t1 * v) mod m i). split; [apply vget_zupd_same; lia|]. split; [apply Z.mod_pos_bound; lia|].
          rewrite W_S by lia.
          assert (Q1 : (m i | (t1 * v) mod m i - t1 * v)) by (apply mod_eq_divide; [lia|]; apply Z.mod_mod; lia).
          assert (Q2 : (m i | m j * v - 1)) by (apply mod_eq_divide; lia).
          replace ((t1 * v) mod m i * (W j * m j) - (x i - V h i)) with
            (((t1 * v) mod m i - t1 * v) * (W j * m j) + (m j * v - 1) * (t1 * W j) + (t1 * W j - (x i - V h i))) by ring.
          apply Z.divide_add_r; [apply Z.divide_add_r; apply Z.divide_mul_l; auto|auto].
      + right. rewrite IM. split; auto. exists j, i. repeat split; auto; lia.
    - left. exists a''. split; auto. exists t'. split; [|split].
      + split; auto. intros j Hj. unfold fupd. destruct (Z.eqb_spec j i).
        * subst j. auto.
        * rewrite S2 by lia. apply Da. lia.
      + intros j k Hj Hk. destruct (Z.eq_dec k i); [subst; apply C2; lia|apply Cp; lia].
      + assert (Ev : V (fupd h i t') (i + 1) = V h i + t' * W i).
        { rewrite V_S by lia. rewrite fupd_same. f_equal. apply V_ext. intros k Hk. apply fupd_diff. lia. }
        intros j Hj. rewrite Ev. destruct (Z.eq_dec j i).
        * subst j. replace (V h i + t' * W i - x i) with (t' * W i - (x i - V h i)) by ring. auto.
        * replace (V h i + t' * W i - x j) with (V h i - x j + t' * W i) by ring.
          apply Z.divide_add_r; [apply Sv; lia|]. apply Z.divide_mul_r. apply W_div; lia.
    - right. auto.
  Qed.

  Lemma V_bound h i : 0 <= i <= n -> (forall j, 0 <= j < i -> 0 <= h j < m j) -> 0 <= V h i < W i.
  Proof.
    intros H. apply (natlike_ind (fun i => i <= n -> (forall j, 0 <= j < i -> 0 <= h j < m j) -> 0 <= V h i < W i)); try lia.
    - intros _ _. rewrite W_0. unfold V. rewrite prod_nil by lia. lia.
    - intros k Hk IH Hk' Hh. unfold Z.succ in *. rewrite V_S, W_S by lia.
      specialize (IH ltac:(lia) ltac:(intros; apply Hh; lia)). specialize (Hh k ltac:(lia)). nia.
  Qed.
  Lemma coprime_W i D : 0 <= i <= n -> coprime_upto i -> (forall j, 0 <= j < i -> (m j | D)) -> (W i | D).
  Proof.
    intros H. apply (natlike_ind (fun i => i <= n -> coprime_upto i -> (forall j, 0 <= j < i -> (m j | D)) -> (W i | D))); try lia.
    - intros _ _ _. rewrite W_0. apply Z.divide_1_l.
    - intros k Hk IH Hk' Cp Hd. unfold Z.succ in *. rewrite W_S by lia.
      assert (D1 : (W k | D)) by (apply IH; try lia; [intros j l Hj Hl; apply Cp; lia|intros; apply Hd; lia]).
      assert (D2 : (m k | D)) by (apply Hd; lia).
      assert (R : rel_prime (W k) (m k)).
      { clear D1 D2. apply (natlike_ind (fun i => i <= k -> rel_prime (W i) (m k))); try lia.
        - intros _. rewrite W_0. apply rel_prime_1.
        - intros j Hj IH2 Hj'. unfold Z.succ in *. rewrite W_S by lia. apply rel_prime_sym, rel_prime_mult.
          + apply rel_prime_sym, IH2. lia.
          + apply rel_prime_sym, Zgcd_1_rel_prime. apply Cp; lia. }
      destruct D1 as (q & Eq). rewrite (Z.mul_comm (W k)). rewrite Eq. apply Z.mul_divide_mono_r.
      rewrite Eq in D2. rewrite Z.mul_comm in D2. apply Gauss with (W k); auto. now apply rel_prime_sym.
  Qed.

  Theorem garner_main M : 0 < M < 2 ^ 31 ->
    (exists X, garner eq M = Ok (X mod M) /\ 0 <= X < W n /\ (forall j, 0 <= j < n -> (m j | X - x j)) /\
       (forall Y, 0 <= Y -> (forall j, 0 <= j < n -> (m j | Y - x j)) -> X <= Y) /\ coprime_upto n) \/
    (garner eq M = Abort /\ not_coprime).
  Proof.
    intro HM. unfold garner. fold n. pose proof (zlen_nonneg eq) as Hn. fold n in Hn.
    match goal with |- context [for_ ?lo ?hi ?bo ?st] =>
      destruct (for_abort (fun i a => exists h, digits a h i /\ coprime_upto i /\ solved h i) not_coprime lo hi bo st) as [(a & E & h & (La & Da) & Cp & Sv)|(E & N)] end.
    - lia.
    - exists (fun _ => 0). split; [split; [apply zlen_vrep; lia|intros; lia]|]. split; intros ? ?; lia.
    - intros i a Hi (h & (La & Da) & Cp & Sv). rewrite eq_get by lia. cbn [bind].
      pose proof (Hm i Hi) as Hmi. pose proof (Hx i Hi) as Hxi.
      rewrite (calc_prefix_ok a h i (m i) La) by (auto; lia). cbn [bind].
      pose proof (Z.mod_pos_bound (V h i) (m i) ltac:(lia)) as B.
      rewrite i64_ok by lia. cbn [bind]. rewrite rem64_ok by lia. cbn [bind].
      pose proof (rem_mod_pos (x i - V h i mod m i) (m i) ltac:(lia)) as R.
      pose proof (Z.mod_pos_bound (x i - V h i mod m i) (m i) ltac:(lia)) as B'.
      assert (Dv : (m i | (x i - V h i mod m i) mod m i - (x i - V h i))).
      { apply mod_eq_divide; [lia|]. rewrite Z.mod_mod by lia. apply mod_sub_r. }
      assert (Bt : Z.abs (Z.rem (x i - V h i mod m i) (m i)) < m i) by (pose proof (proj2 (quot_abs (x i - V h i mod m i) (m i) ltac:(lia))) as Q; rewrite (Z.abs_eq (m i)) in Q by lia; exact Q).
      set (t := Z.rem (x i - V h i mod m i) (m i)) in *. set (c := V h i mod m i) in *. set (u := (x i - c) mod m i) in *.
      clearbody t u c. rewrite vset_ok by lia. cbn [bind].
      destruct (Z.ltb_spec t 0).
      + rewrite i64_ok by lia. cbn [bind]. rewrite vset_ok by (rewrite zlen_zupd; lia). cbn [bind].
        destruct (digit_loop i a h ltac:(lia) (conj La Da) Cp Sv (t + m i) ltac:(lia) ltac:(rewrite R; auto)
          (zupd (zupd a i t) i (t + m i))) as [(a'' & E'' & t' & Q)|Q]; auto.
        * now rewrite !zlen_zupd.
        * intros j Hj. now rewrite !vget_zupd_diff by lia.
        * apply vget_zupd_same. rewrite zlen_zupd. lia.
        * left. eauto.
      + cbn [bind]. rewrite Z.add_0_r in R.
        destruct (digit_loop i a h ltac:(lia) (conj La Da) Cp Sv t ltac:(lia) ltac:(rewrite R; auto)
          (zupd a i t)) as [(a'' & E'' & t' & Q)|Q]; auto.
        * now rewrite !zlen_zupd.
        * intros j Hj. now rewrite !vget_zupd_diff by lia.
        * apply vget_zupd_same. lia.
        * left. eauto.
    - left. rewrite E. cbn [bind]. rewrite (calc_prefix_ok a h n M La) by (auto; lia). cbn [bind].
      assert (Bv : 0 <= V h n < W n) by (apply V_bound; [lia|intros; apply Da; auto]).
      exists (V h n). pose proof (Z.mod_pos_bound (V h n) M ltac:(lia)).
      split; [f_equal; unfold to_i32; rewrite (Z.mod_small (V h n mod M) (2 ^ 32)) by lia; destruct (Z.ltb_spec (V h n mod M) (2 ^ 31)); auto; lia|].
      split; auto. split; auto. split; auto. intros Y HY SY.
      destruct (Z_lt_ge_dec Y (V h n)); [|lia]. exfalso.
      assert (Q : (W n | V h n - Y)).
      { apply coprime_W; auto; try lia. intros j Hj. replace (V h n - Y) with (V h n - x j - (Y - x j)) by ring.
        apply Z.divide_sub_r; auto. }
      apply Z.divide_pos_le in Q; lia.
    - right. rewrite E. auto.
  Qed.
End Garner.

From Verif Require Import ExtGcd_spec.
Section List.
  Variable eq : list (Z * Z).
  Notation xx i := (fst (nth (Z.to_nat i) eq (0, 1))).
  Notation mm i := (snd (nth (Z.to_nat i) eq (0, 1))).
  Lemma nth_in i : 0 <= i < zlen eq -> In (xx i, mm i) eq.
  Proof. intro H. rewrite <- surjective_pairing. apply nth_In. unfold zlen in H. lia. Qed.
  Lemma in_nth x m : In (x, m) eq -> exists i, 0 <= i < zlen eq /\ xx i = x /\ mm i = m.
  Proof.
    intro H. apply (In_nth _ _ (0, 1)) in H. destruct H as (k & Hk & E). exists (Z.of_nat k). unfold zlen.
    rewrite Nat2Z.id, E. repeat split; cbn; lia.
  Qed.
  Lemma solves_iff X : solves eq X <-> forall j, 0 <= j < zlen eq -> (mm j | X - xx j).
  Proof.
    split.
    - intros H j Hj. apply H. now apply nth_in.
    - intros H x m Hi. destruct (in_nth x m Hi) as (i & Hr & <- & <-). auto.
  Qed.
  Lemma coprime_iff : pairwise_coprime eq <-> coprime_upto eq (zlen eq).
  Proof.
    split.
    - intros H j k Hj Hk. apply (H j k (nth (Z.to_nat j) eq (0, 1)) (nth (Z.to_nat k) eq (0, 1))); try lia; apply vget_nth; lia.
    - intros H i j p q N Ei Ej. pose proof (vget_range _ _ _ Ei). pose proof (vget_range _ _ _ Ej).
      rewrite (vget_nth (0, 1)) in Ei, Ej by auto. injection Ei as <-. injection Ej as <-.
      destruct (Z_lt_ge_dec i j); [apply H; lia|]. rewrite Z.gcd_comm. apply H; lia.
  Qed.
  Lemma W_prod : W eq (zlen eq) = fold_right Z.mul 1 (map snd eq).
  Proof.
    assert (E : slice 0 (zlen eq) (map snd eq) = map snd eq).
    { unfold slice. cbn [Z.to_nat skipn]. rewrite firstn_all2; auto. rewrite map_length. unfold zlen. lia. }
    rewrite <- E. rewrite (prod_rep Z.mul 1 (map snd eq) (zlen eq) (fun i => mm i)); try lia; [reflexivity|].
    split; [apply zlen_map|]. intros i Hi. rewrite (vget_nth (snd (0, 1))) by (rewrite zlen_map; lia). now rewrite map_nth.
  Qed.
  Theorem garner_list M : int_equations eq -> 0 < M < 2 ^ 31 ->
    (pairwise_coprime eq -> exists X, garner eq M = Ok (X mod M) /\ 0 <= X < fold_right Z.mul 1 (map snd eq) /\ solves eq X /\
       forall Y, 0 <= Y -> solves eq Y -> X <= Y) /\
    (~ pairwise_coprime eq -> garner eq M = Abort).
  Proof.
    intros HI HM. destruct (garner_main eq) with (M := M) as [(X & E & B & S & L & C)|(E & N)]; auto.
    - intros i Hi. apply (HI _ _ (nth_in i Hi)).
    - intros i Hi. apply (HI _ _ (nth_in i Hi)).
    - split.
      + intros _. exists X. split; auto. rewrite <- W_prod. split; auto. split; [now apply solves_iff|].
        intros Y HY SY. apply L; auto. now apply solves_iff.
      + intro N. exfalso. apply N. now apply coprime_iff.
    - split; auto. intro C. exfalso. apply coprime_iff in C. destruct N as (j & k & H1 & H2 & H3). apply H3. apply C; lia.
  Qed.
End List.
