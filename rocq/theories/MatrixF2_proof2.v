(* products, powers and the inverse *)
From Verif Require Import Base BaseLemmas ListZ ListMore MatrixF2_model MatrixF2_spec MatrixF2_lin MatrixF2_elim MatrixF2_proof.

Lemma mat_e1 n : 0 <= n -> exists e, mf_e1 n = Ok e /\ bmat n n e /\ forall i, 0 <= i < n -> brow e i = unit n i.
Proof.
  intros Hn. unfold mf_e1.
  destruct (for_inv (fun i e => zlen e = n /\ forall k, 0 <= k < n -> brow e k = if k <? i then unit n k else zeros n) 0 n
    (fun i r => let* row := vget r i in let* row := vset row i true in vset r i row) (vrep n (vrep n false))) as (e & E & Z1 & R).
  - auto.
  - split; [now apply zlen_vrep|]. intros k Hk. destruct (Z.ltb_spec k 0); [lia|].
    pose proof (vget_vrep n (vrep n false) k Hk) as V. rewrite (vget_row []) in V by (rewrite zlen_vrep; lia). now injection V.
  - intros i e Hi (Z1 & R). rewrite (vget_row []) by lia. cbn [bind]. rewrite R by auto. rewrite Z.ltb_irrefl.
    rewrite vset_ok by (rewrite zeros_len; lia). cbn [bind]. rewrite vset_ok by lia. eexists. split; [reflexivity|].
    split; [now rewrite zlen_zupd|]. intros k Hk. rewrite row_zupd by lia.
    destruct (Z.eqb_spec i k) as [->|Ne]; [now rewrite (proj2 (Z.ltb_lt k (k + 1))) by lia|].
    rewrite R by auto. destruct (Z.ltb_spec k i), (Z.ltb_spec k (i + 1)); auto; lia.
  - exists e. split; auto. assert (Q : forall i, 0 <= i < n -> brow e i = unit n i) by (intros i Hi; rewrite R by auto; now rewrite (proj2 (Z.ltb_lt i n)) by lia).
    split; auto. split; auto. intros i Hi. rewrite Q by auto. apply unit_len. lia.
Qed.
Lemma times_row n a x i : zlen a = n -> 0 <= i < n -> vget (times a x) i = Ok (inner (brow a i) x).
Proof. intros. unfold times. rewrite vget_map, (vget_row []) by lia. reflexivity. Qed.
Lemma times_len a x : zlen (times a x) = zlen a. Proof. apply zlen_map. Qed.
Lemma times_eq n a x y : zlen a = n -> zlen y = n -> (times a x = y <-> forall i, 0 <= i < n -> inner (brow a i) x = bit y i).
Proof.
  intros Z1 Zy. split.
  - intros <- i Hi. symmetry. apply bit_vget. now apply (times_row n).
  - intros H. apply list_eq; [rewrite times_len; lia|]. intros i Hi. rewrite times_len in Hi.
    rewrite (times_row n) by (auto; lia). rewrite vget_bit by lia. now rewrite H by lia.
Qed.

(* inv *)
Definition pwf n (r : list bool * list bool) := zlen (fst r) = n /\ zlen (snd r) = n.
Definition pad (r s : list bool * list bool) := (plus (fst r) (fst s), plus (snd r) (snd s)).
Definition ptb (j : Z) (r : list bool * list bool) := bit (fst r) j.
Lemma ptest_ok n r j : pwf n r -> 0 <= j < n -> test_pair j r = Ok (ptb j r).
Proof. intros [A B] H. apply vget_bit. lia. Qed.
Lemma padd_ok n r s : pwf n r -> pwf n s -> add_pair r s = Ok (pad r s).
Proof. intros [A B] [C D]. unfold add_pair. rewrite (bs_xor_ok _ _ n), (bs_xor_ok (snd r) (snd s) n) by auto. reflexivity. Qed.
Lemma padd_wf n r s : pwf n r -> pwf n s -> pwf n (pad r s).
Proof. intros [A B] [C D]. split; cbn; rewrite plus_len; lia. Qed.
Lemma padd_tb n r s j : pwf n r -> pwf n s -> 0 <= j < n -> ptb j (pad r s) = xorb (ptb j r) (ptb j s).
Proof. intros [A B] [C D] H. apply bit_plus; lia. Qed.
Notation prow := (row (@nil bool, @nil bool)).
Notation pmat n := (mat (@nil bool, @nil bool) (pwf n)).
Notation pequiv n := (equiv (@nil bool, @nil bool) (pwf n) pad).
Definition p_tri n := triangulate_ok (@nil bool, @nil bool) test_pair add_pair (pwf n) n ptb pad (ptest_ok n) (padd_ok n) (padd_wf n) (padd_tb n).
Definition p_above n := clear_above_ok (@nil bool, @nil bool) test_pair add_pair (pwf n) n ptb pad (ptest_ok n) (padd_ok n) (padd_wf n) (padd_tb n).

Lemma prow_combine a b i : zlen a = zlen b -> prow (combine a b) i = (brow a i, brow b i).
Proof. intros. unfold row. apply combine_nth. unfold zlen in H. lia. Qed.
Lemma zlen_combine {A B} (a : list A) (b : list B) : zlen a = zlen b -> zlen (combine a b) = zlen a.
Proof. intros. unfold zlen in *. rewrite combine_length. lia. Qed.
Lemma brow_map (f : list bool * list bool -> list bool) ab i : 0 <= i < zlen ab -> brow (map f ab) i = f (prow ab i).
Proof.
  intros. assert (V : vget (map f ab) i = Ok (brow (map f ab) i)) by (apply vget_row; now rewrite zlen_map).
  rewrite vget_map, (vget_row ([], [])) in V by auto. cbn in V. congruence.
Qed.
Definition pphi (x y : list bool) (r : list bool * list bool) : bool := xorb (inner (fst r) x) (inner (snd r) y).
Lemma pphi_linear n x y : linear (pwf n) pad (pphi x y).
Proof.
  intros r s [A B] [C D]. unfold pphi, pad. cbn [fst snd]. rewrite !inner_plus_l by lia.
  destruct (inner (fst r) x), (inner (fst s) x), (inner (snd r) y), (inner (snd s) y); reflexivity.
Qed.
Lemma xorb_zero a b : xorb a b = false <-> a = b.
Proof. destruct a, b; cbn; split; congruence. Qed.

Lemma inv_ok n a : 0 <= n -> shape n n a ->
  exists o, mf_inv n n a = Ok o /\
    match o with
    | Some b => shape n n b /\ forall x y, zlen x = n -> zlen y = n -> (times a x = y <-> x = times b y)
    | None => exists x, kernel n a x /\ x <> zeros n
    end.
Proof.
  intros Hn S. apply shape_mat in S. unfold mf_inv. rewrite Z.eqb_refl. cbn [assert_ bind].
  destruct (mat_e1 n Hn) as (e & E & Me & Re). rewrite E. cbn [bind].
  assert (Lc : zlen a = zlen e) by (destruct S, Me; lia).
  assert (M0 : pmat n n (combine a e)).
  { split; [rewrite zlen_combine; [apply S|auto]|]. intros i Hi. rewrite prow_combine by auto. split; cbn; [now apply S|now apply Me]. }
  destruct (p_tri n n (combine a e) M0 ltac:(lia)) as (oa & Et & Q). rewrite Et. cbn [bind]. destruct oa as [ab|].
  - destruct Q as (M1 & Eq1 & T).
    destruct (ford_inv (fun i ab' => pmat n n ab' /\ pequiv n n ab ab' /\
      (forall c, 0 <= c < i -> ptb c (prow ab' c) = true /\ forall k, c < k < n -> ptb c (prow ab' k) = false) /\
      (forall c, i <= c < n -> forall k, 0 <= k < n -> ptb c (prow ab' k) = (c =? k)))
      n 0 (fun i ab => clear_above test_pair add_pair ab (i - 1) (i - 1)) ab) as (ab2 & E2 & M2 & Eq2 & _ & U); auto.
    + split; auto. split; [apply equiv_refl|]. split; auto. intros; lia.
    + intros i ab' Hi (M' & Eq' & T' & U').
      destruct (T' (i - 1) ltac:(lia)) as (Di & Zi).
      destruct (p_above n n ab' (i - 1) (i - 1) M' ltac:(lia) ltac:(lia) Di) as (ab2 & E2 & M2 & Eq2 & L2 & B2 & C2).
      exists ab2. split; auto. split; auto. split; [eapply equiv_trans; eauto|]. split.
      * intros c Hc. destruct (T' c ltac:(lia)) as (Dc & Zc).
        assert (Q : ptb c (prow ab' (i - 1)) = false) by (apply Zc; lia).
        split; [rewrite C2 by (auto; lia); auto|]. intros k Hk. rewrite C2 by (auto; lia). apply Zc. lia.
      * intros c Hc k Hk. destruct (Z.eq_dec c (i - 1)) as [->|Nc].
        -- destruct (Z_lt_le_dec k (i - 1)); [rewrite B2 by lia; symmetry; apply Z.eqb_neq; lia|]. rewrite L2 by lia.
           destruct (Z.eq_dec k (i - 1)) as [->|]; [now rewrite Z.eqb_refl|]. rewrite Zi by lia. symmetry. apply Z.eqb_neq. lia.
        -- rewrite C2; try lia; [now apply U'; lia|]. rewrite U' by lia. apply Z.eqb_neq. lia.
    + rewrite E2. cbn [bind]. eexists. split; [reflexivity|]. cbn beta iota. destruct M2 as [Z2 W2].
      assert (Sb : shape n n (map snd ab2)).
      { apply shape_mat. split; [now rewrite zlen_map|]. intros i Hi. rewrite brow_map by lia. apply W2. auto. }
      split; auto. intros x y Zx Zy.
      assert (Eq : pequiv n n (combine a e) ab2) by (eapply equiv_trans; eauto).
      specialize (Eq (pphi x y) (pphi_linear n x y)). unfold vanish in Eq.
      rewrite (times_eq n) by (auto; apply S).
      assert (F1 : (forall i, 0 <= i < n -> inner (brow a i) x = bit y i) <-> (forall i, 0 <= i < n -> pphi x y (prow (combine a e) i) = false)).
      { split; intros H i Hi; specialize (H i Hi); rewrite prow_combine in * by auto; unfold pphi in *; cbn [fst snd] in *;
          rewrite Re in * by auto; rewrite (inner_comm (unit n i)), inner_unit in * by auto; now apply xorb_zero. }
      rewrite F1, Eq.
      assert (F2 : (times (map snd ab2) y = x) <-> (forall i, 0 <= i < n -> pphi x y (prow ab2 i) = false)).
      { rewrite (times_eq n) by (auto; rewrite zlen_map; auto).
        assert (Fi : forall i, 0 <= i < n -> inner (fst (prow ab2 i)) x = bit x i).
        { intros i Hi. replace (fst (prow ab2 i)) with (unit n i); [rewrite inner_comm, inner_unit by auto; auto|].
          pose proof (W2 i Hi) as [A B]. apply bits_eq; [rewrite unit_len; lia|]. intros j Hj. rewrite unit_len in Hj by auto.
          rewrite bit_unit by auto. fold (ptb j (prow ab2 i)). rewrite U by lia. apply Z.eqb_sym. }
        assert (Ph : forall i, 0 <= i < n -> pphi x y (prow ab2 i) = xorb (bit x i) (inner (brow (map snd ab2) i) y)).
        { intros i Hi. unfold pphi. rewrite Fi, brow_map by lia. reflexivity. }
        split; intros H i Hi; specialize (H i Hi).
        - rewrite Ph by auto. apply (proj2 (xorb_zero _ _)). auto.
        - rewrite Ph in H by auto. apply (proj1 (xorb_zero _ _)) in H. auto. }
      rewrite <- F2. split; auto.
  - destruct Q as (ab & i & M1 & Eq1 & Hi & T & Z0). eexists. split; [reflexivity|]. cbn beta iota.
    destruct M1 as [Z1 W1].
    assert (Mf : bmat n n (map fst ab)) by (split; [now rewrite zlen_map|]; intros k Hk; rewrite brow_map by lia; apply W1; auto).
    destruct (singular n (map fst ab) i Mf Hi) as (x & Kx & Nx).
    + intros c Hc. destruct (T c Hc) as [A B]. rewrite brow_map by lia. split; auto. intros k Hk. rewrite brow_map by lia. now apply B.
    + intros k Hk. rewrite brow_map by lia. now apply Z0.
    + exists x. split; auto. rewrite (kernel_row n n a) by apply S. rewrite (kernel_row n n (map fst ab)) in Kx by apply Mf.
      destruct Kx as [Zx K]. split; auto.
      specialize (Eq1 (pphi x (zeros n)) (pphi_linear n x (zeros n))). unfold vanish in Eq1.
      assert (H : forall i, 0 <= i < n -> pphi x (zeros n) (prow ab i) = false).
      { intros k Hk. unfold pphi. rewrite inner_zeros, xorb_false_r. specialize (K k Hk). now rewrite brow_map in K by lia. }
      intros k Hk. apply Eq1 with (i := k) in H; auto. rewrite prow_combine in H by auto. unfold pphi in H. cbn [fst snd] in H.
      now rewrite inner_zeros, xorb_false_r in H.
Qed.

(* products *)
Lemma parity x y : zlen x = zlen y -> exists w, bs_and x y = Ok w /\ Z.odd (bs_count w) = inner x y.
Proof.
  intros H. unfold bs_and. rewrite (proj2 (Z.eqb_eq _ _) H). cbn [assert_ bind]. eexists. split; [reflexivity|].
  clear H. unfold bs_count. revert y. induction x as [|a x IH]; intros [|b y]; auto. cbn [map2]. rewrite inner_cons, <- IH.
  destruct (a && b); cbn [filter xorb]; [|now destruct (Z.odd _)]. rewrite zlen_cons, Z.odd_add. now destruct (Z.odd _).
Qed.
Lemma apply_ok n m a x : 0 <= n -> shape n m a -> zlen x = m -> mf_apply n m a x = Ok (times a x).
Proof.
  intros Hn [Z1 W]%shape_mat Zx. unfold mf_apply. rewrite (proj2 (Z.eqb_eq m _)) by lia. cbn [assert_ bind].
  destruct (for_inv (fun i y => zlen y = n /\ forall k, 0 <= k < i -> bit y k = inner (brow a k) x) 0 n
    (fun i y => let* row := vget a i in let* w := bs_and row x in vset y i (Z.odd (bs_count w))) (vrep n false)) as (y & E & Zy & B); auto.
  - split; [now apply zlen_vrep|intros; lia].
  - intros i y Hi (Zy & B). rewrite (vget_row []) by lia. cbn [bind].
    destruct (parity (brow a i) x) as (w & Ew & Pw); [rewrite W; lia|]. rewrite Ew. cbn [bind]. rewrite vset_ok by lia.
    eexists. split; [reflexivity|]. split; [now rewrite zlen_zupd|]. intros k Hk. rewrite bit_zupd by lia.
    destruct (Z.eqb_spec i k) as [->|Ne]; auto. apply B. lia.
  - rewrite E. f_equal. symmetry. apply (times_eq n); auto. intros i Hi. symmetry. now apply B.
Qed.

(* a nested loop that fills an n by m matrix *)
Lemma fill_ok n m (f : Z -> Z -> bool) body : 0 <= n -> 0 <= m ->
  (forall i j z, 0 <= i < n -> 0 <= j < m -> bmat m n z -> body i j z = Ok (zupd z i (zupd (brow z i) j (f i j)))) ->
  exists z, for_ 0 n (fun i z => for_ 0 m (fun j z => body i j z) z) (vrep n (vrep m false)) = Ok z /\ bmat m n z /\
    forall i j, 0 <= i < n -> 0 <= j < m -> bit (brow z i) j = f i j.
Proof.
  intros Hn Hm H.
  destruct (for_inv (fun i z => bmat m n z /\ forall k j, 0 <= k < i -> 0 <= j < m -> bit (brow z k) j = f k j) 0 n
    (fun i z => for_ 0 m (fun j z => body i j z) z) (vrep n (vrep m false))) as (z & E & M & B); auto.
  - split; [|intros; lia]. split; [now apply zlen_vrep|]. intros i Hi.
    pose proof (vget_vrep n (vrep m false) i Hi) as V. rewrite (vget_row []) in V by (rewrite zlen_vrep; lia). injection V as ->. now apply zlen_vrep.
  - intros i z Hi (M & B).
    destruct (for_inv (fun j z => bmat m n z /\ (forall k c, 0 <= k < i -> 0 <= c < m -> bit (brow z k) c = f k c) /\
      forall c, 0 <= c < j -> bit (brow z i) c = f i c) 0 m (fun j z => body i j z) z) as (z2 & E2 & M2 & B2 & B3); auto.
    + split; auto. split; auto. intros; lia.
    + intros j z1 Hj (M1 & B1 & C1). rewrite H by (auto; lia). eexists. split; [reflexivity|]. pose proof M1 as [Z1 W1].
      assert (Wn : zlen (zupd (brow z1 i) j (f i j)) = m) by (rewrite zlen_zupd; apply W1; lia).
      split; [apply mat_zupd; auto|]. split.
      * intros k c Hk Hc. rewrite row_zupd by lia. destruct (Z.eqb_spec i k); [lia|]. auto.
      * intros c Hc. rewrite row_zupd, Z.eqb_refl by lia. rewrite bit_zupd by (rewrite W1; lia).
        destruct (Z.eqb_spec j c) as [->|Ne]; auto. apply C1. lia.
    + exists z2. split; auto. split; auto. intros k j Hk Hj. destruct (Z.eq_dec k i) as [->|]; auto. apply B2; lia.
  - eauto.
Qed.
Definition product_rows (n p : Z) (x y z : list (list bool)) : Prop :=
  forall i j, 0 <= i < n -> 0 <= j < p -> bit (brow z i) j = inner (brow x i) (map (fun r => bit r j) y).

Lemma transposed_ok n m a : 0 <= n -> 0 <= m -> shape n m a ->
  exists t, mf_transposed n m a = Ok t /\ bmat n m t /\ forall i j, 0 <= i < m -> 0 <= j < n -> bit (brow t i) j = bit (brow a j) i.
Proof.
  intros Hn Hm [Z1 W]%shape_mat. unfold mf_transposed.
  destruct (for_inv (fun i t => bmat n m t /\ forall k j, 0 <= k < i -> 0 <= j < m -> bit (brow t j) k = bit (brow a k) j) 0 n
    (fun i t => for_ 0 m (fun j t => let* row := vget a i in let* v := vget row j in
    let* tr := vget t j in let* tr := vset tr i v in vset t j tr) t) (vrep m (vrep n false))) as (t & E & M & B); auto.
  - split; [|intros; lia]. split; [now apply zlen_vrep|]. intros i Hi.
    pose proof (vget_vrep m (vrep n false) i Hi) as V. rewrite (vget_row []) in V by (rewrite zlen_vrep; lia). injection V as ->. now apply zlen_vrep.
  - intros i t Hi (M & B). rewrite !(vget_row [] a i) by lia. cbn [bind].
    destruct (for_inv (fun c t => bmat n m t /\ (forall k j, 0 <= k < i -> 0 <= j < m -> bit (brow t j) k = bit (brow a k) j) /\
      forall j, 0 <= j < c -> bit (brow t j) i = bit (brow a i) j) 0 m (fun j t => let* v := vget (brow a i) j in
    let* tr := vget t j in let* tr := vset tr i v in vset t j tr) t) as (t2 & E2 & M2 & B2 & B3); auto.
    + split; auto. split; auto. intros; lia.
    + intros j t1 Hj (M1 & B1 & C1). pose proof M1 as [Zt Wt]. rewrite vget_bit by (rewrite W; lia). cbn [bind].
      rewrite (vget_row []) by lia. cbn [bind]. rewrite vset_ok by (rewrite Wt; lia). cbn [bind]. rewrite vset_ok by lia.
      eexists. split; [reflexivity|].
      assert (Wn : zlen (zupd (brow t1 j) i (bit (brow a i) j)) = n) by (rewrite zlen_zupd; apply Wt; lia).
      split; [apply mat_zupd; auto|]. split.
      * intros k c Hk Hc. rewrite row_zupd by lia. destruct (Z.eqb_spec j c) as [->|Ne]; auto.
        rewrite bit_zupd by (rewrite Wt; lia). destruct (Z.eqb_spec i k); [lia|]. auto.
      * intros c Hc. rewrite row_zupd by lia. destruct (Z.eqb_spec j c) as [->|Ne].
        -- rewrite bit_zupd by (rewrite Wt; lia). now rewrite Z.eqb_refl.
        -- apply C1. lia.
    + exists t2. split; auto. split; auto. intros k j Hk Hj. destruct (Z.eq_dec k i) as [->|]; auto. apply B2; lia.
  - eauto.
Qed.
Lemma mul_rows n m p x y : 0 <= n -> 0 <= m -> 0 <= p -> shape n m x -> shape m p y ->
  exists z, mf_mul n m m p x y = Ok z /\ bmat p n z /\ product_rows n p x y z.
Proof.
  intros Hn Hm Hp Sx Sy. unfold mf_mul. destruct (transposed_ok m p y Hm Hp Sy) as (t & E & Mt & Bt). rewrite E. cbn [bind].
  rewrite Z.eqb_refl. cbn [assert_ bind]. apply shape_mat in Sx as [Zx Wx]. destruct Mt as [Zt Wt].
  apply (fill_ok n p (fun i j => inner (brow x i) (map (fun r => bit r j) y))); auto. intros i j z Hi Hj [Zz Wz].
  rewrite !(vget_row []) by lia. cbn [bind]. destruct (parity (brow x i) (brow t j)) as (w & Ew & Pw); [rewrite Wx, Wt; lia|].
  rewrite Ew. cbn [bind]. rewrite vset_ok by (rewrite Wz; lia). cbn [bind]. rewrite vset_ok by lia. do 3 f_equal. rewrite Pw. f_equal.
  destruct Sy as [Zy Wy]. apply list_eq; [rewrite zlen_map, Wt; lia|]. intros k Hk. rewrite Wt in Hk by lia. rewrite vget_bit by (rewrite Wt; lia).
  rewrite Bt by lia. rewrite vget_map, (vget_row []) by lia. reflexivity.
Qed.
Lemma inner_and a r v : inner (map (fun b => a && b) r) v = a && inner r v.
Proof. revert v. induction r; intros [|b v]; try (now rewrite andb_false_r). cbn [map]. rewrite !inner_cons, IHr. destruct a, a0, b, (inner r v); reflexivity. Qed.
Lemma map_bit r p : zlen r = p -> map (fun j => bit r j) (zrange p) = r.
Proof.
  intros <-. pose proof (zlen_nonneg r). apply list_eq; [rewrite zlen_map, zlen_zrange; auto|]. intros i Hi.
  rewrite zlen_map, zlen_zrange in Hi by auto. rewrite vget_map, vget_zrange by auto. cbn. symmetry. now apply vget_bit.
Qed.
Lemma inner_exchange p v xi y : zlen xi = zlen y -> (forall r, In r y -> zlen r = p) -> zlen v = p ->
  inner (map (fun j => inner xi (map (fun r => bit r j) y)) (zrange p)) v = inner xi (times y v).
Proof.
  unfold zlen at 1 2. intros L W Zv. pose proof (zlen_nonneg v). revert y L W. induction xi as [|a xi IH]; intros [|r y] L W; try (cbn in L; lia).
  - cbn [map]. transitivity (inner (zeros p) v); [|apply inner_zeros_l]. f_equal. apply list_eq; [rewrite zlen_map, zlen_zrange, zeros_len; lia|].
    intros i Hi. rewrite zlen_map, zlen_zrange in Hi by lia. rewrite vget_map, vget_zrange by auto. symmetry. rewrite vget_bit by (rewrite zeros_len; lia). now rewrite bit_zeros.
  - cbn [map times]. rewrite inner_cons. fold (times y v). rewrite <- IH by (try (intros; apply W; now right); cbn in L; lia).
    replace (map (fun j => inner (a :: xi) (bit r j :: map (fun r => bit r j) y)) (zrange p))
      with (plus (map (fun b => a && b) r) (map (fun j => inner xi (map (fun r => bit r j) y)) (zrange p))).
    + rewrite inner_plus_l, inner_and; auto. rewrite !zlen_map, zlen_zrange by lia. apply W. now left.
    + assert (Zr : zlen r = p) by (apply W; now left). rewrite <- (map_bit r p Zr) at 1. rewrite map_map. unfold plus. clear. induction (zrange p); cbn; f_equal; auto.
Qed.
Lemma mul_times n m p x y z v : shape n m x -> shape m p y -> bmat p n z -> product_rows n p x y z -> zlen v = p ->
  times z v = times x (times y v).
Proof.
  intros Sx Sy [Zz Wz] PR Zv. pose proof Sx as [Zx Wx]%shape_mat. pose proof Sy as [Zy Wy].
  apply (times_eq n); auto; [now rewrite times_len|]. intros i Hi. symmetry. apply bit_vget.
  rewrite (times_row n) by auto. f_equal. rewrite <- (inner_exchange p); auto; [|rewrite Wx; lia]. f_equal.
  pose proof (zlen_nonneg v). apply list_eq; [rewrite zlen_map, zlen_zrange, Wz; lia|]. intros j Hj. rewrite zlen_map, zlen_zrange in Hj by lia.
  rewrite vget_map, vget_zrange by auto. cbn [bind]. rewrite vget_bit by (rewrite Wz; lia). now rewrite PR.
Qed.
Lemma mul_ok n m p x y : 0 <= n -> 0 <= m -> 0 <= p -> shape n m x -> shape m p y ->
  exists z, mf_mul n m m p x y = Ok z /\ shape n p z /\ forall v, zlen v = p -> times z v = times x (times y v).
Proof.
  intros Hn Hm Hp Sx Sy. destruct (mul_rows n m p x y Hn Hm Hp Sx Sy) as (z & E & M & PR). exists z. split; auto.
  split; [now apply shape_mat|]. intros v Zv. now apply (mul_times n m p).
Qed.
Lemma add_mat_ok n m x y : 0 <= n -> shape n m x -> shape n m y ->
  exists z, mf_add x y n m n m = Ok z /\ shape n m z /\ forall v, zlen v = m -> times z v = plus (times x v) (times y v).
Proof.
  intros Hn Sx Sy. pose proof Sx as [Zx Wx]%shape_mat. pose proof Sy as [Zy Wy]%shape_mat. unfold mf_add. rewrite !Z.eqb_refl. cbn [andb assert_ bind].
  destruct (for_inv (fun i z => bmat m n z /\ forall k, 0 <= k < n -> brow z k = if k <? i then plus (brow x k) (brow y k) else brow x k) 0 n
    (fun i x => let* xi := vget x i in let* yi := vget y i in let* z := bs_xor xi yi in vset x i z) x) as (z & E & M & R); auto.
  - split; [now split|]. intros k Hk. destruct (Z.ltb_spec k 0); [lia|auto].
  - intros i z Hi (M & R). pose proof M as [Zz Wz]. rewrite !(vget_row []) by lia. cbn [bind]. rewrite R, Z.ltb_irrefl by auto.
    rewrite (bs_xor_ok _ _ m) by auto. cbn [bind]. rewrite vset_ok by lia. eexists. split; [reflexivity|].
    assert (Wn : zlen (plus (brow x i) (brow y i)) = m) by (rewrite plus_len; rewrite ?Wx, ?Wy; lia).
    split; [apply mat_zupd; auto|]. intros k Hk. rewrite row_zupd by lia. destruct (Z.eqb_spec i k) as [->|Ne].
    + now rewrite (proj2 (Z.ltb_lt k (k + 1))) by lia.
    + rewrite R by auto. destruct (Z.ltb_spec k i), (Z.ltb_spec k (i + 1)); auto; lia.
  - exists z. split; auto. split; [now apply shape_mat|]. intros v Zv. destruct M as [Zz Wz].
    apply (times_eq n); auto; [rewrite plus_len; rewrite !times_len; lia|]. intros i Hi. rewrite R, (proj2 (Z.ltb_lt i n)) by lia.
    rewrite inner_plus_l by (rewrite Wx, Wy; lia). rewrite bit_plus by (rewrite ?times_len; lia).
    f_equal; symmetry; apply bit_vget; now apply (times_row n).
Qed.
Lemma times_id n e v : 0 <= n -> bmat n n e -> (forall i, 0 <= i < n -> brow e i = unit n i) -> zlen v = n -> times e v = v.
Proof.
  intros Hn [Z1 W] R Zv. apply (times_eq n); auto. intros i Hi. rewrite R by auto. rewrite inner_comm. now apply inner_unit.
Qed.
Fixpoint iter_times (a : list (list bool)) (k : nat) (v : list bool) : list bool :=
  match k with O => v | S k => times a (iter_times a k v) end.
Lemma iter_nat a k v : iter_times a k v = Nat.iter k (times a) v.
Proof. induction k; cbn; auto. now rewrite IHk. Qed.
Lemma iter_len n a k v : zlen a = n -> zlen v = n -> zlen (iter_times a k v) = n.
Proof. intros. destruct k; cbn; auto. now rewrite times_len. Qed.
Lemma iter_comm n a k v : zlen a = n -> zlen v = n -> iter_times a k (times a v) = times a (iter_times a k v).
Proof. intros. induction k; cbn; auto. now rewrite IHk. Qed.
Lemma iter_square n a q k v : zlen a = n -> zlen q = n -> (forall v, zlen v = n -> times q v = times a (times a v)) -> zlen v = n ->
  iter_times q k v = iter_times a (2 * k) v.
Proof.
  intros Za Zq H Zv. induction k; auto. replace (2 * S k)%nat with (S (S (2 * k))) by lia. cbn [iter_times].
  rewrite IHk, H; auto. now apply iter_len.
Qed.
Lemma pow_ok n a b : 0 <= n -> shape n n a -> 0 <= b < 2 ^ 63 ->
  exists r, mf_pow n n a b = Ok r /\ shape n n r /\ forall v, zlen v = n -> times r v = Nat.iter (Z.to_nat b) (times a) v.
Proof.
  intros Hn S Hb. unfold mf_pow. rewrite Z.eqb_refl. cbn [assert_ bind].
  destruct (mat_e1 n Hn) as (e & E & Me & Re). rewrite E. cbn [bind].
  set (P := fun (t : list (list bool) * list (list bool) * Z) (k : nat) => let '(p, r, c) := t in
     shape n n p /\ shape n n r /\ 0 <= c < 2 ^ Z.of_nat k /\
     forall v, zlen v = n -> times r (iter_times p (Z.to_nat c) v) = iter_times a (Z.to_nat b) v).
  assert (G : forall k t, P t k -> exists r, loop (Datatypes.S k) (fun '(p, r, b) =>
    if b =? 0 then Ok (inr r) else
    let* r := if Z.odd b then mf_mul n n n n r p else Ok r in
    let* p := mf_mul n n n n p p in
    Ok (inl (p, r, Z.shiftr b 1))) t = Ok r /\ shape n n r /\ forall v, zlen v = n -> times r v = iter_times a (Z.to_nat b) v).
  { induction k as [|k IH]; intros [[p r] c] (Sp & Sr & Hc & H).
    - assert (c = 0) by (change (2 ^ Z.of_nat 0) with 1 in Hc; lia). subst c. exists r. split; [reflexivity|]. split; auto.
    - cbn [loop]. destruct (Z.eqb_spec c 0) as [->|Nc].
      + exists r. cbn [bind]. split; auto.
      + assert (Hr : exists r', (if Z.odd c then mf_mul n n n n r p else Ok r) = Ok r' /\ shape n n r' /\
          forall v, zlen v = n -> times r' v = if Z.odd c then times r (times p v) else times r v).
        { destruct (Z.odd c); [now apply mul_ok|]. exists r. auto. }
        destruct Hr as (r' & Er & Sr' & Tr). rewrite Er. cbn [bind].
        destruct (mul_ok n n n p p Hn Hn Hn Sp Sp) as (q & Eq & Sq & Tq). rewrite Eq. cbn [bind].
        apply (IH (q, r', Z.shiftr c 1)). split; auto. split; auto. rewrite Z.shiftr_div_pow2 by lia. change (2 ^ 1) with 2.
        rewrite Nat2Z.inj_succ, Z.pow_succ_r in Hc by lia. split; [split; [apply Z.div_pos; lia|apply Z.div_lt_upper_bound; lia]|].
        intros v Zv. assert (Zp : zlen p = n) by apply Sp. assert (Zq : zlen q = n) by apply Sq.
        rewrite (iter_square n p q) by auto. pose proof (Z.div2_odd c) as D. rewrite Z.div2_div in D.
        assert (0 <= c / 2) by (apply Z.div_pos; lia).
        rewrite Tr by now apply iter_len. destruct (Z.odd c); cbn [Z.b2z] in D.
        * replace (times p (iter_times p (2 * Z.to_nat (c / 2)) v)) with (iter_times p (Z.to_nat c) v); auto.
          replace (Z.to_nat c) with (Datatypes.S (2 * Z.to_nat (c / 2))) by lia. reflexivity.
        * replace (2 * Z.to_nat (c / 2))%nat with (Z.to_nat c) by lia. auto. }
  destruct (G 64%nat (a, e, b)) as (r & Er & Sr & Tr).
  - split; auto. split; [now apply shape_mat|]. split; [split; [lia|]; change (Z.of_nat 64) with 64; pose proof (Z.pow_lt_mono_r 2 63 64); lia|].
    intros v Zv. apply (times_id n); auto. apply iter_len; auto. apply S.
  - exists r. split; [exact Er|]. split; auto. intros v Zv. rewrite Tr by auto. apply iter_nat.
Qed.
