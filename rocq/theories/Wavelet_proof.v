(* WaveletMatrix *)
From Verif Require Import Base BaseLemmas ListZ ListMore Seq Sorting BitVector_model BitVector_spec BitVector_proof Wavelet_model Wavelet_spec.
From Coq Require Import Permutation Sorted.

Lemma bit_of_testbit v log : 0 <= log -> bit_of v log = Z.testbit v log.
Proof.
  intro H. unfold bit_of. change 1 with (Z.ones 1). rewrite Z.land_ones by lia. change (2 ^ 1) with 2.
  rewrite Z.shiftr_div_pow2 by lia. rewrite Z.testbit_eqb by lia.
  pose proof (Z.mod_pos_bound (v / 2 ^ log) 2 ltac:(lia)). destruct (Z.eqb_spec ((v / 2 ^ log) mod 2) 1) as [E|E]; [rewrite E; reflexivity|].
  replace ((v / 2 ^ log) mod 2) with 0 by lia. reflexivity.
Qed.

(* slices *)
Lemma skipn_skipn' {A} (x y : nat) (l : list A) : skipn x (skipn y l) = skipn (y + x) l.
Proof. revert l. induction y as [|y IH]; intros [|a l]; auto; [now rewrite !skipn_nil|]. cbn [skipn Nat.add]. apply IH. Qed.
Lemma slice_parts {A} (l r : Z) (a : list A) : 0 <= l <= r -> a = firstn (Z.to_nat l) a ++ slice l r a ++ skipn (Z.to_nat r) a.
Proof.
  intro H. unfold slice. rewrite <- (firstn_skipn (Z.to_nat l) a) at 1. f_equal.
  rewrite <- (firstn_skipn (Z.to_nat (r - l)) (skipn (Z.to_nat l) a)) at 1. f_equal. rewrite skipn_skipn'. f_equal. lia.
Qed.
Lemma slice_mid {A} (x y z : list A) : slice (zlen x) (zlen x + zlen y) (x ++ y ++ z) = y.
Proof.
  unfold slice, zlen. replace (Z.to_nat (Z.of_nat (length x) + Z.of_nat (length y) - Z.of_nat (length x))) with (length y) by lia.
  rewrite Nat2Z.id. rewrite skipn_app, skipn_all, Nat.sub_diag. cbn [app skipn]. rewrite firstn_app, firstn_all, Nat.sub_diag. cbn [firstn]. apply app_nil_r.
Qed.
Lemma zlen_slice {A} (l r : Z) (a : list A) : 0 <= l <= r -> r <= zlen a -> zlen (slice l r a) = r - l.
Proof. intros H1 H2. unfold slice, zlen in *. rewrite firstn_length, skipn_length. lia. Qed.
Lemma firstn_slice {A} (l r : Z) (a : list A) : 0 <= l <= r -> firstn (Z.to_nat r) a = firstn (Z.to_nat l) a ++ slice l r a.
Proof.
  intros H. unfold slice. rewrite <- (firstn_skipn (Z.to_nat l) (firstn (Z.to_nat r) a)). rewrite firstn_firstn, skipn_firstn_comm.
  f_equal; f_equal; lia.
Qed.
Lemma firstn_zupd {A} (v : list A) i x : 0 <= i < zlen v -> firstn (Z.to_nat (i + 1)) (zupd v i x) = firstn (Z.to_nat i) v ++ [x].
Proof.
  intro H. unfold zupd. unfold zlen in H. replace (Z.to_nat (i + 1)) with (S (Z.to_nat i)) by lia. assert (L : (Z.to_nat i < length v)%nat) by lia.
  clear H. revert L. generalize (Z.to_nat i) as k. clear i. intro k. revert v. induction k as [|k IH]; intros [|a v] L; cbn [length] in L; try lia; auto.
  cbn [upd]. cbn [firstn app]. f_equal. apply IH. lia.
Qed.

Definition part (p : Z -> bool) (a : list Z) : list Z := filter (fun x => negb (p x)) a ++ filter p a.
Lemma count_upto_filter (p : Z -> bool) (a : list Z) (f : Z -> bool) i : (forall j, 0 <= j < zlen a -> exists x, vget a j = Ok x /\ f j = p x) ->
  0 <= i <= zlen a -> count_upto f i = zlen (filter p (firstn (Z.to_nat i) a)).
Proof.
  intros H. intros [H0 H1]. revert H1. pattern i. apply natlike_ind; auto. clear i H0. intros i Hi IH L. unfold Z.succ in *.
  rewrite count_S, IH by lia. destruct (H i ltac:(lia)) as (x & Ex & ->).
  replace (Z.to_nat (i + 1)) with (S (Z.to_nat i)) by lia. rewrite (firstn_S_nth a (Z.to_nat i) x) by now apply vget_nth_error.
  rewrite filter_app, zlen_app. cbn [filter]. destruct (p x); reflexivity.
Qed.
Lemma zlen_filter_split {A} (p : A -> bool) l : zlen (filter (fun x => negb (p x)) l) + zlen (filter p l) = zlen l.
Proof. induction l as [|a l IH]; auto. cbn [filter]. destruct (p a); cbn [negb]; rewrite !zlen_cons; lia. Qed.
Lemma zlen_part p a : zlen (part p a) = zlen a.
Proof. unfold part. rewrite zlen_app. apply zlen_filter_split. Qed.
Lemma filter_eqb (p : Z -> bool) (b : bool) a : filter (fun x => Bool.eqb (p x) b) a = if b then filter p a else filter (fun x => negb (p x)) a.
Proof. destruct b; apply filter_ext; intro x; now destruct (p x). Qed.

(* the map of intervals from one level to the next *)
Lemma part_slice p a l r (b : bool) : 0 <= l <= r -> r <= zlen a ->
  let c i := zlen (filter (fun x => Bool.eqb (p x) b) (firstn (Z.to_nat i) a)) in
  let m := Z.b2z b * zlen (filter (fun x => negb (p x)) a) in
  0 <= m + c l <= m + c r /\ m + c r <= zlen a /\
  slice (m + c l) (m + c r) (part p a) = filter (fun x => Bool.eqb (p x) b) (slice l r a).
Proof.
  intros H1 H2 c m. set (q := fun x => Bool.eqb (p x) b) in *.
  assert (E : filter q a = filter q (firstn (Z.to_nat l) a) ++ filter q (slice l r a) ++ filter q (skipn (Z.to_nat r) a)).
  { rewrite (slice_parts l r a H1) at 1. now rewrite !filter_app. }
  assert (Cr : c r = c l + zlen (filter q (slice l r a))) by (unfold c; rewrite (firstn_slice l r a H1), filter_app, zlen_app; lia).
  pose proof (zlen_nonneg (filter q (slice l r a))). pose proof (zlen_nonneg (filter q (firstn (Z.to_nat l) a))).
  pose proof (zlen_nonneg (filter q (skipn (Z.to_nat r) a))). pose proof (zlen_filter_split p a) as Sp.
  pose proof (zlen_nonneg (filter (fun x => negb (p x)) a)). pose proof (zlen_nonneg (filter p a)).
  assert (Eq : filter q a = if b then filter p a else filter (fun x => negb (p x)) a) by apply filter_eqb.
  assert (Lq : zlen (filter q a) = c l + zlen (filter q (slice l r a)) + zlen (filter q (skipn (Z.to_nat r) a))).
  { rewrite E, !zlen_app. unfold c. lia. }
  assert (0 <= c l) by auto.
  rewrite Cr. destruct b; cbn [Z.b2z] in m.
  - replace m with (zlen (filter (fun x => negb (p x)) a)) by (unfold m; lia). rewrite Eq in Lq. split; [lia|]. split; [lia|].
    unfold part. rewrite <- Eq, E. rewrite Z.add_assoc. change (c l) with (zlen (filter q (firstn (Z.to_nat l) a))).
    rewrite <- zlen_app. rewrite app_assoc. apply slice_mid.
  - replace m with 0 by (unfold m; lia). rewrite Eq in Lq. split; [lia|]. split; [lia|].
    unfold part. rewrite <- Eq, E. rewrite !Z.add_0_l. rewrite <- !app_assoc. apply slice_mid.
Qed.

Section WM.
  Variables width bit_num : Z.
  Hypothesis Hb : 0 <= bit_num.
  Variable a : list Z.
  Let n := zlen a.
  Fixpoint lev (d : nat) : list Z := match d with O => a | S d => part (fun x => bit_of x (bit_num - 1 - Z.of_nat d)) (lev d) end.
  (* contents before bit j-1 is processed *)
  Definition lv (j : Z) : list Z := lev (Z.to_nat (bit_num - j)).
  Lemma lv_top : lv bit_num = a.
  Proof. unfold lv. now rewrite Z.sub_diag. Qed.
  Lemma lv_step log : 0 <= log < bit_num -> lv log = part (fun x => bit_of x log) (lv (log + 1)).
  Proof.
    intro H. unfold lv. replace (Z.to_nat (bit_num - log)) with (S (Z.to_nat (bit_num - (log + 1)))) by lia. cbn [lev].
    replace (bit_num - 1 - Z.of_nat (Z.to_nat (bit_num - (log + 1)))) with log by lia. reflexivity.
  Qed.
  Lemma zlen_lev d : zlen (lev d) = n.
  Proof. induction d as [|d IH]; cbn [lev]; auto. now rewrite zlen_part. Qed.
  Lemma zlen_lv j : zlen (lv j) = n.
  Proof. apply zlen_lev. Qed.
  Definition lbit (log i : Z) : bool := match vget (lv (log + 1)) i with Ok x => bit_of x log | _ => false end.
  Definition good_wm (w : wavelet) : Prop :=
    (forall log, 0 <= log < bit_num -> exists v, vget (wm_bv w) log = Ok v /\ good n (lbit log) v) /\
    (forall log, 0 <= log < bit_num -> vget (wm_mid w) log = Ok (zlen (filter (fun x => negb (bit_of x log)) (lv (log + 1))))).

  (* building *)
  Lemma zlen0 : 0 <= n.
  Proof. apply zlen_nonneg. Qed.
  Lemma level_bv log (A : list Z) : A = lv (log + 1) -> exists v, bv_make n (fun i => let* x := vget A i in Ok (bit_of x log)) = Ok v /\ good n (lbit log) v.
  Proof.
    intros ->. apply make_ok; [apply zlen0|]. intros i Hi. destruct (vget_Ok (lv (log + 1)) i) as (x & Ex); [rewrite zlen_lv; lia|].
    unfold lbit. rewrite Ex. reflexivity.
  Qed.
  Lemma split_loop p (A L R : list Z) : zlen A = n -> zlen L = n -> zlen R = n ->
    exists L' R', for_ 0 n (fun i '(li, ri, l, r) =>
        let* x := vget A i in
        if p x : bool then let* r := vset r ri x in Ok (li, ri + 1, l, r)
        else let* l := vset l li x in Ok (li + 1, ri, l, r)) (0, 0, L, R)
      = Ok (zlen (filter (fun x => negb (p x)) A), zlen (filter p A), L', R') /\ zlen L' = n /\ zlen R' = n /\
      firstn (Z.to_nat (zlen (filter (fun x => negb (p x)) A))) L' = filter (fun x => negb (p x)) A /\
      firstn (Z.to_nat (zlen (filter p A))) R' = filter p A.
  Proof.
    intros LA LL LR.
    match goal with |- context [for_ 0 n ?bo ?st] =>
      destruct (for_inv (fun i '(li, ri, l, r) => zlen l = n /\ zlen r = n /\ 
        li = zlen (filter (fun x => negb (p x)) (firstn (Z.to_nat i) A)) /\ ri = zlen (filter p (firstn (Z.to_nat i) A)) /\
        firstn (Z.to_nat li) l = filter (fun x => negb (p x)) (firstn (Z.to_nat i) A) /\
        firstn (Z.to_nat ri) r = filter p (firstn (Z.to_nat i) A)) 0 n bo st) as ((((li, ri), l), r) & E & I1 & I2 & I3 & I4 & I5 & I6) end.
    - apply zlen0.
    - auto 10.
    - intros i (((li, ri), l), r) Hi (I1 & I2 & I3 & I4 & I5 & I6). destruct (vget_Ok A i ltac:(lia)) as (x & Ex). cbv beta iota. rewrite Ex. cbn [bind].
      assert (F : firstn (Z.to_nat (i + 1)) A = firstn (Z.to_nat i) A ++ [x]).
      { replace (Z.to_nat (i + 1)) with (S (Z.to_nat i)) by lia. apply firstn_S_nth. now apply vget_nth_error. }
      pose proof (zlen_filter_split p (firstn (Z.to_nat i) A)) as Sp. rewrite zlen_firstn in Sp by lia. rewrite <- I3, <- I4 in Sp.
      pose proof (zlen_nonneg (filter p (firstn (Z.to_nat i) A))) as N1. rewrite <- I4 in N1.
      pose proof (zlen_nonneg (filter (fun x => negb (p x)) (firstn (Z.to_nat i) A))) as N2. rewrite <- I3 in N2.
      rewrite F, !filter_app. cbn [filter]. destruct (p x) eqn:Ep; cbn [negb].
      + rewrite vset_ok by lia. cbn [bind]. eexists; split; [reflexivity|]. cbv beta iota. rewrite zlen_zupd, !zlen_app, app_nil_r.
        change (zlen (@nil Z)) with 0. change (zlen [x]) with 1. rewrite Z.add_0_r. split; auto. split; auto. split; auto. split; [lia|]. split; auto.
        rewrite firstn_zupd by lia. now rewrite I6.
      + rewrite vset_ok by lia. cbn [bind]. eexists; split; [reflexivity|]. cbv beta iota. rewrite zlen_zupd, !zlen_app, app_nil_r.
        change (zlen (@nil Z)) with 0. change (zlen [x]) with 1. rewrite Z.add_0_r. split; auto. split; auto. split; [lia|]. split; [auto|]. split; auto.
        rewrite firstn_zupd by lia. now rewrite I5.
    - assert (FA : firstn (Z.to_nat n) A = A) by (apply firstn_all2; unfold zlen in *; lia). rewrite FA in *.
      exists l, r. cbn zeta in E |- *. rewrite E. subst li ri. auto 10.
  Qed.
  Lemma copy_loop (L R F0 F1 : list Z) : zlen L = n -> zlen R = n -> firstn (Z.to_nat (zlen F0)) L = F0 -> firstn (Z.to_nat (zlen F1)) R = F1 -> zlen F0 + zlen F1 = n ->
    for_ 0 (zlen F1) (fun i a => let* x := vget R i in vset a (zlen F0 + i) x) L = Ok (F0 ++ F1).
  Proof.
    intros LL LR H0 H1 Hs. pose proof (zlen_nonneg F0). pose proof (zlen_nonneg F1).
    destruct (for_inv (fun i l => zlen l = n /\ firstn (Z.to_nat (zlen F0 + i)) l = F0 ++ firstn (Z.to_nat i) F1) 0 (zlen F1)
      (fun i a => let* x := vget R i in vset a (zlen F0 + i) x) L) as (l & E & I1 & I2).
    - lia.
    - split; auto. rewrite Z.add_0_r. cbn [Z.to_nat firstn]. now rewrite app_nil_r.
    - intros i l Hi (I1 & I2). rewrite <- (vget_firstn R (zlen F1)) by lia. rewrite H1. destruct (vget_Ok F1 i Hi) as (x & Ex). rewrite Ex. cbn [bind].
      rewrite vset_ok by lia. eexists; split; [reflexivity|]. rewrite zlen_zupd. split; auto.
      replace (zlen F0 + (i + 1)) with (zlen F0 + i + 1) by lia. rewrite firstn_zupd by lia. rewrite I2, <- app_assoc. f_equal.
      replace (Z.to_nat (i + 1)) with (S (Z.to_nat i)) by lia. symmetry. apply firstn_S_nth. now apply vget_nth_error.
    - rewrite E. f_equal. rewrite Hs in I2. rewrite firstn_all2 in I2 by (unfold zlen in *; lia). rewrite I2. f_equal. apply firstn_all2. unfold zlen. lia.
  Qed.
  Lemma build_ok : exists w, wm_make bit_num a = Ok w /\ good_wm w.
  Proof.
    unfold wm_make, wm_build. fold n.
    assert (E0 : for_ 0 n (fun i v => let* x := vget a i in vset v i x) (vrep n 0) = Ok a).
    { destruct (for_inv (fun i v => zlen v = n /\ firstn (Z.to_nat i) v = firstn (Z.to_nat i) a) 0 n (fun i v => let* x := vget a i in vset v i x) (vrep n 0)) as (v & E & I1 & I2).
      - apply zlen0.
      - split; auto. apply zlen_vrep. apply zlen0.
      - intros i v Hi (I1 & I2). destruct (vget_Ok a i Hi) as (x & Ex). rewrite Ex. cbn [bind]. rewrite vset_ok by lia.
        eexists; split; [reflexivity|]. rewrite zlen_zupd. split; auto. rewrite firstn_zupd by lia. rewrite I2.
        replace (Z.to_nat (i + 1)) with (S (Z.to_nat i)) by lia. symmetry. apply firstn_S_nth. now apply vget_nth_error.
      - rewrite E. f_equal. unfold n in *. rewrite !firstn_all2 in I2 by (unfold zlen in *; lia). auto. }
    rewrite E0. cbn [bind].
    match goal with |- context [ford_ bit_num 0 ?bo ?st] =>
      destruct (ford_inv (fun j '(A, L, R, bv, mid) => A = lv j /\ zlen L = n /\ zlen R = n /\ zlen bv = bit_num /\ zlen mid = bit_num /\
        (forall log, j <= log < bit_num -> exists v, vget bv log = Ok v /\ good n (lbit log) v) /\
        (forall log, j <= log < bit_num -> vget mid log = Ok (zlen (filter (fun x => negb (bit_of x log)) (lv (log + 1)))))) bit_num 0 bo st)
        as (((((A, L), R), bv), mid) & E & IA & IL & IR & IB & IM & GB & GM) end.
    - lia.
    - split; [now rewrite lv_top|]. rewrite !zlen_vrep by (auto; apply zlen0). repeat split; auto; intros log H; lia.
    - intros j ((((A, L), R), bv), mid) Hj (IA & IL & IR & IB & IM & GB & GM). cbv beta iota zeta.
      destruct (level_bv (j - 1) A) as (v & Ev & Gv); [rewrite IA; f_equal; lia|]. rewrite Ev. cbn [bind].
      rewrite vset_ok by lia. cbn [bind].
      assert (LA : zlen A = n) by (rewrite IA; apply zlen_lv).
      destruct (split_loop (fun x => bit_of x (j - 1)) A L R LA IL IR) as (L' & R' & Es & LL' & LR' & F0 & F1).
      cbn zeta in Es |- *. rewrite Es. cbn [bind]. 
      rewrite (copy_loop L' R' _ _ LL' LR' F0 F1) by (rewrite zlen_filter_split; auto). cbn [bind].
      rewrite vset_ok by lia. cbn [bind]. eexists; split; [reflexivity|]. cbv beta iota. rewrite !zlen_zupd.
      split. { rewrite lv_step by lia. replace (j - 1 + 1) with j by lia. rewrite <- IA. reflexivity. }
      split; auto. split; auto. split; auto. split; auto. split.
      + intros log Hl. rewrite vget_zupd by lia. destruct (j - 1 =? log) eqn:El; [|apply GB; lia].
        apply Z.eqb_eq in El. subst log. eauto.
      + intros log Hl. rewrite vget_zupd by lia. destruct (j - 1 =? log) eqn:El; [|apply GM; lia].
        apply Z.eqb_eq in El. subst log. rewrite IA. replace (j - 1 + 1) with j by lia. reflexivity.
    - cbn zeta in E |- *. rewrite E. cbn [bind]. eexists; split; [reflexivity|]. split; auto.
  Qed.

  (* one level *)
  Lemma rank_level w log v b i : good_wm w -> 0 <= log < bit_num -> vget (wm_bv w) log = Ok v -> 0 <= i <= n ->
    bv_rank v b i = Ok (zlen (filter (fun x => Bool.eqb (bit_of x log) b) (firstn (Z.to_nat i) (lv (log + 1))))).
  Proof.
    intros (G & _) Hl Ev Hi. destruct (G log Hl) as (v' & Ev' & Gv). assert (v' = v) by congruence. subst v'.
    rewrite (rank_ok n (lbit log) (fun i => Ok (lbit log i)) (fun _ _ => eq_refl) v b i Gv Hi).
    f_equal. apply count_upto_filter; [|rewrite zlen_lv; auto]. rewrite zlen_lv. intros j Hj.
    destruct (vget_Ok (lv (log + 1)) j) as (x & Ex); [rewrite zlen_lv; lia|]. exists x. split; auto. unfold lbit. now rewrite Ex.
  Qed.
  Lemma succ_ok w l r b log : good_wm w -> 0 <= log < bit_num -> 0 <= l <= r -> r <= n ->
    exists l' r', succ_ w l r b log = Ok (l', r') /\ 0 <= l' <= r' /\ r' <= n /\
      slice l' r' (lv log) = filter (fun x => Bool.eqb (bit_of x log) b) (slice l r (lv (log + 1))).
  Proof.
    intros G Hl H1 H2. destruct (proj1 G log Hl) as (v & Ev & _). unfold succ_. rewrite (proj2 G log Hl), Ev. cbn [bind].
    rewrite !(rank_level w log v b) by (auto; lia). cbn [bind]. eexists _, _. split; [reflexivity|].
    rewrite (lv_step log Hl). pose proof (part_slice (fun x => bit_of x log) (lv (log + 1)) l r b H1 ltac:(rewrite zlen_lv; auto)) as P.
    cbv zeta in P. rewrite zlen_lv in P. exact P.
  Qed.
  Lemma rank_range_level w l r b log : good_wm w -> 0 <= log < bit_num -> 0 <= l <= r -> r <= n ->
    exists v, vget (wm_bv w) log = Ok v /\ bv_rank_range v b l r = Ok (zlen (filter (fun x => Bool.eqb (bit_of x log) b) (slice l r (lv (log + 1))))).
  Proof.
    intros G Hl H1 H2. destruct (proj1 G log Hl) as (v & Ev & _). exists v. split; auto. unfold bv_rank_range.
    rewrite !(rank_level w log v b) by (auto; lia). cbn [bind]. f_equal. rewrite (firstn_slice l r) by auto. rewrite filter_app, zlen_app. lia.
  Qed.
End WM.
