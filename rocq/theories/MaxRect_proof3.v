(* Proofs about MaxRect_model: maximum_square. *)
From Verif Require Import Base BaseLemmas ListZ MaxRect_model MaxRect_spec MaxRect_proof2.

Section Sq.
  Variable g : list (list bool).
  Variable m : Z.
  Hypothesis Hg : grid g m.
  Hypothesis Hm : 0 <= m.
  Let n := zlen g.
  Notation C := (C g).
  Definition sq (i j k : Z) : Prop := 0 <= k <= i + 1 /\ k <= j + 1 /\ forall a b, i - k < a <= i -> j - k < b <= j -> C a b = true.
  Definition isd (i j v : Z) : Prop := sq i j v /\ forall k, sq i j k -> k <= v.
  Lemma sq_0 i j : 0 <= i + 1 -> 0 <= j + 1 -> sq i j 0.
  Proof. intros. split; [lia|]. split; [lia|]. intros; lia. Qed.
  Lemma isd_0 i j : 0 <= i -> 0 <= j -> C i j = false -> isd i j 0.
  Proof.
    intros Hi Hj E. split; [apply sq_0; lia|]. intros k (K1 & K2 & K3). destruct (Z.le_gt_cases k 0); [auto|]. rewrite K3 in E by lia. discriminate.
  Qed.
  Lemma isd_top j : 0 <= j -> isd (-1) j 0.
  Proof. intro Hj. split; [apply sq_0; lia|]. intros k (K1 & _). lia. Qed.
  Lemma isd_left i : 0 <= i -> C i 0 = true -> isd i 0 1.
  Proof.
    intros Hi E. split; [|intros k (_ & K & _); lia]. split; [lia|]. split; [lia|]. intros a b Ha Hb. assert (a = i) as -> by lia. assert (b = 0) as -> by lia. auto.
  Qed.
  Lemma isd_step i j x y z : 0 <= i -> 0 < j -> C i j = true -> isd i (j - 1) x -> isd (i - 1) (j - 1) y -> isd (i - 1) j z -> isd i j (1 + Z.min (Z.min x y) z).
  Proof.
    intros Hi Hj E ((X1 & X2 & X3) & X4) ((Y1 & Y2 & Y3) & Y4) ((Z1 & Z2 & Z3) & Z4). set (w := Z.min (Z.min x y) z). assert (w <= x /\ w <= y /\ w <= z /\ 0 <= w) by lia.
    assert (Mw : forall k, k <= x -> k <= y -> k <= z -> k <= w) by (intros; lia). clearbody w. split.
    - split; [lia|]. split; [lia|]. intros a b Ha Hb.
      destruct (Z.eq_dec a i) as [->|]; [destruct (Z.eq_dec b j) as [->|]; [auto|apply X3; lia]|].
      destruct (Z.eq_dec b j) as [->|]; [apply Z3; lia|]. apply Y3; lia.
    - intros k (K1 & K2 & K3). assert (k - 1 <= w); [|lia]. destruct (Z.eq_dec k 0); [lia|]. apply Mw; [apply X4|apply Y4|apply Z4]; (split; [lia|split; [lia|]]); intros a b Ha Hb; apply K3; lia.
  Qed.
  (* the best square so far *)
  Definition best (i j ml : Z) (ms : block) : Prop :=
    0 <= ml /\ all_ones g m ms /\ (let '(u, d, l, r) := ms in d - u = ml /\ r - l = ml) /\
    forall a b k, 0 <= a -> 0 <= b < m -> a < i \/ a = i /\ b < j -> sq a b k -> k <= ml.
  Definition row_ok (i : Z) (pd : list Z) : Prop := zlen pd = m /\ forall j, 0 <= j < m -> exists v, vget pd j = Ok v /\ isd (i - 1) j v.

  Lemma sq_body_ok i j pd dp ml ms : 0 <= i < n -> 0 <= j < m -> row_ok i pd -> zlen dp = m ->
    (forall t, 0 <= t < j -> exists v, vget dp t = Ok v /\ isd i t v) -> (forall t, j <= t < m -> vget dp t = Ok 0) -> best i j ml ms ->
    exists dp' ml' ms', sq_body g pd i j (dp, ml, ms) = Ok (dp', ml', ms') /\ zlen dp' = m /\
      (forall t, 0 <= t < j + 1 -> exists v, vget dp' t = Ok v /\ isd i t v) /\ (forall t, j + 1 <= t < m -> vget dp' t = Ok 0) /\ best i (j + 1) ml' ms'.
  Proof.
    intros Hi Hj (Lp & Gp) Ld Gd Gz (B1 & B2 & B3 & B4). unfold sq_body. rewrite (gget_ok g m Hg) by auto. cbn [bind].
    destruct (C i j) eqn:E.
    - set (val := if j =? 0 then Ok 1 else _). assert (V : exists v, val = Ok v /\ isd i j v).
      { unfold val. destruct (Z.eqb_spec j 0) as [->|].
        - exists 1. split; [auto|]. apply isd_left; [lia|auto].
        - destruct (Gd (j - 1) ltac:(lia)) as (x & -> & X). destruct (Gp (j - 1) ltac:(lia)) as (y & -> & Y). destruct (Gp j ltac:(lia)) as (z & -> & W). cbn [bind].
          eexists. split; [reflexivity|]. apply isd_step; auto; lia. }
      destruct V as (v & -> & V). cbn [bind]. rewrite vset_ok by lia. cbn [bind].
      assert (Common : zlen (zupd dp j v) = m /\ (forall t, 0 <= t < j + 1 -> exists v', vget (zupd dp j v) t = Ok v' /\ isd i t v') /\ (forall t, j + 1 <= t < m -> vget (zupd dp j v) t = Ok 0)).
      { split; [rewrite zlen_zupd; auto|]. split.
        - intros t T. rewrite vget_zupd by lia. destruct (Z.eqb_spec j t) as [<-|]; [eauto|apply Gd; lia].
        - intros t T. rewrite vget_zupd by lia. destruct (Z.eqb_spec j t) as [<-|]; [lia|apply Gz; lia]. }
      destruct Common as (K1 & K2 & K3).
      destruct (Z.ltb_spec ml v) as [L|L].
      + eexists _, _, _. split; [reflexivity|]. split; [auto|]. split; [auto|]. split; [auto|].
        destruct V as ((V1 & V2 & V3) & V4). split; [lia|]. split.
        * apply (all_ones_C g m Hg). fold n. split; [lia|]. split; [lia|]. split; [lia|]. split; [lia|]. intros a b Ha Hb. apply V3; lia.
        * split; [lia|]. intros a b k Ha Hb Hab Sk. destruct (Z.eq_dec a i) as [->|]; [destruct (Z.eq_dec b j) as [->|]; [auto|]|].
          -- specialize (B4 i b k). lia.
          -- specialize (B4 a b k). lia.
      + eexists _, _, _. split; [reflexivity|]. split; [auto|]. split; [auto|]. split; [auto|].
        split; [auto|]. split; [auto|]. split; [auto|].
        intros a b k Ha Hb Hab Sk. destruct (Z.eq_dec a i) as [->|]; [destruct (Z.eq_dec b j) as [->|]; [|]|].
        * destruct V as (_ & V4). specialize (V4 k Sk). lia.
        * apply (B4 i b k); auto; lia.
        * apply (B4 a b k); auto; lia.
    - assert (Q0 : isd i j 0) by (apply isd_0; auto; lia).
      eexists _, _, _. split; [reflexivity|]. split; [auto|]. split; [|split; [intros t T; apply Gz; lia|]].
      + intros t T. destruct (Z.eq_dec t j) as [->|]; [exists 0; split; [apply Gz; lia|auto]|apply Gd; lia].
      + split; [auto|]. split; [auto|]. split; [auto|].
        intros a b k Ha Hb Hab Sk. destruct (Z.eq_dec a i) as [->|]; [destruct (Z.eq_dec b j) as [->|]; [|]|].
        * destruct Q0 as (_ & V4). specialize (V4 k Sk). lia.
        * apply (B4 i b k); auto; lia.
        * apply (B4 a b k); auto; lia.
  Qed.
  Lemma sq_row_ok i pd ml ms : 0 <= i < n -> row_ok i pd -> best i 0 ml ms ->
    exists pd' ml' ms', sq_row g m i (pd, ml, ms) = Ok (pd', ml', ms') /\ row_ok (i + 1) pd' /\ best (i + 1) 0 ml' ms'.
  Proof.
    intros Hi R B. unfold sq_row.
    destruct (@for_inv (list Z * Z * block) (fun j st => let '(dp, ml, ms) := st in zlen dp = m /\ (forall t, 0 <= t < j -> exists v, vget dp t = Ok v /\ isd i t v) /\
      (forall t, j <= t < m -> vget dp t = Ok 0) /\ best i j ml ms) 0 m (sq_body g pd i) (vrep m 0, ml, ms)) as (((dp, ml'), ms') & -> & I1 & I2 & I3 & I4).
    - lia.
    - split; [apply zlen_vrep; lia|]. split; [intros; lia|]. split; [intros; apply vget_vrep; lia|auto].
    - intros j ((dp, ml1), ms1) Hj (I1 & I2 & I3 & I4). destruct (sq_body_ok i j pd dp ml1 ms1 Hi Hj R I1 I2 I3 I4) as (dp' & ml' & ms' & E & G). eauto.
    - exists dp, ml', ms'. split; [auto|]. split.
      + split; [auto|]. intros j Hj. replace (i + 1 - 1) with i by lia. apply I2. lia.
      + destruct I4 as (B1 & B2 & B3 & B4). split; [auto|]. split; [auto|]. split; [auto|]. intros a b k Ha Hb Hab. apply (B4 a b k); auto. lia.
  Qed.
  Lemma square_ok : exists a b, maximum_square g = Ok (a, b) /\ a = area b /\ square b /\ all_ones g m b /\ forall c, all_ones g m c -> square c -> area c <= a.
  Proof.
    assert (NN : 0 <= n) by apply zlen_nonneg. unfold maximum_square.
    assert (Z0 : all_ones g m (0, 0, 0, 0)) by (apply (all_ones_C g m Hg); fold n; split; [lia|]; split; [lia|]; split; [lia|]; split; [lia|]; intros; lia).
    destruct (Z.eq_dec n 0) as [N|N].
    - unfold width. fold n. rewrite N. cbn [Z.eqb bind]. rewrite for_empty by lia. cbn [bind]. exists 0, (0, 0, 0, 0).
      split; [auto|]. split; [auto|]. split; [cbn; auto|]. split; [auto|]. intros (((u, d), l), r) A S. apply (all_ones_C g m Hg) in A. fold n in A. cbn [square area] in *. nia.
    - rewrite (width_ok g m Hg) by (fold n; lia). cbn [bind]. fold n.
      destruct (@for_inv (list Z * Z * block) (fun i st => let '(pd, ml, ms) := st in row_ok i pd /\ best i 0 ml ms) 0 n (sq_row g m) (vrep m 0, 0, (0, 0, 0, 0))) as (((pd, ml), ms) & -> & _ & B).
      + lia.
      + split.
        * split; [apply zlen_vrep; lia|]. intros j Hj. exists 0. split; [apply vget_vrep; lia|]. apply isd_top. lia.
        * split; [lia|]. split; [auto|]. split; [lia|]. intros; lia.
      + intros i ((pd, ml), ms) Hi (R & B). destruct (sq_row_ok i pd ml ms Hi R B) as (pd' & ml' & ms' & E & G). eauto.
      + cbn [bind]. destruct B as (B1 & B2 & B3 & B4). exists (ml * ml), ms. split; [auto|]. destruct ms as (((u, d), l), r). destruct B3 as (E1 & E2).
        split; [cbn [area]; congruence|]. split; [cbn; congruence|]. split; [auto|].
        intros (((u', d'), l'), r') A S. apply (all_ones_C g m Hg) in A. fold n in A. cbn [square area] in *.
        destruct A as (A1 & A2 & A3 & A4 & A5). assert (L : d' - u' <= ml); [|nia]. destruct (Z.eq_dec d' u'); [lia|].
        apply (B4 (d' - 1) (r' - 1)); try lia. split; [lia|]. split; [lia|]. intros a b Ha Hb. apply A5; lia.
  Qed.
End Sq.
