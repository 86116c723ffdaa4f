From Verif Require Import Base BaseLemmas ListZ Seq MonoMin_model MonoMin_spec.

Section Mono.
  Variables (compare : Z -> Z -> Z -> res bool) (n m : Z).
  Hypothesis total : forall i j1 j2, 0 <= i < n -> 0 <= j1 < j2 -> j2 < m -> exists c, compare i j1 j2 = Ok c.
  Definition best (i j : Z) : Prop :=
    0 <= j < m /\ (forall j', 0 <= j' < j -> compare i j' j = Ok false) /\ (forall j', j < j' < m -> compare i j j' = Ok true).
  Hypothesis has : forall i, 0 <= i < n -> exists j, best i j.
  Hypothesis mono : forall i i' j j', 0 <= i <= i' -> i' < n -> best i j -> best i' j' -> j <= j'.

  Lemma scan_ok row l r j : 0 <= row < n -> 0 <= l -> r <= m -> best row j -> l <= j < r -> for_ (l + 1) r (mm_scan compare row) l = Ok j.
  Proof.
    intros Hrow Hl Hr (B1 & B2 & B3) Hj.
    destruct (for_inv (fun col am => l <= am < col /\ (col <= j -> am < j) /\ (j < col -> am = j)) (l + 1) r (mm_scan compare row) l) as (am & E & A); [lia|lia| |].
    - intros col am Hc (A1 & A2 & A3). unfold mm_scan. destruct (Z.lt_trichotomy col j) as [C|[C|C]].
      + destruct (total row am col Hrow ltac:(lia) ltac:(lia)) as [c E]. rewrite E. cbn [bind]. eexists; split; [reflexivity|]. destruct c; cbn [negb]; lia.
      + subst col. rewrite B2 by lia. cbn [bind negb]. eexists; split; [reflexivity|]. lia.
      + rewrite A3 by lia. rewrite B3 by lia. cbn [bind negb]. eexists; split; [reflexivity|]. lia.
    - rewrite E. f_equal. apply A. lia.
  Qed.
  Lemma rec_ok : forall fuel u d l r rs, (Z.to_nat (d - u) < fuel)%nat -> 0 <= u <= d -> d <= n -> 0 <= l -> r <= m -> zlen rs = n ->
    (forall i j, u <= i < d -> best i j -> l <= j < r) ->
    exists rs', mm_rec compare fuel u d l r rs = Ok rs' /\ zlen rs' = n /\
      (forall i, 0 <= i < n -> if (u <=? i) && (i <? d) then exists j, vget rs' i = Ok j /\ best i j else vget rs' i = vget rs i).
  Proof.
    induction fuel as [|fuel IH]; intros u d l r rs HF Hu Hd Hl Hr Hz HB; [lia|]. cbn [mm_rec]. destruct (u =? d) eqn:E.
    - exists rs. split; auto. split; auto. intros i Hi. replace (_ && _) with false by lia. auto.
    - set (row := (u + d) / 2). assert (Hrow : u <= row < d) by (unfold row; split; [apply Z.div_le_lower_bound; lia|apply Z.div_lt_upper_bound; lia]).
      destruct (has row ltac:(lia)) as [j Bj]. pose proof (HB row j Hrow Bj) as Hj. replace (l <? r) with true by lia. cbn [assert_ bind].
      rewrite (scan_ok row l r j) by (auto; lia). cbn [bind]. rewrite vset_ok by lia. cbn [bind].
      destruct (IH u row l (j + 1) (zupd rs row j)) as (rs1 & E1 & L1 & P1); try lia.
      { rewrite zlen_zupd. auto. } { intros i j' Hi Bi. pose proof (HB i j' ltac:(lia) Bi). pose proof (mono i row j' j ltac:(lia) ltac:(lia) Bi Bj). lia. }
      rewrite E1. cbn [bind].
      destruct (IH (row + 1) d j r rs1) as (rs2 & E2 & L2 & P2); try lia.
      { intros i j' Hi Bi. pose proof (HB i j' ltac:(lia) Bi). pose proof (mono row i j j' ltac:(lia) ltac:(lia) Bj Bi). lia. }
      exists rs2. split; auto. split; auto. intros i Hi. specialize (P1 i Hi). specialize (P2 i Hi). rewrite vget_zupd in P1 by lia.
      destruct ((u <=? i) && (i <? d)) eqn:Q.
      + destruct ((row + 1 <=? i) && (i <? d)) eqn:Q2; auto. rewrite P2. destruct ((u <=? i) && (i <? row)) eqn:Q3; auto.
        assert (i = row) by lia. subst i. rewrite Z.eqb_refl in P1. eauto.
      + replace ((row + 1 <=? i) && (i <? d)) with false in P2 by lia. replace ((u <=? i) && (i <? row)) with false in P1 by lia. replace (row =? i) with false in P1 by lia. congruence.
  Qed.
  Lemma mono_ok : 0 <= n -> exists rs, monotone_minima compare n m = Ok rs /\ zlen rs = n /\ forall i, 0 <= i < n -> exists j, vget rs i = Ok j /\ best i j.
  Proof.
    intro Hn. unfold monotone_minima. destruct (rec_ok (S (Z.to_nat n)) 0 n 0 m (vrep n 0)) as (rs & E & L & Q); try lia.
    - now rewrite zlen_vrep.
    - intros i j _ (B & _). lia.
    - exists rs. split; auto. split; auto. intros i Hi. specialize (Q i Hi). replace (_ && _) with true in Q by lia. auto.
  Qed.
End Mono.

Lemma first_min (f : Z -> Z) lo : forall k : nat, exists j, lo <= j <= lo + Z.of_nat k /\ (forall j', lo <= j' <= lo + Z.of_nat k -> f j <= f j') /\ (forall j', lo <= j' < j -> f j < f j').
Proof.
  induction k as [|k (j & H1 & H2 & H3)]; [exists lo; split; [lia|]; split; intros j' Hj; [replace j' with lo by lia; lia|lia]|].
  destruct (Z.lt_ge_cases (f (lo + Z.of_nat (S k))) (f j)) as [L|L].
  - exists (lo + Z.of_nat (S k)). split; [lia|]. split; intros j' Hj.
    + destruct (Z.eq_dec j' (lo + Z.of_nat (S k))) as [->|]; [lia|]. specialize (H2 j' ltac:(lia)). lia.
    + specialize (H2 j' ltac:(lia)). lia.
  - exists j. split; [lia|]. split; auto. intros j' Hj. destruct (Z.eq_dec j' (lo + Z.of_nat (S k))) as [->|]; [lia|]. apply H2. lia.
Qed.
Lemma last_min (f : Z -> Z) lo hi : lo <= hi -> exists j, lo <= j <= hi /\ (forall j', lo <= j' <= hi -> f j <= f j') /\ (forall j', j < j' <= hi -> f j < f j').
Proof.
  intro H. destruct (first_min (fun j => f (- j)) (- hi) (Z.to_nat (hi - lo))) as (j & H1 & H2 & H3). exists (- j). split; [lia|]. split; intros j' Hj.
  - specialize (H2 (- j') ltac:(lia)). cbv beta in H2. now rewrite Z.opp_involutive in H2.
  - specialize (H3 (- j') ltac:(lia)). cbv beta in H3. now rewrite Z.opp_involutive in H3.
Qed.

Lemma matrix_ n m A : 0 <= n -> 0 < m \/ n = 0 -> monotone A n m ->
  exists rs, monotone_minima_matrix n m A = Ok rs /\ zlen rs = n /\ forall i, 0 <= i < n -> exists j, vget rs i = Ok j /\ leftmost_min A m i j.
Proof.
  intros Hn Hm M. unfold monotone_minima_matrix.
  assert (Q : forall i j, best (fun i j1 j2 => Ok (A i j1 <=? A i j2)) m i j <-> leftmost_min A m i j).
  { intros i j. unfold best, leftmost_min. split; intros (B1 & B2 & B3); (split; [auto|]).
    - assert (forall j', 0 <= j' < j -> A i j < A i j') by (intros j' Hj; specialize (B2 j' Hj); injection B2; lia). split; auto. intros j' Hj.
      destruct (Z.lt_trichotomy j' j) as [C|[->|C]]; [specialize (H j' ltac:(lia)); lia|lia|]. specialize (B3 j' ltac:(lia)). injection B3. lia.
    - split; intros j' Hj; f_equal; [specialize (B3 j' ltac:(lia)); lia|specialize (B2 j' ltac:(lia)); lia]. }
  destruct (mono_ok (fun i j1 j2 => Ok (A i j1 <=? A i j2)) n m) as (rs & E & L & H); auto.
  - eauto.
  - intros i Hi. destruct (first_min (A i) 0 (Z.to_nat (m - 1))) as (j & H1 & H2 & H3). exists j. apply Q. split; [lia|]. split; [intros; apply H2; lia|auto].
  - intros i i' j j' H1 H2 B1 B2. apply Q in B1, B2. eapply (M i i'); eauto.
  - exists rs. split; auto. split; auto. intros i Hi. destruct (H i Hi) as (j & Ej & Bj). apply Q in Bj. eauto.
Qed.

Lemma at_get a i : 0 <= i < zlen a -> vget a i = Ok (at_ a i).
Proof. intro H. apply vget_nth. auto. Qed.
Lemma check_dec a : (convex a /\ check_convex a = Ok tt) \/ (~ convex a /\ check_convex a = Abort).
Proof.
  unfold check_convex, for_.
  match goal with |- context [for_up _ _ ?B _] => set (body := B) end.
  assert (G : forall k lo, 2 <= lo -> (lo + Z.of_nat k = zlen a \/ k = 0%nat) ->
    ((forall i, lo <= i < lo + Z.of_nat k -> at_ a (i - 1) - at_ a (i - 2) <= at_ a i - at_ a (i - 1)) /\ for_up k lo body tt = Ok tt) \/
    (~ (forall i, lo <= i < lo + Z.of_nat k -> at_ a (i - 1) - at_ a (i - 2) <= at_ a i - at_ a (i - 1)) /\ for_up k lo body tt = Abort)).
  { induction k as [|k IH]; intros lo Hlo E; cbn [for_up]; [left; split; auto; lia|].
    assert (Eb : body lo tt = if at_ a (lo - 1) - at_ a (lo - 2) <=? at_ a lo - at_ a (lo - 1) then Ok tt else Abort).
    { unfold body. rewrite !at_get by lia. cbn [bind]. destruct (_ <=? _); auto. }
    rewrite Eb. destruct (_ <=? _) eqn:Q; cbn [bind].
    - destruct (IH (lo + 1) ltac:(lia) ltac:(lia)) as [[H1 H2]|[H1 H2]]; [left|right]; split; auto.
      + intros i Hi. destruct (Z.eq_dec i lo) as [->|]; [lia|]. apply H1. lia.
      + intro H. apply H1. intros i Hi. apply H. lia.
    - right. split; auto. intro H. specialize (H lo ltac:(lia)). lia. }
  unfold convex. destruct (Z.le_gt_cases (zlen a) 2).
  - replace (Z.to_nat (zlen a - 2)) with 0%nat by lia. left. split; [lia|reflexivity].
  - destruct (G (Z.to_nat (zlen a - 2)) 2 ltac:(lia) ltac:(lia)) as [[H1 H2]|[H1 H2]]; [left|right]; split; auto.
    + intros i Hi. apply H1. lia.
    + intro Q. apply H1. intros i Hi. apply Q. lia.
Qed.
Lemma check_ok a : convex a -> check_convex a = Ok tt.
Proof. intro H. destruct (check_dec a) as [[_ E]|[N _]]; auto. tauto. Qed.

(* ---- slopes ---- *)
Lemma slope_mono a : convex a -> forall (d : nat) i, 0 <= i -> i + Z.of_nat d + 1 < zlen a -> at_ a (i + 1) - at_ a i <= at_ a (i + Z.of_nat d + 1) - at_ a (i + Z.of_nat d).
Proof.
  intros C d. induction d as [|d IH]; intros i Hi Hd; [rewrite Z.add_0_r; lia|]. specialize (IH i Hi ltac:(lia)).
  specialize (C (i + Z.of_nat d + 2) ltac:(lia)). replace (i + Z.of_nat (S d) + 1) with (i + Z.of_nat d + 2) by lia. replace (i + Z.of_nat (S d)) with (i + Z.of_nat d + 1) by lia.
  replace (i + Z.of_nat d + 2 - 1) with (i + Z.of_nat d + 1) in C by lia. replace (i + Z.of_nat d + 2 - 2) with (i + Z.of_nat d) in C by lia. lia.
Qed.
Lemma slope_le a i j : convex a -> 0 <= i <= j -> j + 1 < zlen a -> at_ a (i + 1) - at_ a i <= at_ a (j + 1) - at_ a j.
Proof.
  intros C Hi Hj. pose proof (slope_mono a C (Z.to_nat (j - i)) i ltac:(lia) ltac:(lia)) as H. now replace (i + Z.of_nat (Z.to_nat (j - i))) with j in H by lia.
Qed.
Lemma rise a : convex a -> forall (t : nat) i, 0 <= i -> i + Z.of_nat t < zlen a -> (0 < t)%nat -> Z.of_nat t * (at_ a (i + 1) - at_ a i) <= at_ a (i + Z.of_nat t) - at_ a i.
Proof.
  intros C t. induction t as [|t IH]; intros i Hi Ht Hp; [lia|]. destruct t as [|t]; [change (Z.of_nat 1) with 1; lia|].
  specialize (IH i Hi ltac:(lia) ltac:(lia)). pose proof (slope_le a i (i + Z.of_nat (S t)) C ltac:(lia) ltac:(lia)) as H.
  replace (i + Z.of_nat (S (S t))) with (i + Z.of_nat (S t) + 1) by lia. rewrite (Nat2Z.inj_succ (S t)). lia.
Qed.
Lemma fall a : convex a -> forall (t : nat) i, 0 <= i - Z.of_nat t -> i < zlen a -> (0 < t)%nat -> at_ a i - at_ a (i - Z.of_nat t) <= Z.of_nat t * (at_ a i - at_ a (i - 1)).
Proof.
  intros C t. induction t as [|t IH]; intros i Hi Ht Hp; [lia|]. destruct t as [|t]; [change (Z.of_nat 1) with 1; lia|].
  specialize (IH i ltac:(lia) Ht ltac:(lia)). pose proof (slope_le a (i - Z.of_nat (S (S t))) (i - 1) C ltac:(lia) ltac:(lia)) as H.
  replace (i - Z.of_nat (S (S t)) + 1) with (i - Z.of_nat (S t)) in H by lia. replace (i - 1 + 1) with i in H by lia. rewrite (Nat2Z.inj_succ (S t)) in *. lia.
Qed.
Lemma shift a i s : convex a -> 0 <= i -> 0 <= s -> forall d : nat, i + s + Z.of_nat d < zlen a -> at_ a (i + Z.of_nat d) - at_ a i <= at_ a (i + s + Z.of_nat d) - at_ a (i + s).
Proof.
  intros C Hi Hs d. induction d as [|d IH]; intro Hd; [rewrite !Z.add_0_r; lia|]. specialize (IH ltac:(lia)).
  pose proof (slope_le a (i + Z.of_nat d) (i + s + Z.of_nat d) C ltac:(lia) ltac:(lia)) as H.
  replace (i + Z.of_nat (S d)) with (i + Z.of_nat d + 1) by lia. replace (i + s + Z.of_nat (S d)) with (i + s + Z.of_nat d + 1) by lia. lia.
Qed.

(* ---- both convex ---- *)
Section CC.
  Variables a b : list Z.
  Hypothesis Ca : convex a.
  Hypothesis Cb : convex b.
  Notation n := (zlen a).
  Notation m := (zlen b).
  Definition bal (i j : Z) : Prop := 0 <= i < n /\ 0 <= j < m /\
    (1 <= i -> j < m - 1 -> at_ a i - at_ a (i - 1) <= at_ b (j + 1) - at_ b j) /\
    (1 <= j -> i < n - 1 -> at_ b j - at_ b (j - 1) <= at_ a (i + 1) - at_ a i).
  Lemma bal_min i j : bal i j -> min_sum a b (i + j) (at_ a i + at_ b j).
  Proof.
    intros (Hi & Hj & B1 & B2). split; [exists i, j; auto|]. intros i' j' Hi' Hj' E. destruct (Z.lt_trichotomy i' i) as [C|[C|C]].
    - set (t := Z.to_nat (i - i')). assert (Et : Z.of_nat t = i - i') by lia.
      pose proof (fall a Ca t i ltac:(lia) ltac:(lia) ltac:(lia)) as H1. pose proof (rise b Cb t j ltac:(lia) ltac:(lia) ltac:(lia)) as H2. specialize (B1 ltac:(lia) ltac:(lia)).
      rewrite Et in *. replace (i - (i - i')) with i' in H1 by lia. replace (j + (i - i')) with j' in H2 by lia. nia.
    - subst i'. replace j' with j by lia. lia.
    - set (t := Z.to_nat (i' - i)). assert (Et : Z.of_nat t = i' - i) by lia.
      pose proof (rise a Ca t i ltac:(lia) ltac:(lia) ltac:(lia)) as H1. pose proof (fall b Cb t j ltac:(lia) ltac:(lia) ltac:(lia)) as H2. specialize (B2 ltac:(lia) ltac:(lia)).
      rewrite Et in *. replace (i + (i' - i)) with i' in H1 by lia. replace (j - (i' - i)) with j' in H2 by lia. nia.
  Qed.
  Lemma bal_left i j : bal i j -> i < n - 1 -> (j < m - 1 -> at_ a (i + 1) + at_ b j < at_ a i + at_ b (j + 1)) -> bal (i + 1) j.
  Proof.
    intros (Hi & Hj & B1 & B2) L D. split; [lia|]. split; [lia|]. replace (i + 1 - 1) with i by lia. split.
    - intros _ H. specialize (D H). lia.
    - intros H1 H2. specialize (B2 H1 ltac:(lia)). pose proof (slope_le a i (i + 1) Ca ltac:(lia) ltac:(lia)). lia.
  Qed.
  Lemma bal_right i j : bal i j -> j < m - 1 -> (i < n - 1 -> at_ a i + at_ b (j + 1) <= at_ a (i + 1) + at_ b j) -> bal i (j + 1).
  Proof.
    intros (Hi & Hj & B1 & B2) L D. split; [lia|]. split; [lia|]. replace (j + 1 - 1) with j by lia. split.
    - intros H1 H2. specialize (B1 H1 ltac:(lia)). pose proof (slope_le b j (j + 1) Cb ltac:(lia) ltac:(lia)). lia.
    - intros _ H. specialize (D H). lia.
  Qed.
  Lemma cc_ok : 0 < n -> 0 < m -> exists c, min_plus_convex_convex a b = Ok c /\ min_plus a b c.
  Proof.
    intros Hn Hm. unfold min_plus_convex_convex. replace (_ && _) with true by lia. cbn [assert_ bind]. rewrite !check_ok by auto. cbn [bind].
    rewrite !at_get by lia. cbn [bind]. rewrite vset_ok by (rewrite zlen_vrep; lia). cbn [bind].
    destruct (for_inv (fun k st => let '(c, i) := st in zlen c = n + m - 1 /\ bal i (k - i) /\ forall q, 0 <= q <= k -> exists x, vget c q = Ok x /\ min_sum a b q x)
       0 (n + m - 2) (cc_body a b n m) (zupd (vrep (n + m - 1) 0) 0 (at_ a 0 + at_ b 0), 0)) as ([c i] & E & L & B & Q).
    - lia.
    - assert (B : bal 0 0) by (split; [lia|]; split; [lia|]; split; lia). rewrite zlen_zupd, zlen_vrep by lia. split; auto. split; auto. intros q Hq. replace q with 0 by lia.
      rewrite vget_zupd by (rewrite zlen_vrep; lia). rewrite Z.eqb_refl. eexists; split; [reflexivity|]. apply (bal_min 0 0 B).
    - intros k [c i] Hk (L & B & Q). pose proof B as (Hi & Hj & _). unfold cc_body. cbv zeta.
      assert (G : exists go, (if k - i =? m - 1 then Ok true else if i <? n - 1 then
          let* p := vget a (i + 1) in let* q := vget b (k - i) in let* p' := vget a i in let* q' := vget b (k - i + 1) in Ok (p + q <? p' + q') else Ok false) = Ok go /\
        if go then i < n - 1 /\ (k - i < m - 1 -> at_ a (i + 1) + at_ b (k - i) < at_ a i + at_ b (k - i + 1))
        else k - i < m - 1 /\ (i < n - 1 -> at_ a i + at_ b (k - i + 1) <= at_ a (i + 1) + at_ b (k - i))).
      { destruct (k - i =? m - 1) eqn:E1; [exists true; split; auto; lia|]. destruct (i <? n - 1) eqn:E2; [|exists false; split; auto; lia].
        rewrite !at_get by lia. cbn [bind]. eexists; split; [reflexivity|]. destruct (at_ a (i + 1) + at_ b (k - i) <? at_ a i + at_ b (k - i + 1)) eqn:E3; split; lia. }
      destruct G as (go & -> & G). cbn [bind].
      assert (St : forall i', bal i' (k + 1 - i') -> forall x, x = at_ a i' + at_ b (k + 1 - i') -> zlen (zupd c (k + 1) x) = n + m - 1 /\ bal i' (k + 1 - i') /\ forall q, 0 <= q <= k + 1 -> exists x', vget (zupd c (k + 1) x) q = Ok x' /\ min_sum a b q x').
      { intros i' B' x ->. rewrite zlen_zupd. split; auto. split; auto. intros q Hq. rewrite vget_zupd by lia. destruct (k + 1 =? q) eqn:Eq.
        - eexists; split; [reflexivity|]. replace q with (i' + (k + 1 - i')) by lia. now apply bal_min.
        - apply Q. lia. }
      destruct go; destruct G as [G1 G2]; rewrite !at_get by lia; cbn [bind]; rewrite vset_ok by lia; cbn [bind]; eexists; (split; [reflexivity|]); cbv beta iota.
      + apply St.
        * replace (k + 1 - (i + 1)) with (k - i) by lia. now apply bal_left.
        * do 2 f_equal. lia.
      + apply St.
        * replace (k + 1 - i) with (k - i + 1) by lia. now apply bal_right.
        * do 2 f_equal. lia.
    - rewrite E. cbn [bind]. exists c. split; auto. split; [lia|]. intros k Hk. destruct (Q k ltac:(lia)) as (x & Ex & Mx). rewrite at_get in Ex by lia. now injection Ex as ->.
  Qed.
End CC.

(* ---- one convex ---- *)
Lemma ca_ok a b : convex a -> 0 < zlen a -> 0 < zlen b -> exists c, min_plus_convex_arbitrary a b = Ok c /\ min_plus a b c.
Proof.
  intros Ca Hn Hm. unfold min_plus_convex_arbitrary. set (n := zlen a) in *. set (m := zlen b) in *.
  replace (_ && _) with true by lia. cbn [assert_ bind]. rewrite check_ok by auto. cbn [bind].
  set (f := fun k j => at_ a (k - j) + at_ b j).
  set (isb := fun k j => Z.max 0 (k - n + 1) <= j <= Z.min k (m - 1) /\ (forall j', Z.max 0 (k - n + 1) <= j' <= Z.min k (m - 1) -> f k j <= f k j') /\ (forall j', j < j' <= Z.min k (m - 1) -> f k j < f k j')).
  assert (Cmp : forall k j1 j2, 0 <= j1 < j2 -> j2 < m -> ca_cmp a b n k j1 j2 = Ok (if k - j2 <? 0 then true else if n <=? k - j1 then false else f k j1 <? f k j2)).
  { intros k j1 j2 H1 H2. unfold ca_cmp. destruct (k - j2 <? 0) eqn:E1; auto. destruct (n <=? k - j1) eqn:E2; auto. rewrite !at_get by (fold n m; lia). reflexivity. }
  assert (Ib : forall k, 0 <= k < n + m - 1 -> exists j, isb k j).
  { intros k Hk. destruct (last_min (f k) (Z.max 0 (k - n + 1)) (Z.min k (m - 1)) ltac:(lia)) as (j & H). now exists j. }
  assert (Bi : forall k j, isb k j -> best (ca_cmp a b n) m k j).
  { intros k j (H1 & H2 & H3). split; [lia|]. split; intros j' Hj; rewrite Cmp by lia.
    - replace (k - j <? 0) with false by lia. destruct (n <=? k - j') eqn:E; auto. specialize (H2 j' ltac:(lia)). f_equal. lia.
    - destruct (k - j' <? 0) eqn:E; auto. replace (n <=? k - j) with false by lia. specialize (H3 j' ltac:(lia)). f_equal. lia. }
  assert (Un : forall k j j', best (ca_cmp a b n) m k j -> best (ca_cmp a b n) m k j' -> j = j').
  { intros k j j' (H1 & H2 & H3) (G1 & G2 & G3). destruct (Z.lt_trichotomy j j') as [C|[C|C]]; auto.
    - specialize (H3 j' ltac:(lia)). specialize (G2 j ltac:(lia)). congruence.
    - specialize (G3 j ltac:(lia)). specialize (H2 j' ltac:(lia)). congruence. }
  destruct (mono_ok (ca_cmp a b n) (n + m - 1) m) as (rs & E & L & R).
  - intros i j1 j2 _ H1 H2. rewrite Cmp by auto. eauto.
  - intros k Hk. destruct (Ib k Hk) as [j Hj]. exists j. auto.
  - intros k k' j j' H1 H2 B1 B2. destruct (Ib k ltac:(lia)) as [j0 Hj0]. destruct (Ib k' ltac:(lia)) as [j0' Hj0'].
    rewrite (Un k j j0) by auto. rewrite (Un k' j' j0') by auto. clear j j' B1 B2.
    destruct Hj0 as (P1 & P2 & P3), Hj0' as (Q1 & Q2 & Q3). destruct (Z.le_gt_cases j0 j0'); auto. exfalso.
    specialize (P2 j0' ltac:(lia)). specialize (Q3 j0 ltac:(lia)). unfold f in *.
    pose proof (shift a (k - j0) (k' - k) Ca ltac:(lia) ltac:(lia) (Z.to_nat (j0 - j0')) ltac:(fold n; lia)) as S.
    replace (k - j0 + Z.of_nat (Z.to_nat (j0 - j0'))) with (k - j0') in S by lia. replace (k - j0 + (k' - k) + Z.of_nat (Z.to_nat (j0 - j0'))) with (k' - j0') in S by lia.
    replace (k - j0 + (k' - k)) with (k' - j0) in S by lia. lia.
  - lia.
  - rewrite E. cbn [bind].
    assert (R' : forall k, 0 <= k < n + m - 1 -> exists j, vget rs k = Ok j /\ isb k j).
    { intros k Hk. destruct (R k Hk) as (j & Ej & Bj). destruct (Ib k Hk) as [j' Hj']. pose proof (Un k j j' Bj (Bi k j' Hj')). subst j'. eauto. }
    match goal with |- context [for_ _ _ ?B _] => destruct (for_inv (fun k c => zlen c = n + m - 1 /\ forall q, 0 <= q < k -> exists x, vget c q = Ok x /\ min_sum a b q x) 0 (n + m - 1) B (vrep (n + m - 1) 0)) as (c & Ec & Lc & Q) end.
    + lia.
    + rewrite zlen_vrep by lia. split; auto. lia.
    + intros k c Hk (Lc & Q). destruct (R' k Hk) as (j & Ej & (H1 & H2 & H3)). rewrite Ej. cbn [bind]. rewrite !at_get by (fold n m; lia). cbn [bind]. rewrite vset_ok by lia.
      eexists; split; [reflexivity|]. rewrite zlen_zupd. split; auto. intros q Hq. rewrite vget_zupd by lia. destruct (k =? q) eqn:Eq; [|apply Q; lia].
      assert (q = k) by lia. subst q. eexists; split; [reflexivity|]. split.
      * exists (k - j), j. fold n m. split; [lia|]. split; [lia|]. split; [lia|auto].
      * intros i' j' Hi' Hj' Es. fold n m in Hi', Hj'. specialize (H2 j' ltac:(lia)). unfold f in H2. replace (k - j') with i' in H2 by lia. lia.
    + rewrite Ec. exists c. split; auto. split; [fold n m; lia|]. intros k Hk. destruct (Q k ltac:(lia)) as (x & Ex & Mx). rewrite at_get in Ex by lia. now injection Ex as ->.
Qed.
Lemma cc_abort a b : 0 < zlen a -> 0 < zlen b -> ~ (convex a /\ convex b) -> min_plus_convex_convex a b = Abort.
Proof.
  intros Ha Hb N. unfold min_plus_convex_convex. replace (_ && _) with true by lia. cbn [assert_ bind].
  destruct (check_dec a) as [[C1 ->]|[C1 ->]]; auto. cbn [bind]. destruct (check_dec b) as [[C2 ->]|[C2 ->]]; auto. tauto.
Qed.
Lemma ca_abort a b : 0 < zlen a -> 0 < zlen b -> ~ convex a -> min_plus_convex_arbitrary a b = Abort.
Proof.
  intros Ha Hb N. unfold min_plus_convex_arbitrary. replace (_ && _) with true by lia. cbn [assert_ bind].
  destruct (check_dec a) as [[C1 ->]|[C1 ->]]; tauto.
Qed.
Lemma empty_abort a b : zlen a = 0 \/ zlen b = 0 -> min_plus_convex_convex a b = Abort /\ min_plus_convex_arbitrary a b = Abort.
Proof. intro H. unfold min_plus_convex_convex, min_plus_convex_arbitrary. replace (_ && _) with false by lia. auto. Qed.
