(* Morris-Pratt *)
From Verif Require Import Base BaseLemmas ListZ Seq Sorting Wavelet_proof Strings_model Strings_spec Strings_proof.
From Coq Require Import Sorted.

Section MP.
  Context {T : Type}.
  Variable eqb : T -> T -> bool.
  Hypothesis eqb_ok : forall x y, eqb x y = true <-> x = y.
  Variable s : list T.
  Notation n := (zlen s).

  Definition bord (i k : Z) : Prop := 0 <= k < i /\ forall d, 0 <= d < k -> vget s d = vget s (i - k + d).
  Lemma border_bord i k : i <= n -> border s i k <-> bord i k.
  Proof.
    intro Hi. unfold border, bord. split; intros (H & E); split; auto.
    - intros d Hd. rewrite slice_ext in E by lia. rewrite <- (E d) by lia. f_equal.
    - apply slice_ext; try lia. intros d Hd. rewrite <- E by lia. f_equal.
  Qed.
  Definition LB (i b : Z) : Prop := bord i b /\ forall k, bord i k -> k <= b.
  Lemma LB_longest i b : i <= n -> LB i b <-> longest_border s i b.
  Proof.
    intro Hi. unfold LB, longest_border. rewrite border_bord by auto. split; intros (H1 & H2); split; auto; intros k Hk; apply H2; apply border_bord; auto.
  Qed.
  Lemma bord_trans i j k : bord i j -> bord j k -> bord i k.
  Proof.
    intros (H1 & E1) (H2 & E2). split; [lia|]. intros d Hd. rewrite E2 by lia. rewrite E1 by lia. f_equal. lia.
  Qed.
  Lemma bord_below i j k : bord i j -> bord i k -> k < j -> bord j k.
  Proof.
    intros (H1 & E1) (H2 & E2) L. split; [lia|]. intros d Hd. rewrite E2 by lia. rewrite (E1 (j - k + d)) by lia. f_equal. lia.
  Qed.
  Lemma bord_S i k : 0 <= k -> bord (i + 1) (k + 1) <-> bord i k /\ vget s k = vget s i.
  Proof.
    intro Hk. split.
    - intros (H & E). split; [split; [lia|]|].
      + intros d Hd. rewrite E by lia. f_equal. lia.
      + rewrite E by lia. f_equal. lia.
    - intros ((H & E) & Q). split; [lia|]. intros d Hd. destruct (Z.eq_dec d k) as [->|Ne1]; [rewrite Q; f_equal; lia|]. rewrite E by lia. f_equal. lia.
  Qed.
  Definition mpok (mp : list Z) (m : Z) : Prop :=
    zlen mp = n + 1 /\ vget mp 0 = Ok (-1) /\ forall i, 1 <= i <= m -> exists b, vget mp i = Ok b /\ LB i b.

  (* following the links from j: the longest element of B below j that passes the test *)
  Lemma fall_gen (mp : list Z) (m : Z) (B good : Z -> Prop) (rd : Z -> res T) (cmp : T -> bool) j0 fuel : mpok mp m ->
    (forall j, B j -> 0 <= j <= m) ->
    (forall j k, B j -> 0 <= k < j -> (B k <-> bord j k)) ->
    (forall j, B j -> exists y, rd j = Ok y /\ (cmp y = true <-> good j)) ->
    j0 = -1 \/ B j0 -> (Z.to_nat (j0 + 1) < fuel)%nat ->
    exists j, loop fuel (fun j => if 0 <=? j then let* y := rd j in if cmp y then Ok (inr j) else let* j := vget mp j in Ok (inl j) else Ok (inr j)) j0 = Ok j /\
      (j = -1 \/ (B j /\ good j)) /\ j <= j0 /\ forall k, B k -> good k -> k <= j0 -> k <= j.
  Proof.
    intros (Zm & M0 & M) Bm Bc Br H0 Hf.
    match goal with |- context [loop ?f ?b ?s] =>
      destruct (loop_inv (fun j => (j = -1 \/ B j) /\ j <= j0 /\ forall k, B k -> good k -> k <= j0 -> k <= j) (fun j => Z.to_nat (j + 1))
        (fun j => (j = -1 \/ (B j /\ good j)) /\ j <= j0 /\ forall k, B k -> good k -> k <= j0 -> k <= j) b f s) as (j & E & H) end.
    - split; auto. split; [lia|auto].
    - exact Hf.
    - intros j ([->|Bj] & L & U).
      + eexists. split; [reflexivity|]. cbv beta iota. auto.
      + pose proof (Bm j Bj) as Rj. destruct (Z.leb_spec 0 j); [|lia]. destruct (Br j Bj) as (y & Ey & Cy). rewrite Ey. cbn [bind]. destruct (cmp y).
        * eexists. split; [reflexivity|]. cbv beta iota. split; [right; split; auto; now apply Cy|auto].
        * assert (NG : ~ good j) by (intro G; apply Cy in G; discriminate).
          destruct (Z.eq_dec j 0) as [->|Ne2].
          -- rewrite M0. cbn [bind]. eexists. split; [reflexivity|]. cbv beta iota. split; [|lia]. split; auto. split; [lia|].
             intros k Bk G Lk. pose proof (U k Bk G Lk). pose proof (Bm k Bk). assert (k = 0) by lia. subst. tauto.
          -- destruct (M j ltac:(lia)) as (b & Eb & (Bb & Lb)). rewrite Eb. cbn [bind]. eexists. split; [reflexivity|]. cbv beta iota. pose proof Bb as (Rb & _). split; [|lia].
             split; [right; apply (Bc j b); auto|]. split; [lia|]. intros k Bk G Lk. pose proof (U k Bk G Lk). pose proof (Bm k Bk). destruct (Z.eq_dec k j) as [->|Ne3]; [tauto|].
             apply Lb. apply (Bc j k); auto. lia.
    - exists j. auto.
  Qed.
  Lemma mp_ok : exists mp, morris_pratt eqb s = Ok mp /\ mpok mp n.
  Proof.
    unfold morris_pratt. pose proof (zlen_nonneg s) as N0. rewrite vset_ok by (rewrite zlen_vrep; lia). cbn [bind].
    match goal with |- context [for_ 0 n ?b ?st] =>
      destruct (for_inv (fun i '(mp, j) => mpok mp i /\ vget mp i = Ok j) 0 n b st) as ((mp, j) & E & H & _) end; auto.
    - split; [split; [rewrite zlen_zupd; apply zlen_vrep; lia|]; split|].
      + rewrite vget_zupd_same; auto. rewrite zlen_vrep; lia.
      + intros i Hi. lia.
      + rewrite vget_zupd_same; auto. rewrite zlen_vrep; lia.
    - intros i (mp, j) Hi (K & Ej). destruct (vget_Ok s i Hi) as (c & Ec). rewrite Ec. cbn [bind]. unfold fall. pose proof K as (Zm & M0 & M).
      assert (Bj : (j = -1 /\ i = 0) \/ (1 <= i /\ LB i j)).
      { destruct (Z.eq_dec i 0) as [->|Ne4]; [left; split; auto; congruence|]. right. split; [lia|]. destruct (M i ltac:(lia)) as (b & Eb & Lb). congruence. }
      destruct (fall_gen mp i (bord i) (fun k => vget s k = Ok c) (vget s) (eqb c) j (S (length mp)) K) as (j' & E & C & L & U).
      + intros k (Hk & _). lia.
      + intros a k Ba Hk. split; intro Bk; [eapply bord_below; eauto; lia|eapply bord_trans; eauto].
      + intros k (Hk & _). destruct (vget_Ok s k ltac:(lia)) as (y & Ey). exists y. split; auto. rewrite eqb_ok, Ey. split; [intros ->; auto|congruence].
      + destruct Bj as [(-> & _)|(_ & (Bj & _))]; auto.
      + destruct Bj as [(-> & ->)|(_ & ((Hj & _) & _))]; unfold zlen in *; lia.
      + rewrite E. cbn [bind]. rewrite vset_ok by (destruct C as [->|((Hj & _) & _)]; lia). cbn [bind]. eexists. split; [reflexivity|]. cbv beta iota.
        assert (New : LB (i + 1) (j' + 1)).
        { split.
          - destruct C as [->|(Bj' & G)]; [split; [lia|intros d Hd; lia]|]. pose proof Bj' as (Rj' & _). apply bord_S; [lia|]. split; auto. congruence.
          - intros k Bk. pose proof Bk as (Rk & _). destruct (Z.eq_dec k 0) as [Nk|Nk]; [destruct C as [->|((Hj & _) & _)]; lia|].
            replace k with (k - 1 + 1) in Bk by lia. apply bord_S in Bk; [|lia]. destruct Bk as (Bk & Q).
            destruct Bj as [(-> & ->)|(_ & (Bj & Lj))]; [destruct Bk; lia|]. pose proof (U (k - 1) Bk ltac:(congruence) (Lj _ Bk)). lia. }
        split; [|apply vget_zupd_same; lia]. split; [now rewrite zlen_zupd|]. split; [rewrite vget_zupd_diff by lia; auto|].
        intros k Hk. rewrite vget_zupd by lia. destruct (Z.eqb_spec (i + 1) k) as [<-|Nf]; [eauto|]. apply M. lia.
    - rewrite E. cbn [bind]. eauto.
  Qed.

  Lemma period_bord p : 0 < p <= n -> period s p <-> bord n (n - p).
  Proof.
    intro Hp. unfold period, bord. split.
    - intros (_ & H). split; [lia|]. intros d Hd. destruct (vget_Ok s d ltac:(lia)) as (x & Ex), (vget_Ok s (d + p) ltac:(lia)) as (y & Ey).
      replace (n - (n - p) + d) with (d + p) by lia. rewrite Ex, Ey. f_equal. eauto.
    - intros (_ & H). split; auto. intros d x y Ex Ey. pose proof (vget_range _ _ _ Ex). pose proof (vget_range _ _ _ Ey). specialize (H d ltac:(lia)).
      replace (n - (n - p) + d) with (d + p) in H by lia. congruence.
  Qed.
  Lemma sorted_snoc l x : StronglySorted Z.lt l -> (forall y, In y l -> y < x) -> StronglySorted Z.lt (l ++ [x]).
  Proof. intros H1 H2. apply StronglySorted_app'; auto; [repeat constructor|]. intros a b Ha [<-|[]]. auto. Qed.
  Lemma all_periods_ok fr : exists l, all_periods eqb s fr = Ok l /\ lists (fun p => period s p /\ (fr = true \/ n mod p = 0)) l.
  Proof.
    unfold all_periods. destruct mp_ok as (mp & E & (Zm & M0 & M)). rewrite E. cbn [bind]. replace (zlen mp - 1) with n by lia. cbv zeta. pose proof (zlen_nonneg s) as N0.
    set (acc := fun p => fr = true \/ n mod p = 0).
    match goal with |- context [loop ?f ?b ?st] =>
      destruct (loop_inv (fun '(r, out) => (r = n \/ bord n r) /\ StronglySorted Z.lt out /\ forall p, In p out <-> (period s p /\ acc p /\ p <= n - r)) (fun '(r, out) => Z.to_nat r)
        (fun out => lists (fun p => period s p /\ acc p) out) b f st) as (l & El & H) end.
    - split; auto. split; [constructor|]. intro p. cbn [In]. split; [tauto|]. intros ((Hp & _) & _ & L). lia.
    - unfold zlen. lia.
    - intros (r, out) (Hr & So & Ho). assert (Rr : 0 <= r <= n) by (destruct Hr as [->|Hr]; [lia|destruct Hr; lia]). destruct (Z.eqb_spec r 0) as [->|Ne5].
      + eexists. split; [reflexivity|]. cbv beta iota. split; auto. intro p. rewrite Ho. split; [tauto|]. intros ((Hp & Q) & A). split; [split; auto|]. split; auto. lia.
      + destruct (M r ltac:(lia)) as (b & Eb & (Bb & Lb)). rewrite Eb. cbn [bind]. pose proof Bb as (Rb & _).
        assert (Bn : bord n b) by (destruct Hr as [->|Hr]; [auto|eapply bord_trans; eauto]).
        assert (Pb : period s (n - b)) by (apply period_bord; [lia|]; now replace (n - (n - b)) with b by lia).
        assert (Key : forall p, period s p -> p <= n - b -> p = n - b \/ p <= n - r).
        { intros p Pp L. destruct (Z.le_gt_cases p (n - r)); auto. left. pose proof Pp as (Rp & _). apply period_bord in Pp; auto.
          assert (bord r (n - p)). { destruct Hr as [->|Hr]; auto. eapply bord_below; eauto. lia. } pose proof (Lb _ H0). lia. }
        assert (Add : acc (n - b) -> (b = n \/ bord n b) /\ StronglySorted Z.lt (out ++ [n - b]) /\ forall p, In p (out ++ [n - b]) <-> (period s p /\ acc p /\ p <= n - b)).
        { intro A. split; auto. split; [apply sorted_snoc; auto; intros y Hy; apply Ho in Hy; decompose [and] Hy; lia|]. intro p. rewrite in_app_iff, Ho. cbn [In]. split.
          - intros [(H1 & H2 & H3)|[<-|[]]]; (split; [auto|split; [auto|lia]]).
          - intros (H1 & H2 & H3). destruct (Key p H1 H3); [right; left; lia|left; auto]. }
        destruct fr eqn:Efr.
        * eexists. split; [reflexivity|]. cbv beta iota. split; [|lia]. apply Add. left; auto.
        * destruct (Z.eqb_spec (n - b) 0) as [Nq|Nq]; [lia|]. eexists. split; [reflexivity|]. cbv beta iota. split; [|lia]. destruct (Z.eqb_spec (n mod (n - b)) 0) as [Nr|Nr].
          -- apply Add. right; auto.
          -- split; auto. split; auto. intro p. rewrite Ho. split; [intros (H1 & H2 & H3); (split; [auto|split; [auto|lia]])|]. intros (H1 & H2 & H3). destruct (Key p H1 H3) as [->|Ne6]; auto.
             destruct H2; [discriminate|contradiction].
    - exists l. rewrite El. auto.
  Qed.
  Lemma vget_0_least l : StronglySorted Z.lt l -> forall x, vget l 0 = Ok x -> In x l /\ forall y, In y l -> x <= y.
  Proof.
    intros So x E. destruct l as [|z l]; [discriminate|]. injection E as <-. split; [now left|]. inversion So as [|? ? _ F]; subst. rewrite Forall_forall in F.
    intros y [<-|Hy]; [lia|]. apply F in Hy. lia.
  Qed.
  Lemma copy_prefix p : 0 <= p <= n -> for_ 0 p (fun i out => let* x := vget s i in Ok (out ++ [x])) [] = Ok (slice 0 p s).
  Proof.
    intro Hp. destruct (for_inv (fun i out => out = slice 0 i s) 0 p (fun i out => let* x := vget s i in Ok (out ++ [x])) []) as (o & E & ->); auto; [lia|].
    intros i o Hi ->. destruct (vget_Ok s i ltac:(lia)) as (x & Ex). rewrite Ex. cbn [bind]. eexists. split; [reflexivity|].
    apply list_eq; [rewrite zlen_app, zlen_one, !zlen_slice by lia; lia|]. intros d Hd. rewrite zlen_app, zlen_one, zlen_slice in Hd by lia.
    destruct (Z.eq_dec d i) as [->|Ne7]; [rewrite vget_mid by (rewrite zlen_slice; lia); rewrite vget_slice by lia; now rewrite Z.add_0_l|].
    rewrite vget_app1 by (rewrite zlen_slice; lia). rewrite !vget_slice by lia. reflexivity.
  Qed.
  Lemma min_period_ok fr : 0 < n -> exists p, min_period eqb s fr = Ok (slice 0 p s) /\ period s p /\ (fr = true \/ n mod p = 0) /\
    forall q, period s q -> (fr = true \/ n mod q = 0) -> p <= q.
  Proof.
    intro Hn. unfold min_period. destruct (all_periods_ok fr) as (l & E & (So & H)). rewrite E. cbn [bind].
    assert (In n l). { apply H. split; [|right; apply Z.mod_same; lia]. split; [lia|]. intros d x y Ex Ey. apply vget_range in Ex, Ey. lia. }
    destruct l as [|p l]; [destruct H0|]. cbn [vget]. change (vget (p :: l) 0) with (Ok p). cbn [bind]. destruct (vget_0_least (p :: l) So p eq_refl) as (Hi & Hm). apply H in Hi. destruct Hi as (Pp & A).
    exists p. split; [apply copy_prefix; destruct Pp; lia|]. split; auto. split; auto. intros q Hq Aq. apply Hm. apply H. auto.
  Qed.

  Section Match.
    Variable t : list T.
    Variable nul : T.
    Hypothesis Hs : 0 < n.
    Hypothesis Hnul : forall c, In c t -> nul <> c.
    (* a prefix of s of length k is a suffix of t[0 .. i-1] *)
    Definition suf (i k : Z) : Prop := 0 <= k <= n /\ k <= i /\ forall d, 0 <= d < k -> vget s d = vget t (i - k + d).
    Lemma suf_bord i j k : suf i j -> 0 <= k < j -> (suf i k <-> bord j k).
    Proof.
      intros (H1 & H2 & E) Hk. split.
      - intros (_ & _ & F). split; auto. intros d Hd. rewrite F by lia. rewrite E by lia. f_equal. lia.
      - intros (_ & F). split; [lia|]. split; [lia|]. intros d Hd. rewrite F by lia. rewrite E by lia. f_equal. lia.
    Qed.
    Lemma suf_S i k : 0 <= k -> suf (i + 1) (k + 1) <-> suf i k /\ k < n /\ vget s k = vget t i.
    Proof.
      intro Hk. split.
      - intros (H1 & H2 & E). split; [split; [lia|]; split; [lia|]|split; [lia|]].
        + intros d Hd. rewrite E by lia. f_equal. lia.
        + rewrite E by lia. f_equal. lia.
      - intros ((H1 & H2 & E) & L & Q). split; [lia|]. split; [lia|]. intros d Hd. destruct (Z.eq_dec d k) as [->|Ne8]; [rewrite Q; f_equal; lia|]. rewrite E by lia. f_equal. lia.
    Qed.
    Lemma suf_occ i : i <= zlen t -> suf i n <-> occurrence s t (i - n).
    Proof.
      intro Hi. unfold suf, occurrence. split.
      - intros (_ & H & E). split; [lia|]. split; [lia|]. replace (i - n + n) with i by lia. apply list_eq; [rewrite zlen_slice by lia; lia|].
        intros d Hd. rewrite zlen_slice in Hd by lia. rewrite vget_slice by lia. symmetry. apply E. lia.
      - intros (H & L & E). split; [lia|]. split; [lia|]. intros d Hd. rewrite <- E at 1. replace (i - n + n) with i in * by lia. now rewrite vget_slice by lia.
    Qed.
    Lemma matcher_ok : exists l, matcher eqb (Some nul) s t = Ok l /\ lists (occurrence s t) l.
    Proof.
      unfold matcher. destruct mp_ok as (mp & E & K). rewrite E. cbn [bind]. pose proof (zlen_nonneg t) as T0. cbv zeta.
      match goal with |- context [for_ 0 (zlen t) ?b ?st] =>
        destruct (for_inv (fun i '(out, j) => suf i j /\ (forall k, suf i k -> k <= j) /\ StronglySorted Z.lt out /\ forall p, In p out <-> (occurrence s t p /\ p + n <= i)) 0 (zlen t) b st) as ((out, j) & El & _ & _ & So & H) end; auto.
      - split; [split; [lia|]; split; [lia|]; intros d Hd; lia|]. split; [intros k (_ & H & _); lia|]. split; [constructor|]. intro p. cbn [In]. split; [tauto|]. intros ((H1 & _) & H2). lia.
      - intros i (out, j) Hi (Sj & Mj & So & Ho). destruct (vget_Ok t i Hi) as (c & Ec). rewrite Ec. cbn [bind].
        destruct (fall_gen mp n (suf i) (fun k => k < n /\ vget s k = Ok c) (read_past (Some nul) s) (fun y => eqb y c) j (S (S (length s))) K) as (j' & E' & C & L & U).
        + intros k (Hk & _). lia.
        + intros a k Sa Hk. now apply suf_bord.
        + intros k (Hk & _). unfold read_past. destruct (Z.eqb_spec k n) as [->|Ne9].
          * exists nul. split; auto. rewrite eqb_ok. split; [intros ->; exfalso; apply (Hnul c); auto; eapply vget_In; eauto|intros (? & _); lia].
          * destruct (vget_Ok s k ltac:(lia)) as (y & Ey). exists y. split; auto. rewrite eqb_ok, Ey. split; [intros ->; split; auto; lia|intros (_ & Q); congruence].
        + auto.
        + destruct Sj as (Hj & _). unfold zlen in *. lia.
        + rewrite E'. cbn [bind]. eexists. split; [reflexivity|]. cbv beta iota.
          assert (Sn : suf (i + 1) (j' + 1)).
          { destruct C as [->|(Bj & (G1 & G2))]; [split; [lia|]; split; [lia|]; intros d Hd; lia|]. pose proof Bj as (Rj & _). apply suf_S; [lia|]. split; auto. split; auto. congruence. }
          assert (Mn : forall k, suf (i + 1) k -> k <= j' + 1).
          { intros k Sk. pose proof Sk as (Rk & _). destruct (Z.eq_dec k 0) as [Nk|Nk]; [destruct Sn; lia|]. replace k with (k - 1 + 1) in Sk by lia. apply suf_S in Sk; [|lia].
            destruct Sk as (Sk & Lk & Q). pose proof (U (k - 1) Sk ltac:(split; [lia|congruence]) (Mj _ Sk)). lia. }
          split; auto. split; auto.
          assert (Key : forall p, occurrence s t p -> p + n <= i + 1 -> p + n <= i \/ (p = i - n + 1 /\ j' + 1 = n)).
          { intros p Op Lp. destruct (Z.le_gt_cases (p + n) i); auto. right. split; [lia|]. replace p with (i + 1 - n) in Op by lia. apply suf_occ in Op; [|lia]. apply Mn in Op. destruct Sn; lia. }
          destruct (Z.eqb_spec (j' + 1) n) as [Q|Q].
          * split; [apply sorted_snoc; auto; intros y Hy; apply Ho in Hy; decompose [and] Hy; lia|]. intro p. rewrite in_app_iff, Ho. cbn [In]. split.
            -- intros [(H1 & H2)|[<-|[]]]; [split; auto; lia|]. split; [|lia]. rewrite Q in Sn. apply suf_occ in Sn; [|lia]. now replace (i - n + 1) with (i + 1 - n) by lia.
            -- intros (H1 & H2). destruct (Key p H1 H2) as [|(-> & _)]; [left; auto|right; now left].
          * split; auto. intro p. rewrite Ho. split; [intros (H1 & H2); split; auto; lia|]. intros (H1 & H2). destruct (Key p H1 H2) as [|(_ & ?)]; [auto|contradiction].
      - rewrite El. cbn [bind]. exists out. split; auto. split; auto. intro p. rewrite H. split; [tauto|]. intro O. split; auto. destruct O as (_ & O & _). lia.
    Qed.
  End Match.
End MP.

Lemma mp_correct {T} (eqb : T -> T -> bool) : (forall x y, eqb x y = true <-> x = y) ->
  forall s : list T, exists mp, morris_pratt eqb s = Ok mp /\ zlen mp = zlen s + 1 /\ vget mp 0 = Ok (-1) /\
    forall i, 1 <= i <= zlen s -> exists b, vget mp i = Ok b /\ longest_border s i b.
Proof.
  intros H s. destruct (mp_ok eqb H s) as (mp & E & (Z1 & M0 & M)). exists mp. split; auto. split; auto. split; auto.
  intros i Hi. destruct (M i Hi) as (b & Eb & Lb). exists b. split; auto. apply LB_longest; auto. lia.
Qed.
Lemma matcher_bad {T} (eqb : T -> T -> bool) : (forall x y, eqb x y = true <-> x = y) ->
  forall a b nul : T, matcher eqb None [a] [a; b] = UB /\ matcher eqb (Some nul) [a] [a; nul; b] = UB /\ min_period eqb [] true = UB.
Proof.
  intros H a b nul. assert (Ra : forall x, eqb x x = true) by (intro; now apply H).
  split; [|split; [|reflexivity]].
  - unfold matcher. change (morris_pratt eqb [a]) with (Ok [-1; 0]). unfold for_, loop, read_past, vget. vm_compute. now rewrite Ra.
  - unfold matcher. change (morris_pratt eqb [a]) with (Ok [-1; 0]). unfold for_, loop, read_past, vget. vm_compute. now rewrite !Ra.
Qed.
