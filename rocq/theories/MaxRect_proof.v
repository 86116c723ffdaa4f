(* Proofs about MaxRect_model: histogram and squares. *)
From Coq Require Import Sorted.
From Verif Require Import Base BaseLemmas ListZ SpSeg_proof MaxRect_model MaxRect_spec Seq.

(* ---- histogram ---- *)
Section Hist.
  Variable h : list Z.
  Hypothesis Hpos : forall j x, vget h j = Ok x -> 0 <= x.
  Let N := zlen h.
  Definition H (j : Z) : Z := nth (Z.to_nat j) h 0.
  Lemma H_get j : 0 <= j < N -> vget h j = Ok (H j).
  Proof. intro J. apply vget_nth. exact J. Qed.
  Definition HR (r : Z) : Z := if r <? N then H r else 0.
  Definition P (r l x : Z) : Prop :=
    0 <= l < r /\ (forall j, l <= j < r -> x <= H j) /\ (l = 0 \/ H (l - 1) < x) /\ exists j, l <= j < r /\ H j = x.
  (* the leftmost place to which height y extends from r *)
  Definition J (r j y : Z) : Prop := 0 <= j <= r /\ (forall i, j <= i < r -> y <= H i) /\ (j = 0 \/ H (j - 1) < y).
  Lemma J_unique r a b y : J r a y -> J r b y -> a = b.
  Proof.
    intros (A1 & A2 & A3) (B1 & B2 & B3). destruct (Z.lt_trichotomy a b) as [L|[L|L]]; [|auto|].
    - destruct B3 as [->|B3]; [lia|]. specialize (A2 (b - 1) ltac:(lia)). lia.
    - destruct A3 as [->|A3]; [lia|]. specialize (B2 (a - 1) ltac:(lia)). lia.
  Qed.
  Lemma J_exists k y : forall r, Z.of_nat k = r -> exists j, J r j y.
  Proof.
    induction k as [|k IH]; intros r E.
    - exists 0. split; [lia|]. split; [lia|auto].
    - destruct (Z.le_gt_cases y (H (r - 1))) as [L|L].
      + destruct (IH (r - 1) ltac:(lia)) as (j & J1 & J2 & J3). exists j. split; [lia|]. split; [|auto].
        intros i Hi. destruct (Z.eq_dec i (r - 1)) as [->|]; [auto|apply J2; lia].
      + exists r. split; [lia|]. split; [lia|]. right. lia.
  Qed.
  Definition sorted_stack (s : list (Z * Z)) : Prop := StronglySorted (fun a b => snd b < snd a) s.
  Definition hinv (r : Z) (s : list (Z * Z)) : Prop := sorted_stack s /\ forall l x, In (l, x) s <-> P r l x.

  Lemma hist_pop_ok r hr : forall s j, sorted_stack s ->
    let '(o, j', s') := hist_pop r hr j s in
    (forall l r' x, In (l, r', x) o <-> r' = r /\ In (l, x) s /\ hr <= x) /\
    sorted_stack s' /\ (forall l x, In (l, x) s' <-> In (l, x) s /\ x < hr) /\ NoDup o /\
    (j' = j /\ o = [] \/ exists x, In (j', r, x) o /\ forall l x', In (l, r, x') o -> x <= x').
  Proof.
    induction s as [|(l0, x0) s IH]; intros j So; cbn [hist_pop].
    - split; [intros; cbn; tauto|]. split; [constructor|]. split; [cbn; tauto|]. split; [constructor|]. auto.
    - inversion So as [|? ? S1 F]; subst. rewrite Forall_forall in F. destruct (Z.ltb_spec x0 hr) as [L|L].
      + assert (B : forall l x, In (l, x) ((l0, x0) :: s) -> x < hr).
        { intros l x [Q|I]; [injection Q as <- <-; auto|]. specialize (F _ I). cbn in F. lia. }
        split; [|split; [auto|split; [|split; [constructor|auto]]]].
        * intros l r' x. split; [intros []|]. intros (_ & I & G). specialize (B _ _ I). lia.
        * intros l x. split; [|tauto]. intro I. split; [auto|eauto].
      + specialize (IH l0 S1). destruct (hist_pop r hr l0 s) as ((o, j'), s'). destruct IH as (I1 & I2 & I3 & I4 & I5).
        split.
        { intros l r' x. cbn [In]. rewrite I1. split.
          - intros [Q|Q]; [injection Q as <- <- <-; auto|tauto].
          - intros (-> & [Q|Q] & G); [injection Q as -> ->; auto|auto]. }
        split; [auto|]. split.
        { intros l x. cbn [In]. rewrite I3. split; [tauto|]. intros ([Q|Q] & G); [injection Q as <- <-; lia|auto]. }
        split.
        { constructor; [|auto]. rewrite I1. intros (_ & I & _). specialize (F _ I). cbn in F. lia. }
        right. destruct I5 as [(-> & ->)|(x & I & M)].
        * exists x0. split; [left; auto|]. intros l x' [Q|[]]. injection Q as <- <-. lia.
        * exists x. split; [right; auto|]. intros l x' [Q|Q]; [|eauto]. injection Q as <- <-. apply I1 in I. destruct I as (_ & I & _).
          specialize (F _ I). cbn in F. lia.
  Qed.

  Definition reported (l r x : Z) : Prop := 0 <= r <= N /\ P r l x /\ HR r <= x.
  Lemma hist_body_ok r out s : 0 <= r <= N -> hinv r s ->
    exists o s', hist_body h r (out, s) = Ok (out ++ o, s') /\ (r < N -> hinv (r + 1) s') /\ NoDup o /\
      forall l r' x, In (l, r', x) o <-> r' = r /\ reported l r x.
  Proof.
    intros Hr (So & I). unfold hist_body. fold N.
    assert ((if r <? N then vget h r else Ok 0) = Ok (HR r)) as ->.
    { unfold HR. destruct (Z.ltb_spec r N); [apply H_get; lia|auto]. }
    cbn [bind]. pose proof (hist_pop_ok r (HR r) s r So) as Q. destruct (hist_pop r (HR r) r s) as ((o, j), s').
    destruct Q as (Q1 & Q2 & Q3 & Q4 & Q5). exists o, ((j, HR r) :: s'). split; [reflexivity|].
    split; [|split; [auto|]].
    2:{ intros l r' x. rewrite Q1, I. unfold reported. split; [tauto|]. intros (A & B & C & D). auto. }
    intro RN. assert (EH : HR r = H r) by (unfold HR; destruct (Z.ltb_spec r N); [auto|lia]). rewrite EH in *.
    assert (JJ : J r j (H r)).
    { (* everything at or above H r that ends at r was popped *)
      assert (All : forall l x, P r l x -> H r <= x -> In (l, r, x) o) by (intros l x Px Lx; apply Q1; rewrite I; auto).
      assert (Sub : forall l x, In (l, r, x) o -> P r l x /\ H r <= x) by (intros l x Hi; apply Q1 in Hi; rewrite I in Hi; tauto).
      assert (G : forall i, 0 <= i < r -> (forall t, i <= t < r -> H r <= H t) -> exists l x, In (l, r, x) o /\ l <= i /\ x <= H i).
      { intros i Hi A.
        (* minimum of H over [i, r) *)
        assert (M : exists x, (forall t, i <= t < r -> x <= H t) /\ exists t, i <= t < r /\ H t = x).
        { clear - Hi. assert (G : forall k, forall b, b = i + 1 + Z.of_nat k -> exists x, (forall t, i <= t < b -> x <= H t) /\ exists t, i <= t < b /\ H t = x).
          { induction k as [|k IH]; intros b E.
            - exists (H i). split; [intros t T; assert (t = i) as -> by lia; lia|]. exists i. split; [lia|auto].
            - destruct (IH (b - 1) ltac:(lia)) as (x & A & t & T & B). exists (Z.min x (H (b - 1))). split.
              + intros t' T'. destruct (Z.eq_dec t' (b - 1)) as [->|]; [lia|]. specialize (A t' ltac:(lia)). lia.
              + destruct (Z.min_spec x (H (b - 1))) as [(_ & ->)|(_ & ->)]; [exists t; split; [lia|auto]|exists (b - 1); split; [lia|auto]]. }
          destruct (G (Z.to_nat (r - i - 1)) r) as (x & M); [lia|]. eauto. }
        destruct M as (x & M1 & t & T & M2).
        destruct (J_exists (Z.to_nat i) x i ltac:(lia)) as (l & L1 & L2 & L3).
        exists l, x. split; [|split; [lia|apply M1; lia]]. apply All; [|subst x; apply A; lia].
        split; [lia|]. split; [|split; [auto|exists t; split; [lia|auto]]].
        intros t' T'. destruct (Z.lt_ge_cases t' i); [apply L2; lia|apply M1; lia]. }
      destruct Q5 as [(-> & ->)|(x & Ix & Mx)].
      - split; [lia|]. split; [lia|]. destruct (Z.eq_dec r 0) as [->|]; [auto|]. right.
        destruct (Z.lt_ge_cases (H (r - 1)) (H r)); [auto|]. destruct (G (r - 1)) as (l & x & [] & _); [lia|].
        intros t T. assert (t = r - 1) as -> by lia. lia.
      - destruct (Sub _ _ Ix) as ((P1 & P2 & P3 & P4) & Lx). split; [lia|]. split; [intros i Hi; specialize (P2 i Hi); lia|].
        destruct P3 as [->|P3]; [auto|]. destruct (Z.eq_dec j 0) as [->|]; [auto|]. right. destruct (Z.lt_ge_cases (H (j - 1)) (H r)); [auto|].
        destruct (G (j - 1)) as (l & x' & I' & L1 & L2); [lia| |].
        { intros t T. destruct (Z.eq_dec t (j - 1)) as [->|]; [lia|]. specialize (P2 t ltac:(lia)). lia. }
        specialize (Mx _ _ I'). lia. }
    split.
    - constructor; [auto|]. apply Forall_forall. intros (l, x) Ix. cbn [snd]. apply Q3 in Ix. tauto.
    - intros l x. cbn [In]. rewrite Q3, I. split.
      + intros [Q|(Px & Lx)].
        * injection Q as <- <-. destruct JJ as (J1 & J2 & J3). split; [lia|]. split; [|split; [auto|exists r; split; [lia|auto]]].
          intros i Hi. destruct (Z.eq_dec i r) as [->|]; [lia|apply J2; lia].
        * destruct Px as (P1 & P2 & P3 & t & T & E). split; [lia|]. split; [|split; [auto|exists t; split; [lia|auto]]].
          intros i Hi. destruct (Z.eq_dec i r) as [->|]; [lia|apply P2; lia].
      + intros (P1 & P2 & P3 & t & T & E). pose proof (P2 r ltac:(lia)) as B. destruct (Z.eq_dec x (H r)) as [->|].
        * left. f_equal. apply (J_unique r j l (H r) JJ). split; [lia|]. split; [intros i Hi; apply P2; lia|auto].
        * right. split; [|lia]. assert (t <> r) by (intros ->; lia). split; [lia|]. split; [intros i Hi; apply P2; lia|]. split; [auto|]. exists t. split; [lia|auto].
  Qed.
  Lemma hist_ok : exists out, maximal_rectangles_hist h = Ok out /\ NoDup out /\ forall l r x, In (l, r, x) out <-> reported l r x.
  Proof.
    unfold maximal_rectangles_hist. fold N. pose proof (zlen_nonneg h) as NN. fold N in NN.
    destruct (for_inv (fun r st => (r <= N -> hinv r (snd st)) /\ NoDup (fst st) /\ forall l r' x, In (l, r', x) (fst st) <-> r' < r /\ reported l r' x) 0 (N + 1) (hist_body h) ([], [])) as ((out & s) & -> & _ & ND & I).
    - lia.
    - cbn [fst snd]. split; [|split; [constructor|]].
      + intros _. split; [constructor|]. intros l x. split; [intros []|]. intros (P1 & _). lia.
      + intros l r x. split; [intros []|]. intros (L & G & _). lia.
    - intros r (out, s) Hr (I & ND & O). cbn [fst snd] in *. destruct (hist_body_ok r out s ltac:(lia) ltac:(apply I; lia)) as (o & s' & -> & I' & ND' & O').
      eexists. split; [reflexivity|]. cbn [fst snd]. split; [intro; apply I'; lia|]. split.
      + apply NoDup_app3. split; [auto|]. split; [auto|]. intros ((l, r'), x) A B. apply O in A. apply O' in B. lia.
      + intros l r' x. rewrite in_app_iff, O, O'. split.
        * intros [(A & B)|(-> & B)]; split; auto; lia.
        * intros (A & B). destruct (Z.eq_dec r' r) as [->|]; [auto|]. left. split; [lia|auto].
    - cbn [bind fst] in *. exists out. split; [auto|]. split; [auto|]. intros l r x. rewrite I. split; [tauto|]. intro R. split; [|auto]. destruct R as (A & _). lia.
  Qed.

  Lemma P_spec l r x : r <= N -> P r l x <-> minimum_of h l r x /\ left_maximal h l x.
  Proof.
    intro R. unfold P, minimum_of, left_maximal. fold N. split.
    - intros (A & B & C & j & D & E). split.
      + split; [auto|]. split; [auto|]. split.
        * intros i y Hi G. rewrite H_get in G by lia. injection G as <-. auto.
        * exists j. split; [auto|]. rewrite H_get by lia. congruence.
      + destruct C; [auto|]. destruct (Z.eq_dec l 0); [auto|]. right. exists (H (l - 1)). split; [apply H_get; lia|auto].
    - intros ((A & _ & B & j & D & E) & C). split; [auto|]. split; [intros i Hi; apply (B i); [auto|apply H_get; lia]|]. split.
      + destruct C as [|(y & C & G)]; [auto|]. destruct (Z.eq_dec l 0); [auto|]. rewrite H_get in C by lia. injection C as <-. auto.
      + exists j. split; [auto|]. rewrite H_get in E by lia. congruence.
  Qed.
End Hist.
