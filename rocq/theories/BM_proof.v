(* Proofs about BM_model: the depth-first search for augmenting paths. *)
From Verif Require Import Base BaseLemmas ListZ ListMore Seq BM_model.

Section Dfs.
  Variables (n m : Z) (h : list (list Z)) (H : Z -> list Z).
  Hypothesis Hn : 0 <= n. Hypothesis Hm : 0 <= m.
  Hypothesis RH : rep h m H.
  Hypothesis HR : forall r l, 0 <= r < m -> In l (H r) -> 0 <= l < n.
  Notation lf l := (0 <= l < n). Notation rt r := (0 <= r < m).
  Definition R (s : bst) (TR TL LV IT : Z -> Z) : Prop := rep (s_tr s) n TR /\ rep (s_tl s) m TL /\ rep (s_lv s) (n + m) LV /\ rep (s_it s) (n + m) IT.
  Definition Cons (TR TL : Z -> Z) : Prop :=
    (forall l, lf l -> TR l <> -1 -> rt (TR l) /\ TL (TR l) = l /\ In l (H (TR l))) /\ (forall r, rt r -> TL r <> -1 -> lf (TL r) /\ TR (TL r) = r).
  Definition Aug (TR TL TR' TL' : Z -> Z) (r : Z) : Prop :=
    (lf (TL' r) /\ TR' (TL' r) = r /\ In (TL' r) (H r) /\ TL' r <> TL r) /\
    (forall r', rt r' -> r' <> r -> TL' r' <> -1 -> lf (TL' r') /\ TR' (TL' r') = r') /\
    (forall l, lf l -> TR' l <> -1 -> rt (TR' l) /\ In l (H (TR' l)) /\ (TL' (TR' l) = l \/ (TR' l = r /\ TL r = l))) /\
    (exists x, lf x /\ TR x = -1 /\ TR' x <> -1 /\ forall l, lf l -> l <> x -> (TR' l = -1 <-> TR l = -1)).
  Definition Frame (c r : Z) (TR TL LV IT TR' TL' LV' IT' : Z -> Z) : Prop :=
    (forall l, lf l -> c <= LV l -> TR' l = TR l /\ LV' l = LV l /\ IT' l = IT l) /\
    (forall r', rt r' -> r' <> r -> c <= LV (n + r') -> TL' r' = TL r' /\ LV' (n + r') = LV (n + r') /\ IT' (n + r') = IT (n + r')).
  (* facts established by the breadth-first search *)
  Definition BF (LV0 TR : Z -> Z) : Prop :=
    (forall r, rt r -> 0 <= LV0 (n + r) -> exists l, In l (H r) /\ 0 <= LV0 l < LV0 (n + r) /\ TR l <> r) /\
    (forall l, lf l -> TR l <> -1 -> 0 <= LV0 l -> 0 <= LV0 (n + TR l) < LV0 l) /\
    (forall l, lf l -> TR l <> -1 -> 0 <= LV0 (n + TR l) -> 0 <= LV0 l) /\
    (forall x, 0 <= x < n + m -> -1 <= LV0 x).
  Definition Fresh (LV0 LV IT : Z -> Z) (c d : Z) : Prop :=
    (forall l, lf l -> LV l = LV0 l \/ (LV0 l < 0 /\ m < IT l)) /\
    (forall r, rt r -> LV (n + r) = LV0 (n + r)) /\
    (forall l, lf l -> 0 <= LV0 l < c -> IT l = 0) /\
    (forall r, rt r -> 0 <= LV0 (n + r) < d -> IT (n + r) = 0).
  Definition Nn (LV IT : Z -> Z) : Prop := forall x, 0 <= x < n + m -> 0 <= IT x /\ -1 <= LV x.

  Lemma Frame_refl c r TR TL LV IT : Frame c r TR TL LV IT TR TL LV IT.
  Proof. split; auto. Qed.
  Lemma next_ok r s TR TL LV IT : rt r -> R s TR TL LV IT -> exists s', bm_next n r s = Ok s' /\ R s' TR TL LV (fupd IT (n + r) (IT (n + r) + 1)).
  Proof.
    intros Hr (A & B & C & D). unfold bm_next. rewrite (rep_get _ _ _ (n + r) D) by lia. cbn [bind]. rewrite (rep_set _ _ _ (n + r) _ D) by lia. cbn [bind]. eexists. split; [reflexivity|]. unfold R; cbn [s_tr s_tl s_lv s_it]. split; [auto|]. split; [auto|]. split; [auto|]. apply rep_upd; [auto|lia].
  Qed.
  Lemma dead_ok l s TR TL LV IT : lf l -> R s TR TL LV IT -> exists s', bm_dead n m l s = Ok s' /\ R s' TR TL (fupd LV l (n + m)) (fupd IT l (m + 1)).
  Proof.
    intros Hl (A & B & C & D). unfold bm_dead. rewrite (rep_set _ _ _ l _ D) by lia. cbn [bind]. rewrite (rep_set _ _ _ l _ C) by lia. cbn [bind]. eexists. split; [reflexivity|]. unfold R; cbn [s_tr s_tl s_lv s_it]. split; [auto|]. split; [auto|]. split; apply rep_upd; auto; lia.
  Qed.
  Lemma match_ok l r s TR TL LV IT : lf l -> rt r -> R s TR TL LV IT -> exists s', bm_match l r s = Ok s' /\ R s' (fupd TR l r) (fupd TL r l) LV IT.
  Proof.
    intros Hl Hr (A & B & C & D). unfold bm_match. rewrite (rep_set _ _ _ l _ A) by lia. cbn [bind]. rewrite (rep_set _ _ _ r _ B) by lia. cbn [bind]. eexists. split; [reflexivity|]. unfold R; cbn [s_tr s_tl s_lv s_it]. split; [apply rep_upd; auto; lia|]. split; [apply rep_upd; auto; lia|]. auto.
  Qed.
  Lemma aug_base TR TL l r : Cons TR TL -> lf l -> rt r -> TR l = -1 -> In l (H r) -> TL r <> l -> Aug TR TL (fupd TR l r) (fupd TL r l) r.
  Proof.
    intros (C1 & C2) Hl Hr E I N. split; [|split; [|split]].
    - rewrite !fupd_same. auto.
    - intros r' Hr' N' T. rewrite (fupd_diff TL r l r') in T |- * by auto. destruct (C2 r' Hr' T) as (A & B). split; [auto|]. rewrite fupd_diff; [auto|]. intro X. rewrite X in B. lia.
    - intros x Hx T. destruct (Z.eq_dec x l) as [->|N']; [rewrite !fupd_same in *; split; [auto|]; split; auto; left; apply fupd_same|]. rewrite (fupd_diff TR l r x) in T |- * by auto. destruct (C1 x Hx T) as (A & B & D). split; [auto|]. split; [auto|]. destruct (Z.eq_dec (TR x) r) as [Q|Q]; [right; split; [auto|congruence]|left; rewrite fupd_diff by auto; auto].
    - exists l. rewrite fupd_same. split; [auto|]. split; [auto|]. split; [lia|]. intros x Hx N'. rewrite fupd_diff by auto. tauto.
  Qed.
  Lemma aug_step TR TL TR1 TL1 l r nr : Cons TR TL -> lf l -> rt r -> rt nr -> TR l = nr -> In l (H r) -> TL r <> l -> nr <> r -> Aug TR TL TR1 TL1 nr -> TR1 l = nr -> TL1 r = TL r -> Aug TR TL (fupd TR1 l r) (fupd TL1 r l) r.
  Proof.
    intros (C1 & C2) Hl Hr Hnr E I N NR ((A1 & A2 & A3 & A4) & A5 & A6 & (x & X1 & X2 & X3 & X4)) F1 F2. destruct (C1 l Hl ltac:(lia)) as (_ & TN & _). rewrite E in TN. split; [|split; [|split]].
    - rewrite !fupd_same. auto.
    - intros r' Hr' N' T. rewrite (fupd_diff TL1 r l r') in T |- * by auto. destruct (Z.eq_dec r' nr) as [->|Q].
      + split; [auto|]. rewrite fupd_diff by congruence. auto.
      + destruct (A5 r' Hr' Q T) as (B1 & B2). split; [auto|]. rewrite fupd_diff; [auto|]. intro Y. rewrite Y in B2. congruence.
    - intros y Hy T. destruct (Z.eq_dec y l) as [->|Q]; [rewrite !fupd_same in *; split; [auto|]; split; auto; left; apply fupd_same|]. rewrite (fupd_diff TR1 l r y) in T |- * by auto. destruct (A6 y Hy T) as (B1 & B2 & B3). split; [auto|]. split; [auto|]. destruct B3 as [B3|(B3 & B4)]; [|congruence]. destruct (Z.eq_dec (TR1 y) r) as [Q'|Q']; [right; split; [auto|congruence]|left; rewrite fupd_diff by auto; auto].
    - exists x. assert (x <> l) by (intro Y; subst x; lia). rewrite fupd_diff by auto. split; [auto|]. split; [auto|]. split; [auto|]. intros y Hy Ny. destruct (Z.eq_dec y l) as [->|Q]; [rewrite fupd_same; lia|]. rewrite fupd_diff by auto. apply X4; auto.
  Qed.
  Lemma dfs_ok : forall fuel r s TR TL LV IT, R s TR TL LV IT -> Cons TR TL -> rt r -> LV (n + r) < Z.of_nat fuel -> (0 < fuel)%nat -> Nn LV IT ->
    exists b s' TR' TL' LV' IT', bm_dfs fuel n m h r s = Ok (b, s') /\ R s' TR' TL' LV' IT' /\ Nn LV' IT' /\ Frame (LV (n + r)) r TR TL LV IT TR' TL' LV' IT' /\
      (b = false -> (forall l, lf l -> TR' l = TR l) /\ (forall r, rt r -> TL' r = TL r)) /\ (b = true -> Aug TR TL TR' TL' r) /\
      (LV (n + r) < 0 -> b = false /\ s' = s) /\
      (forall LV0, BF LV0 TR -> Fresh LV0 LV IT (LV (n + r)) (LV (n + r) + 1) -> 0 <= LV (n + r) -> b = true).
  Proof.
    induction fuel as [|fuel IH]; intros r s TR TL LV IT RS CO Hr Hf F0 NN; [lia|]. cbn [bm_dfs]. pose proof RS as (RA & RB & RC & RD). rewrite (rep_get _ _ _ (n + r) RC) by lia. cbn [bind]. set (c := LV (n + r)) in *. destruct (Z.ltb_spec c 0) as [L|L].
    { exists false, s, TR, TL, LV, IT. split; [auto|]. split; [auto|]. split; [auto|]. split; [apply Frame_refl|]. split; [auto|]. split; [discriminate|]. split; [auto|]. intros; lia. }
    rewrite (rep_get _ _ _ r RH) by auto. cbn [bind]. set (hr := H r) in *.
    pose (P := fun s1 => exists LV1 IT1, R s1 TR TL LV1 IT1 /\ Nn LV1 IT1 /\ Frame c r TR TL LV IT TR TL LV1 IT1 /\ LV1 (n + r) = c /\
      (forall LV0, BF LV0 TR -> Fresh LV0 LV IT c (c + 1) -> Fresh LV0 LV1 IT1 c c /\ forall i l, i < IT1 (n + r) -> vget hr i = Ok l -> ~ (0 <= LV0 l < c /\ TL r <> l))).
    pose (Q := fun x : bool * bst => exists TR' TL' LV' IT', R (snd x) TR' TL' LV' IT' /\ Nn LV' IT' /\ Frame c r TR TL LV IT TR' TL' LV' IT' /\ (fst x = false -> (forall l, lf l -> TR' l = TR l) /\ (forall r, rt r -> TL' r = TL r)) /\ (fst x = true -> Aug TR TL TR' TL' r) /\ (forall LV0, BF LV0 TR -> Fresh LV0 LV IT c (c + 1) -> fst x = true)).
    match goal with |- context [loop ?fu ?bd s] => destruct (loop_inv P (fun s1 => Z.to_nat (zlen hr - nth (Z.to_nat (n + r)) (s_it s1) 0)) Q bd fu s) as ((b & s1) & X & TR' & TL' & LV' & IT' & Q1 & Q2 & Q3 & Q4 & Q5 & Q6) end.
    - exists LV, IT. split; [auto|]. split; [auto|]. split; [apply Frame_refl|]. split; [auto|]. intros LV0 B0 (G1 & G2 & G3 & G4). split; [split; [auto|]; split; [auto|]; split; [auto|]; intros; apply G4; auto; lia|]. intros i l Hi V. apply vget_range in V. rewrite (G4 r Hr) in Hi; [lia|]. rewrite <- (G2 r Hr). fold c. lia.
    - destruct RD as (LD & _). assert (E := proj1 (NN (n + r) ltac:(lia))). pose proof (zlen_nonneg hr). assert (E2 : nth (Z.to_nat (n + r)) (s_it s) 0 = IT (n + r)). { pose proof (rep_nth (s_it s) 0) as N0. rewrite LD in N0. destruct RS as (_ & _ & _ & RD'). apply (rep_uniq _ _ _ _ _ N0 RD'). lia. } rewrite E2. lia.
    - intros s2 (LV1 & IT1 & R1 & N1 & Fr & Lr & K). pose proof R1 as (RA1 & RB1 & RC1 & RD1).
      assert (IE : forall sx TRx TLx LVx ITx, R sx TRx TLx LVx ITx -> nth (Z.to_nat (n + r)) (s_it sx) 0 = ITx (n + r)). { intros sx TRx TLx LVx ITx (_ & _ & _ & D). pose proof (rep_nth (s_it sx) 0) as N0. assert (LD := proj1 D). rewrite LD in N0. apply (rep_uniq _ _ _ _ _ N0 D). lia. }
      rewrite (rep_get _ _ _ (n + r) RD1) by lia. cbn [bind]. set (i := IT1 (n + r)) in *. assert (Hi := proj1 (N1 (n + r) ltac:(lia))). fold i in Hi. destruct (Z.ltb_spec i (zlen hr)) as [Li|Li].
      2:{ eexists. split; [reflexivity|]. exists TR, TL, LV1, IT1. cbn [fst snd]. split; [auto|]. split; [auto|]. split; [auto|]. split; [auto|]. split; [discriminate|]. intros LV0 B0 G. exfalso. destruct (K LV0 B0 G) as ((_ & G2 & _) & NG). destruct (proj1 B0 r Hr) as (l & I & J1 & J2); [rewrite <- (G2 r Hr), Lr; auto|]. destruct (In_vget _ _ I) as (k & Rk & Vk). fold hr in Rk, Vk. apply (NG k l ltac:(lia) Vk). rewrite <- (G2 r Hr), Lr in J1. split; [auto|]. intro T. apply J2. assert (lf l) by (apply (HR r); auto). rewrite <- T. apply (proj2 CO); [auto|]. lia. }
      destruct (vget_Ok hr i ltac:(lia)) as (l & Vl). rewrite Vl. cbn [bind]. assert (Il : In l (H r)) by (apply (vget_In _ _ _ Vl)). assert (Hl : lf l) by (apply (HR r); auto). rewrite (rep_get _ _ _ l RC1) by lia. cbn [bind]. rewrite (rep_get _ _ _ r RB1) by lia. cbn [bind]. rewrite (rep_get _ _ _ l RD1) by lia. cbn [bind].
      (* moving on to the next index *)
      assert (ADV : forall s3 LV3 IT3, R s3 TR TL LV3 IT3 -> Nn LV3 IT3 -> Frame c r TR TL LV IT TR TL LV3 IT3 -> LV3 (n + r) = c -> IT3 (n + r) = i ->
        (forall LV0, BF LV0 TR -> Fresh LV0 LV IT c (c + 1) -> Fresh LV0 LV3 IT3 c c /\ (forall i' l', i' < i + 1 -> vget hr i' = Ok l' -> ~ (0 <= LV0 l' < c /\ TL r <> l'))) ->
        exists s4, bm_next n r s3 = Ok s4 /\ P s4 /\ (Z.to_nat (zlen hr - nth (Z.to_nat (n + r)) (s_it s4) 0%Z) < Z.to_nat (zlen hr - nth (Z.to_nat (n + r)) (s_it s2) 0%Z))%nat).
      { intros s3 LV3 IT3 R3 N3 Fr3 Lr3 I3 K3. destruct (next_ok r s3 TR TL LV3 IT3 Hr R3) as (s4 & X4 & R4). exists s4. split; [auto|]. split.
        - exists LV3, (fupd IT3 (n + r) (IT3 (n + r) + 1)). split; [auto|]. split; [intros x Hx; destruct (N3 x Hx); unfold fupd; destruct (Z.eqb_spec x (n + r)); [rewrite I3; lia|lia]|]. split.
          + destruct Fr3 as (U & V). split; [intros x Hx Lx; rewrite fupd_diff by lia; apply U; auto|]. intros r' Hr' Nr' Lx. rewrite fupd_diff by lia. apply V; auto.
          + split; [auto|]. intros LV0 B0 G. destruct (K3 LV0 B0 G) as ((G1 & G2 & G3 & G4) & NG). split.
            * split; [intros x Hx; rewrite fupd_diff by lia; auto|]. split; [auto|]. split; [intros x Hx Lx; rewrite fupd_diff by lia; auto|]. intros r' Hr' Lx. rewrite fupd_diff; [auto|]. intro E. assert (r' = r) by lia. subst r'. rewrite <- (G2 r Hr), Lr3 in Lx. lia.
            * rewrite fupd_same, I3. auto.
        - rewrite (IE _ _ _ _ _ R4), (IE _ _ _ _ _ R1), fupd_same, I3. fold i. lia. }
      destruct ((c <=? LV1 l) || (TL r =? l) || (m <? IT1 l)) eqn:SK.
      { destruct (ADV s2 LV1 IT1 R1 N1 Fr Lr eq_refl) as (s4 & X4 & P4 & M4).
        - intros LV0 B0 G. destruct (K LV0 B0 G) as (FR1 & NG). split; [auto|]. intros i' l' Hi' V'. destruct (Z.eq_dec i' i) as [->|Ni]; [|apply (NG i'); [lia|auto]]. rewrite Vl in V'. injection V' as <-. destruct FR1 as (G1 & G2 & G3 & G4). intros (J1 & J2). rewrite (G3 l Hl ltac:(lia)) in SK. destruct (G1 l Hl) as [Y|(Y & _)]; [|lia]. rewrite Y in SK. apply orb_true_iff in SK. destruct SK as [SK|SK]; [|lia]. apply orb_true_iff in SK. destruct SK; lia.
        - rewrite X4. cbn [bind]. eexists. split; [reflexivity|]. exact (conj P4 M4). }
      apply orb_false_iff in SK. destruct SK as (SK & S3). apply orb_false_iff in SK. destruct SK as (S1 & S2). apply Z.leb_gt in S1. apply Z.eqb_neq in S2. apply Z.ltb_ge in S3. rewrite (rep_get _ _ _ l RA1) by lia. cbn [bind]. destruct (Z.eqb_spec (TR l) (-1)) as [E|E].
      { destruct (dead_ok l s2 TR TL LV1 IT1 Hl R1) as (s3 & -> & R3). cbn [bind]. destruct (match_ok l r s3 TR TL _ _ Hl Hr R3) as (s4 & -> & R4). cbn [bind]. eexists. split; [reflexivity|]. do 4 eexists. cbn [fst snd]. split; [exact R4|]. split; [intros x Hx; destruct (N1 x Hx); unfold fupd; destruct (Z.eqb_spec x l); lia|]. split.
        - assert (LL : LV l < c). { destruct (Z_lt_ge_dec (LV l) c) as [Y|Y]; [auto|]. destruct (proj1 Fr l Hl ltac:(lia)) as (_ & Z1 & _). lia. } destruct Fr as (U & V). split; [intros x Hx Lx; assert (x <> l) by (intro EE; rewrite EE in *; lia); rewrite !fupd_diff by auto; apply U; auto|]. intros r' Hr' Nr' Lx. rewrite !fupd_diff by lia. apply V; auto.
        - split; [discriminate|]. split; [intros _; apply aug_base; auto|auto]. }
      destruct (Z.leb_spec (IT1 l) (TR l)) as [LI|LI].
      2:{ (* already tried *)
        destruct (ADV s2 LV1 IT1 R1 N1 Fr Lr eq_refl) as (s4 & X4 & P4 & M4).
        - intros LV0 B0 G. destruct (K LV0 B0 G) as (FR1 & NG). split; [auto|]. intros i' l' Hi' V'. destruct (Z.eq_dec i' i) as [->|Ni]; [|apply (NG i'); [lia|auto]]. rewrite Vl in V'. injection V' as <-. destruct FR1 as (G1 & G2 & G3 & G4). intros (J1 & J2). rewrite (G3 l Hl ltac:(lia)) in LI. pose proof (proj1 (proj1 CO l Hl E)). lia.
        - rewrite X4. cbn [bind]. eexists. split; [reflexivity|]. exact (conj P4 M4). }
      destruct (proj1 CO l Hl E) as (Hnr & TN & _). set (nr := TR l) in *. rewrite (rep_set _ _ _ l _ RD1) by lia. cbn [bind]. cbv zeta. cbn [s_tr s_tl s_lv s_it]. rewrite (rep_get _ _ _ l RC1) by lia. cbn [bind]. rewrite (rep_get _ _ _ (n + nr) RC1) by lia. cbn [bind].
      set (s3 := mkBS _ _ _ _). pose (IT3 := fupd IT1 l (nr + 1)). assert (R3 : R s3 TR TL LV1 IT3) by (split; [auto|]; split; [auto|]; split; [auto|]; apply rep_upd; auto; lia). assert (N3 : Nn LV1 IT3) by (intros x Hx; destruct (N1 x Hx); unfold IT3, fupd; destruct (Z.eqb_spec x l); lia).
      assert (LL : LV l < c). { destruct (Z_lt_ge_dec (LV l) c) as [Y|Y]; [auto|]. destruct (proj1 Fr l Hl ltac:(lia)) as (_ & Z1 & _). lia. }
      assert (Fr3 : Frame c r TR TL LV IT TR TL LV1 IT3). { destruct Fr as (U & V). split; [intros x Hx Lx; unfold IT3; rewrite fupd_diff by (intro EE; rewrite EE in *; lia); apply U; auto|]. intros r' Hr' Nr' Lx. unfold IT3. rewrite fupd_diff by lia. apply V; auto. }
      (* failure: l becomes dead *)
      assert (FAIL : forall s5 LV5 IT5, R s5 TR TL LV5 IT5 -> Nn LV5 IT5 -> Frame c r TR TL LV IT TR TL LV5 IT5 -> LV5 (n + r) = c -> IT5 (n + r) = i -> (forall LV0, BF LV0 TR -> Fresh LV0 LV IT c (c + 1) -> 0 <= LV0 l -> False) -> (forall LV0, BF LV0 TR -> Fresh LV0 LV IT c (c + 1) -> LV5 = LV1 /\ IT5 = IT3) ->
        exists x, (let* s6 := bm_dead n m l s5 in let* s6 := bm_next n r s6 in Ok (inl (B := bool * bst) s6)) = Ok x /\ match x with inl s' => P s' /\ (Z.to_nat (zlen hr - nth (Z.to_nat (n + r)) (s_it s') 0%Z) < Z.to_nat (zlen hr - nth (Z.to_nat (n + r)) (s_it s2) 0%Z))%nat | inr rr => Q rr end).
      { intros s5 LV5 IT5 R5 N5 Fr5 Lr5 I5 NF SAME. destruct (dead_ok l s5 TR TL LV5 IT5 Hl R5) as (s6 & -> & R6). cbn [bind]. destruct (ADV s6 _ _ R6) as (s7 & X7 & P7 & M7).
        - intros x Hx. destruct (N5 x Hx). unfold fupd. destruct (Z.eqb_spec x l); lia.
        - destruct Fr5 as (U & V). split; [intros x Hx Lx; assert (x <> l) by (intro EE; rewrite EE in *; lia); rewrite !fupd_diff by auto; apply U; auto|]. intros r' Hr' Nr' Lx. rewrite !fupd_diff by lia. apply V; auto.
        - rewrite fupd_diff by lia. auto.
        - rewrite fupd_diff by lia. auto.
        - intros LV0 B0 G. destruct (K LV0 B0 G) as ((G1 & G2 & G3 & G4) & NG). assert (U0 : LV0 l < 0) by (destruct (Z_lt_ge_dec (LV0 l) 0) as [Y|Y]; [auto|destruct (NF LV0 B0 G ltac:(lia))]). destruct (SAME LV0 B0 G) as (-> & ->). split.
          + split; [intros x Hx; destruct (Z.eq_dec x l) as [->|Nx]; [right; rewrite fupd_same; lia|unfold IT3; rewrite !fupd_diff by auto; auto]|]. split; [intros x Hx; rewrite fupd_diff by lia; auto|]. split; [intros x Hx Lx; destruct (Z.eq_dec x l) as [->|Nx]; [lia|unfold IT3; rewrite !fupd_diff by auto; auto]|]. intros x Hx Lx. unfold IT3. rewrite !fupd_diff by lia. auto.
          + intros i' l' Hi' V'. destruct (Z.eq_dec i' i) as [->|Ni]; [|apply (NG i'); [lia|auto]]. rewrite Vl in V'. injection V' as <-. lia.
        - rewrite X7. cbn [bind]. eexists. split; [reflexivity|]. exact (conj P7 M7). }
      destruct (Z.ltb_spec (LV1 (n + nr)) (LV1 l)) as [LN|LN].
      2:{ cbn [bind]. apply (FAIL s3 LV1 IT3); auto; [unfold IT3; rewrite fupd_diff by lia; auto|]. intros LV0 B0 G U0. destruct (K LV0 B0 G) as ((G1 & G2 & _) & _). destruct B0 as (_ & B2 & _). specialize (B2 l Hl E U0). fold nr in B2. rewrite (G2 nr Hnr) in LN. destruct (G1 l Hl) as [Y|Y]; lia. }
      destruct (IH nr s3 TR TL LV1 IT3 R3 CO Hnr) as (b & s5 & TR5 & TL5 & LV5 & IT5 & X5 & R5 & N5 & Fr5 & PF & PT & P0 & PG); [lia|pose proof (proj2 (N1 (n + nr) ltac:(lia))); lia|auto|]. rewrite X5. cbn [bind]. assert (NE : nr <> r) by (intro; subst r; lia).
      (* the frame of the inner call, seen from r *)
      assert (Fr6 : Frame c r TR TL LV IT TR5 TL5 LV5 IT5). { destruct Fr5 as (U5 & V5). destruct Fr3 as (U & V). split.
        - intros x Hx Lx. destruct (U x Hx Lx) as (_ & Z2 & Z3). destruct (U5 x Hx ltac:(lia)) as (W1 & W2 & W3). rewrite W1, W2, W3. auto.
        - intros r' Hr' Nr' Lx. destruct (V r' Hr' Nr' Lx) as (_ & Z2 & Z3). destruct (V5 r' Hr' ltac:(intro; subst r'; lia) ltac:(lia)) as (W1 & W2 & W3). rewrite W1, W2, W3. auto. }
      destruct (proj2 Fr5 r Hr (not_eq_sym NE) ltac:(lia)) as (T5 & L5 & I5). destruct (proj1 Fr5 l Hl ltac:(lia)) as (T5' & L5' & I5').
      destruct b.
      + destruct (match_ok l r s5 TR5 TL5 LV5 IT5 Hl Hr R5) as (s6 & -> & R6). cbn [bind]. eexists. split; [reflexivity|]. do 4 eexists. cbn [fst snd]. split; [exact R6|]. split; [auto|]. split.
        * destruct Fr6 as (U & V). split; [intros x Hx Lx; assert (x <> l) by (intro EE; rewrite EE in *; lia); rewrite !fupd_diff by auto; apply U; auto|]. intros r' Hr' Nr' Lx. rewrite !fupd_diff by lia. apply V; auto.
        * split; [discriminate|]. split; [|auto]. intros _. apply (aug_step TR TL TR5 TL5 l r nr); auto.
      + destruct (PF eq_refl) as (Z1 & Z2). assert (R6 : R s5 TR TL LV5 IT5) by (destruct R5 as (R51 & R52 & R53); split; [apply (rep_ext _ _ TR5); auto|split; [apply (rep_ext _ _ TL5); auto|auto]]).
        assert (GD : forall LV0, BF LV0 TR -> Fresh LV0 LV IT c (c + 1) -> 0 <= LV0 l -> False).
        { intros LV0 B0 G U0. destruct (K LV0 B0 G) as ((G1 & G2 & G3 & G4) & _). pose proof (proj1 (proj2 B0) l Hl E U0) as BL. fold nr in BL. assert (LL0 : LV1 l = LV0 l) by (destruct (G1 l Hl); lia). enough (false = true) by discriminate. apply (PG LV0 B0); rewrite (G2 nr Hnr); [|lia]. split; [intros x Hx; destruct (Z.eq_dec x l) as [->|Nx]; [auto|unfold IT3; rewrite fupd_diff by auto; auto]|]. split; [auto|]. split; [intros x Hx Lx; destruct (Z.eq_dec x l) as [->|Nx]; [lia|unfold IT3; rewrite fupd_diff by auto; apply G3; auto; lia]|]. intros x Hx Lx. unfold IT3. rewrite fupd_diff by lia. apply G4; auto. lia. }
        apply (FAIL s5 LV5 IT5); auto.
        * destruct Fr6 as (U & V). split; [intros x Hx Lx; destruct (U x Hx Lx); auto|]. intros x Hx Nx Lx. destruct (V x Hx Nx Lx); auto.
        * rewrite L5. auto.
        * rewrite I5. unfold IT3. rewrite fupd_diff by lia. auto.
        * (* in a fresh state l is unreached, so the inner call cannot have happened *)
          intros LV0 B0 G. exfalso. apply (GD LV0 B0 G). destruct (K LV0 B0 G) as ((G1 & G2 & _) & _). destruct (G1 l Hl) as [Y|(_ & Y)]; [|lia]. rewrite (G2 nr Hnr), Y in LN. pose proof (proj2 (proj2 (proj2 B0)) (n + nr) ltac:(lia)). lia.
    - cbn [fst snd] in *. rewrite X. cbn [bind]. destruct b.
      + exists true, s1, TR', TL', LV', IT'. split; [auto|]. split; [auto|]. split; [auto|]. split; [auto|]. split; [auto|]. split; [auto|]. split; [lia|auto].
      + destruct Q1 as (QA & QB & QC & QD). rewrite (rep_set _ _ _ (n + r) _ QC) by lia. cbn [bind]. exists false. eexists. exists TR', TL', (fupd LV' (n + r) (n + m)), IT'. split; [reflexivity|]. split; [split; [auto|]; split; [auto|]; split; [apply rep_upd; auto; lia|auto]|]. split; [intros x Hx; destruct (Q2 x Hx); unfold fupd; destruct (Z.eqb_spec x (n + r)); lia|]. split; [|split; [auto|]; split; [discriminate|]; split; [lia|]; intros; eapply Q6; eauto].
        destruct Q3 as (U & V). split; [intros x Hx Lx; rewrite fupd_diff by lia; auto|]. intros r' Hr' Nr' Lx. rewrite fupd_diff by lia. apply V; auto.
  Qed.
End Dfs.
