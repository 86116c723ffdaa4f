(* Proofs about BM_model: levels, phases, solve. *)
From Verif Require Import Base BaseLemmas ListZ ListMore Seq BM_model BM_proof.
From Coq Require Import Permutation.

Lemma ND_app_l {A} (l1 l2 : list A) : NoDup (l1 ++ l2) -> NoDup l1.
Proof. induction l1 as [|a l1 IH]; cbn [app]; [constructor|]. intro N. inversion N; subst. constructor; [rewrite in_app_iff in *; tauto|auto]. Qed.
Definition cnt (n : Z) (TR : Z -> Z) : Z := zlen (filter (fun l => negb (TR l =? -1)) (zrange n)).
Lemma In_cnt n TR l : In l (filter (fun l => negb (TR l =? -1)) (zrange n)) <-> 0 <= l < n /\ TR l <> -1.
Proof. rewrite filter_In, In_zrange, negb_true_iff, Z.eqb_neq. tauto. Qed.
Lemma zlen_incl {A} (l l' : list A) : NoDup l -> incl l l' -> zlen l <= zlen l'.
Proof. intros N I. pose proof (NoDup_incl_length N I). unfold zlen. lia. Qed.
Lemma cnt_le n TR : 0 <= n -> 0 <= cnt n TR <= n.
Proof.
  intro Hn. split; [apply zlen_nonneg|]. rewrite <- (zlen_zrange n) at 2 by auto. unfold cnt. apply zlen_incl; [apply NoDup_filter, NoDup_zrange|]. intros x I. apply filter_In in I. tauto.
Qed.
Lemma cnt_ext n T T' : (forall l, 0 <= l < n -> (T' l = -1 <-> T l = -1)) -> cnt n T' = cnt n T.
Proof.
  intro H. apply Z.le_antisymm; apply zlen_incl; try (apply NoDup_filter, NoDup_zrange); intros x I; apply In_cnt in I; apply In_cnt; (split; [tauto|]); rewrite H in * by tauto; tauto.
Qed.
Lemma cnt_aug n T T' x : 0 <= x < n -> T x = -1 -> T' x <> -1 -> (forall l, 0 <= l < n -> l <> x -> (T' l = -1 <-> T l = -1)) -> cnt n T' = cnt n T + 1.
Proof.
  intros Hx E N H. unfold cnt. assert (P : Permutation (filter (fun l => negb (T' l =? -1)) (zrange n)) (x :: filter (fun l => negb (T l =? -1)) (zrange n))).
  { apply NoDup_Permutation; [apply NoDup_filter, NoDup_zrange| |].
    - constructor; [rewrite In_cnt; lia|apply NoDup_filter, NoDup_zrange].
    - intro y. cbn [In]. rewrite !In_cnt. destruct (Z.eq_dec y x) as [->|Q]; [tauto|]. split; [intros (A & B)|intros [A|(A & B)]]; [right; rewrite H in B by auto; auto|congruence|rewrite H by auto; auto]. }
  apply Permutation_length in P. unfold zlen. rewrite P. cbn [length]. lia.
Qed.

Section S.
  Variables (n m : Z) (g : list (list Z)) (G H : Z -> list Z).
  Hypothesis Hn : 0 <= n. Hypothesis Hm : 0 <= m.
  Hypothesis RG : rep g (n + m) G.
  Notation lf l := (0 <= l < n). Notation rt r := (0 <= r < m).
  Hypothesis GR : forall l r, lf l -> In r (G l) -> rt r.
  Hypothesis GH : forall l r, lf l -> rt r -> (In l (H r) <-> In r (G l)).
  Hypothesis HR : forall r l, rt r -> In l (H r) -> lf l.

  Section B.
    Variables (tr tl : list Z) (TR TL : Z -> Z).
    Hypothesis RT : rep tr n TR. Hypothesis RL : rep tl m TL.
    Hypothesis CO : Cons n m H TR TL.
    (* X: the left vertices reached so far; clo x r: the edge (x, r) has been looked at *)
    Record BInv (LV : Z -> Z) (ok : bool) (X : list Z) (clo : Z -> Z -> Prop) : Prop := {
      v_nd : NoDup X;
      v_in : forall l, lf l -> (0 <= LV l <-> In l X);
      v_lf : forall l, In l X -> lf l;
      v_free : forall l, lf l -> TR l = -1 -> 0 <= LV l;
      v_clo : forall l r, clo l r -> TR l <> r -> 0 <= LV (n + r);
      v_par : forall r, rt r -> 0 <= LV (n + r) -> exists l, lf l /\ In r (G l) /\ 0 <= LV l < LV (n + r) /\ TR l <> r;
      v_mat : forall l, lf l -> TR l <> -1 -> 0 <= LV l -> 0 <= LV (n + TR l) < LV l;
      v_back : forall r, rt r -> 0 <= LV (n + r) -> TL r <> -1 -> 0 <= LV (TL r);
      v_ok : ok = true <-> exists r, rt r /\ 0 <= LV (n + r) /\ TL r = -1;
      v_low : forall x, 0 <= x < n + m -> -1 <= LV x
    }.
    Lemma relax_ok l r lv q ok LV D clo : lf l -> rt r -> In r (G l) -> rep lv (n + m) LV -> BInv LV ok (D ++ l :: q) clo ->
      exists lv' q' ok' LV', bm_relax n tr tl l r (lv, q, ok) = Ok (lv', q', ok') /\ rep lv' (n + m) LV' /\ BInv LV' ok' (D ++ l :: q') (fun x y => clo x y \/ (x = l /\ y = r)).
    Proof.
      intros Hl Hr Ig R1 [I1 I2 I3 I4 I5 I6 I7 I8 I9 I10]. unfold bm_relax. rewrite (rep_get _ _ _ l RT) by auto. cbn [bind]. assert (LL : 0 <= LV l) by (apply I2; [auto|apply in_or_app; right; left; auto]). destruct (Z.eqb_spec (TR l) r) as [E|E].
      { exists lv, q, ok, LV. split; [auto|]. split; [auto|]. constructor; auto. intros x y [C|(-> & ->)] N; [apply (I5 x y); auto|congruence]. }
      rewrite (rep_get _ _ _ (n + r) R1) by lia. cbn [bind]. destruct (Z.ltb_spec (LV (n + r)) 0) as [L|L]; cbn [negb].
      2:{ exists lv, q, ok, LV. split; [auto|]. split; [auto|]. constructor; auto. intros x y [C|(-> & ->)] N; [apply (I5 x y); auto|auto]. }
      rewrite (rep_get _ _ _ r RL) by auto. cbn [bind]. rewrite (rep_get _ _ _ l R1) by lia. cbn [bind]. rewrite (rep_set _ _ _ (n + r) _ R1) by lia. cbn [bind]. pose proof (rep_upd _ _ _ (n + r) (LV l + 1) R1 ltac:(lia)) as R2. set (LV2 := fupd LV (n + r) (LV l + 1)) in *.
      assert (E2 : forall x, lf x -> LV2 x = LV x) by (intros x Hx; unfold LV2; rewrite fupd_diff by lia; auto). assert (E3 : forall y, LV2 (n + y) = if y =? r then LV l + 1 else LV (n + y)) by (intro y; unfold LV2, fupd; destruct (Z.eqb_spec (n + y) (n + r)), (Z.eqb_spec y r); auto; lia).
      destruct (Z.eqb_spec (TL r) (-1)) as [F|F].
      - eexists. exists q, true, LV2. split; [reflexivity|]. split; [auto|]. constructor; auto.
        + intros x Hx. rewrite E2 by auto. auto.
        + intros x Hx. rewrite E2 by auto. auto.
        + intros x y C N. rewrite E3. destruct (Z.eqb_spec y r); [lia|]. destruct C as [C|(-> & ->)]; [apply (I5 x y); auto|congruence].
        + intros y Hy. rewrite E3. destruct (Z.eqb_spec y r) as [->|N]; intro L2; [exists l; rewrite E2 by auto; split; [auto|split; [auto|split; [lia|auto]]]|]. destruct (I6 y Hy L2) as (x & A1 & A2 & A3). exists x. rewrite E2 by auto. auto.
        + intros x Hx N. rewrite E2 by auto. intro L2. rewrite E3. pose proof (I7 x Hx N L2). destruct (Z.eqb_spec (TR x) r) as [Q|Q]; [|auto]. rewrite Q in *. lia.
        + intros y Hy. rewrite E3. destruct (Z.eqb_spec y r) as [->|N]; intros L2 T; [congruence|]. destruct (proj2 CO y Hy T) as (A & _). rewrite E2 by auto. auto.
        + split; [intros _; exists r; rewrite E3, Z.eqb_refl; split; [auto|split; [lia|auto]]|auto].
        + intros x Hx. unfold LV2, fupd. destruct (Z.eqb_spec x (n + r)); [lia|auto].
      - destruct (proj2 CO r Hr F) as (Hx & TX). set (nl := TL r) in *. assert (UN : LV nl < 0). { destruct (Z_lt_ge_dec (LV nl) 0) as [Y|Y]; [auto|]. pose proof (I7 nl Hx ltac:(lia) ltac:(lia)) as Z0. rewrite TX in Z0. lia. }
        rewrite (rep_get _ _ _ nl R2) by lia. cbn [bind]. rewrite E2 by auto. destruct (Z.ltb_spec (LV nl) 0); [|lia]. rewrite (rep_set _ _ _ nl _ R2) by lia. cbn [bind]. pose proof (rep_upd _ _ _ nl (LV l + 2) R2 ltac:(lia)) as R3. set (LV3 := fupd LV2 nl (LV l + 2)) in *.
        assert (E4 : forall x, lf x -> LV3 x = if x =? nl then LV l + 2 else LV x) by (intros x Hx'; unfold LV3, fupd; destruct (Z.eqb_spec x nl); [auto|apply E2; auto]). assert (E5 : forall y, rt y -> LV3 (n + y) = if y =? r then LV l + 1 else LV (n + y)) by (intros y Hy; unfold LV3; rewrite fupd_diff by lia; apply E3).
        assert (NI : ~ In nl (D ++ l :: q)) by (rewrite <- I2 by auto; lia).
        eexists. exists (q ++ [nl]), ok, LV3. split; [reflexivity|]. split; [auto|]. assert (AP : D ++ l :: q ++ [nl] = (D ++ l :: q) ++ [nl]) by (rewrite <- app_assoc; auto). rewrite AP. constructor.
        + apply NoDup_app_snoc; auto.
        + intros x Hx'. rewrite E4 by auto. rewrite in_app_iff. cbn [In]. destruct (Z.eqb_spec x nl) as [->|N]; [split; [auto|lia]|]. rewrite I2 by auto. split; [auto|intros [Y|[Y|[]]]; [auto|congruence]].
        + intros x Y. apply in_app_or in Y. destruct Y as [Y|[<-|[]]]; auto.
        + intros x Hx' T. rewrite E4 by auto. destruct (Z.eqb_spec x nl); [lia|auto].
        + intros x y C N. destruct C as [C|(-> & ->)]; [|rewrite E5 by auto; rewrite Z.eqb_refl; lia]. pose proof (I5 x y C N) as Y0. unfold LV3. unfold fupd at 1. destruct (Z.eqb_spec (n + y) nl); [lia|]. rewrite E3. destruct (Z.eqb_spec y r); lia.
        + intros y Hy. rewrite E5 by auto. destruct (Z.eqb_spec y r) as [->|N]; intro L2; [exists l|destruct (I6 y Hy L2) as (x & A1 & A2 & A3); exists x]; (rewrite E4 by auto); [destruct (Z.eqb_spec l nl) as [Q|Q]; [rewrite <- Q in *; lia|split; [auto|split; [auto|split; [lia|auto]]]]|]. destruct (Z.eqb_spec x nl) as [Q|Q]; [rewrite <- Q in *; lia|auto].
        + intros x Hx' N. rewrite E4 by auto. destruct (proj1 CO x Hx' N) as (RX & TLX & _). rewrite E5 by auto. destruct (Z.eqb_spec x nl) as [->|Q]; intro L2; [rewrite TX, Z.eqb_refl; lia|]. destruct (Z.eqb_spec (TR x) r) as [Q2|Q2]; [exfalso; apply Q; rewrite <- TLX, Q2; reflexivity|]. apply I7; auto.
        + intros y Hy. rewrite E5 by auto. intros L2 T. destruct (proj2 CO y Hy T) as (A & TY). rewrite E4 by auto. destruct (Z.eqb_spec (TL y) nl); [lia|]. destruct (Z.eqb_spec y r) as [Q|Q]; [exfalso; apply n0; unfold nl; rewrite Q; auto|]. apply I8; auto.
        + rewrite I9. split; intros (y & Hy & A & B); exists y; (split; [auto|]); rewrite E5 in * by auto; (destruct (Z.eqb_spec y r) as [Q|Q]; [exfalso; apply F; unfold nl; rewrite <- Q; exact B|auto]).
        + intros x Hx'. unfold LV3, LV2, fupd. destruct (Z.eqb_spec x nl); [lia|]. destruct (Z.eqb_spec x (n + r)); [lia|auto].
    Qed.
    Lemma BInv_clo LV ok X (c c' : Z -> Z -> Prop) : (forall x y, c' x y -> c x y) -> BInv LV ok X c -> BInv LV ok X c'.
    Proof. intros M [I1 I2 I3 I4 I5 I6 I7 I8 I9 I10]. constructor; auto. intros; apply (I5 l); auto. Qed.
    Lemma bfs_loop : forall fuel lv q ok LV D, rep lv (n + m) LV -> BInv LV ok (D ++ q) (fun x y => In x D /\ In y (G x)) -> n - zlen D < Z.of_nat fuel ->
      exists lv' ok' LV' D', loop fuel (fun st => let '(lv, q, ok) := st in match q with | [] => Ok (inr (lv, ok)) | l :: q => let* a := vget g l in let* st := for_each a (bm_relax n tr tl l) (lv, q, ok) in Ok (inl st) end) (lv, q, ok) = Ok (lv', ok') /\ rep lv' (n + m) LV' /\ BInv LV' ok' D' (fun x y => In x D' /\ In y (G x)).
    Proof.
      induction fuel as [|fuel IH]; intros lv q ok LV D R1 I F.
      { exfalso. assert (zlen D <= zlen (zrange n)); [|rewrite zlen_zrange in * by auto; lia]. apply zlen_incl; [apply (ND_app_l D q); apply I|]. intros x Y. apply In_zrange. apply (v_lf _ _ _ _ I). apply in_or_app; auto. }
      cbn [loop]. destruct q as [|l q].
      - cbn [bind]. exists lv, ok, LV, D. rewrite app_nil_r in I. auto.
      - assert (Hl : lf l) by (apply (v_lf _ _ _ _ I); apply in_or_app; right; left; auto). rewrite (rep_get _ _ _ l RG) by lia. cbn [bind].
        destruct (for_each_inv (fun done st => let '(lv, q, ok) := st in exists LV, rep lv (n + m) LV /\ BInv LV ok (D ++ l :: q) (fun x y => (In x D /\ In y (G x)) \/ (x = l /\ In y done))) (G l) (bm_relax n tr tl l) (lv, q, ok)) as (((lv1 & q1) & ok1) & X & LV1 & R2 & I2).
        + exists LV. split; [auto|]. apply (BInv_clo _ _ _ _ _ (fun x y (p : (In x D /\ In y (G x)) \/ (x = l /\ In y [])) => match p with or_introl a => a | or_intror (conj _ b) => match b with end end) I).
        + intros done r todo ((lv1 & q1) & ok1) Eq (LV1 & R2 & I2). assert (Ir : In r (G l)) by (rewrite Eq; apply in_or_app; right; left; auto). destruct (relax_ok l r lv1 q1 ok1 LV1 D _ Hl (GR l r Hl Ir) Ir R2 I2) as (lv2 & q2 & ok2 & LV2 & X & R3 & I3). exists (lv2, q2, ok2). split; [auto|]. exists LV2. split; [auto|]. revert I3. apply BInv_clo. intros x y [A|(A & B)]; [auto|]. apply in_app_or in B. destruct B as [B|[B|[]]]; auto.
        + rewrite X. cbn [bind]. apply (IH lv1 q1 ok1 LV1 (D ++ [l])); [auto| |rewrite zlen_app; change (zlen [l]) with 1; lia]. rewrite <- app_assoc. cbn [app]. revert I2. apply BInv_clo. intros x y (A & B). apply in_app_or in A. destruct A as [A|[<-|[]]]; auto.
    Qed.
    Lemma bfs_ok : exists lv ok LV D, bm_bfs n m g tr tl = Ok (lv, ok) /\ rep lv (n + m) LV /\ BInv LV ok D (fun x y => In x D /\ In y (G x)).
    Proof.
      unfold bm_bfs, bm_start. match goal with |- context [for_ 0 n ?bd ?s0] => destruct (for_inv (fun i st => let '(lv, q) := st in rep lv (n + m) (fun x => if (x <? i) && (TR x =? -1) then 0 else -1) /\ NoDup q /\ forall x, In x q <-> 0 <= x < i /\ TR x = -1) 0 n bd s0) as ((lv & q) & X & R1 & ND & Q) end; [lia| | |].
      - split; [apply (rep_ext _ _ (fun _ => -1)); [apply rep_vrep; lia|intros i Hi; destruct (Z.ltb_spec i 0); [lia|auto]]|]. split; [constructor|]. intro x. cbn [In]. lia.
      - intros i (lv & q) Hi (R1 & ND & Q). rewrite (rep_get _ _ _ i RT) by auto. cbn [bind]. destruct (Z.eqb_spec (TR i) (-1)) as [E|E]; (rewrite (rep_set _ _ _ i _ R1) by lia); cbn [bind]; eexists; (split; [reflexivity|]); split.
        + apply (rep_ext _ _ _ _ (rep_upd _ _ _ i 0 R1 ltac:(lia))). intros x Hx. unfold fupd. destruct (Z.eqb_spec x i) as [->|N]; [rewrite E, Z.eqb_refl; destruct (Z.ltb_spec i (i + 1)); [auto|lia]|]. destruct (Z.ltb_spec x i), (Z.ltb_spec x (i + 1)); auto; lia.
        + split; [apply NoDup_app_snoc; auto; rewrite Q; lia|]. intro x. rewrite in_app_iff, Q. cbn [In]. split; [intros [Y|[<-|[]]]; [split; [lia|tauto]|split; [lia|auto]]|]. intros (Y & T). destruct (Z.eq_dec x i) as [->|N]; [auto|left; split; [lia|auto]].
        + apply (rep_ext _ _ _ _ (rep_upd _ _ _ i (-1) R1 ltac:(lia))). intros x Hx. unfold fupd. destruct (Z.eqb_spec x i) as [->|N]; [destruct (Z.eqb_spec (TR i) (-1)); [congruence|rewrite andb_false_r; auto]|]. destruct (Z.ltb_spec x i), (Z.ltb_spec x (i + 1)); auto; lia.
        + split; [auto|]. intro x. rewrite Q. split; intros (Y & T); (split; [|auto]); [lia|]. assert (x <> i) by congruence. lia.
      - rewrite X. cbn [bind]. apply (bfs_loop (Z.to_nat n + 1) lv q false _ [] R1); [|change (zlen (@nil Z)) with 0; lia].
        assert (E : forall x, 0 <= (if (x <? n) && (TR x =? -1) then 0 else -1) <-> x < n /\ TR x = -1) by (intro x; destruct (Z.ltb_spec x n), (Z.eqb_spec (TR x) (-1)); cbn [andb]; lia).
        cbn [app]. constructor; auto.
        + intros l Hl. rewrite E, Q. lia.
        + intros l Y. apply Q in Y. lia.
        + intros l Hl T. apply E. split; [lia|auto].
        + intros l r ([] & _).
        + intros r Hr Y. apply E in Y. lia.
        + intros l Hl N Y. apply E in Y. tauto.
        + intros r Hr Y. apply E in Y. lia.
        + split; [discriminate|]. intros (r & Hr & Y & _). apply E in Y. lia.
        + intros x Hx. destruct ((x <? n) && (TR x =? -1)); lia.
    Qed.
    Lemma BInv_BF LV ok D c : BInv LV ok D c -> BF n m H LV TR.
    Proof.
      intros [I1 I2 I3 I4 I5 I6 I7 I8 I9 I10]. split; [|split; [|split]]; auto.
      - intros r Hr L. destruct (I6 r Hr L) as (l & A & B & C). exists l. split; [apply GH; auto|auto].
      - intros l Hl T L. destruct (proj1 CO l Hl T) as (A & B & _). rewrite <- B. apply I8; auto. lia.
    Qed.
  End B.

  Variable h : list (list Z). Hypothesis RH : rep h m H.
  Definition NoAug (TR TL : Z -> Z) : Prop := exists A B : Z -> bool,
    (forall l, lf l -> TR l = -1 -> A l = true) /\ (forall l r, lf l -> A l = true -> In r (G l) -> B r = true) /\ (forall r, rt r -> B r = true -> TL r <> -1 /\ A (TL r) = true).
  Lemma aug_cons TR TL TR' TL' r : Cons n m H TR TL -> rt r -> TL r = -1 -> Aug n m H TR TL TR' TL' r -> Cons n m H TR' TL'.
  Proof.
    intros (C1 & C2) Hr E ((A1 & A2 & A3 & A4) & A5 & A6 & _). split.
    - intros l Hl N. destruct (A6 l Hl N) as (B1 & B2 & [B3|(B3 & B4)]); [auto|lia].
    - intros r' Hr' N. destruct (Z.eq_dec r' r) as [->|Q]; [auto|apply A5; auto].
  Qed.
  Lemma cons_ext TR TL TR' TL' : Cons n m H TR TL -> (forall l, lf l -> TR' l = TR l) -> (forall r, rt r -> TL' r = TL r) -> Cons n m H TR' TL'.
  Proof.
    intros (C1 & C2) E1 E2. split.
    - intros l Hl N. rewrite E1 in * by auto. destruct (C1 l Hl N) as (A & B). rewrite E2 by auto. auto.
    - intros r Hr N. rewrite E2 in * by auto. destruct (C2 r Hr N) as (A & B). rewrite E1 by auto. auto.
  Qed.
  Lemma phase_ok tr tl lv f TR TL LV D : rep tr n TR -> rep tl m TL -> rep lv (n + m) LV -> Cons n m H TR TL -> BInv TR TL LV true D (fun x y => In x D /\ In y (G x)) ->
    exists tr' tl' f' TR' TL', bm_phase n m h tr tl lv f = Ok (tr', tl', f') /\ rep tr' n TR' /\ rep tl' m TL' /\ Cons n m H TR' TL' /\ f < f' /\ cnt n TR' - f' = cnt n TR - f.
  Proof.
    intros RT RL RV CO BI. unfold bm_phase. set (s0 := mkBS tr tl lv (vrep (n + m) 0)). assert (R0 : R n m s0 TR TL LV (fun _ => 0)) by (split; [auto|]; split; [auto|]; split; [auto|]; apply rep_vrep; lia). pose proof (BInv_BF TR TL CO LV true D _ BI) as BFs.
    match goal with |- context [for_ 0 m ?bd ?st0] => destruct (for_inv (fun j st => let '(s, f1) := st in exists TR1 TL1 LV1 IT1, R n m s TR1 TL1 LV1 IT1 /\ Cons n m H TR1 TL1 /\ Nn n m LV1 IT1 /\ cnt n TR1 - f1 = cnt n TR - f /\ (f < f1 \/ (s = s0 /\ f1 = f /\ forall j', 0 <= j' < j -> TL j' = -1 -> LV (n + j') < 0))) 0 m bd st0) as ((s & f1) & X & TR1 & TL1 & LV1 & IT1 & R1 & C1 & N1 & K1 & P1) end; [lia| | |].
    - exists TR, TL, LV, (fun _ => 0). split; [auto|]. split; [auto|]. split; [intros x Hx; split; [lia|apply BI; auto]|]. split; [auto|]. right. split; [auto|]. split; [auto|]. intros; lia.
    - intros j (s & f1) Hj (TR1 & TL1 & LV1 & IT1 & R1 & C1 & N1 & K1 & P1). pose proof R1 as (RA & RB & RC & RD). rewrite (rep_get _ _ _ j RB) by lia. cbn [bind]. destruct (Z.eqb_spec (TL1 j) (-1)) as [E|E].
      2:{ eexists. split; [reflexivity|]. exists TR1, TL1, LV1, IT1. split; [auto|]. split; [auto|]. split; [auto|]. split; [auto|]. destruct P1 as [P1|(P1 & P2 & P3)]; [auto|right; split; [auto|]; split; [auto|]]. intros j' Hj' T. destruct (Z.eq_dec j' j) as [->|Nj]; [|apply P3; auto; lia]. exfalso. apply E. subst s. rewrite <- T. apply (rep_uniq _ _ _ _ _ RB RL). auto. }
      rewrite (rep_get _ _ _ (n + j) RC) by lia. cbn [bind].
      destruct (dfs_ok n m h H Hn Hm RH HR (Z.to_nat (LV1 (n + j)) + 1) j s TR1 TL1 LV1 IT1 R1 C1 Hj ltac:(lia) ltac:(lia) N1) as (b & s' & TR' & TL' & LV' & IT' & X & R2 & N2 & _ & PF & PT & P0 & PG). rewrite X. cbn [bind]. eexists. split; [reflexivity|]. destruct b.
      + exists TR', TL', LV', IT'. split; [auto|]. split; [apply (aug_cons TR1 TL1 TR' TL' j); auto|]. split; [auto|]. destruct (PT eq_refl) as (_ & _ & _ & (x & A1 & A2 & A3 & A4)). rewrite (cnt_aug n TR1 TR' x) by auto. split; [lia|]. left. destruct P1 as [P1|(_ & P1 & _)]; lia.
      + destruct (PF eq_refl) as (PF1 & PF2). exists TR', TL', LV', IT'. split; [auto|]. split; [apply (cons_ext TR1 TL1); auto|]. split; [auto|]. split; [rewrite (cnt_ext n TR1 TR') by (intros l Hl; rewrite PF1 by auto; tauto); lia|]. rewrite Z.add_0_r. destruct P1 as [P1|(P1 & P2 & P3)]; [auto|right].
        assert (EL : forall x, 0 <= x < n + m -> LV1 x = LV x) by (intros x Hx; subst s; apply (rep_uniq _ _ _ _ _ RC RV); auto). assert (ET : forall x, lf x -> TR1 x = TR x) by (intros x Hx; subst s; apply (rep_uniq _ _ _ _ _ RA RT); auto). assert (EI : forall x, 0 <= x < n + m -> IT1 x = 0) by (intros x Hx; subst s; destruct R0 as (_ & _ & _ & R04); apply (rep_uniq _ _ _ _ _ RD R04); auto).
        destruct (Z_lt_ge_dec (LV1 (n + j)) 0) as [L|L].
        * destruct (P0 L) as (_ & ->). split; [auto|]. split; [auto|]. intros j' Hj' T. destruct (Z.eq_dec j' j) as [->|Nj]; [rewrite <- EL by lia; auto|apply P3; auto; lia].
        * exfalso. enough (false = true) by discriminate. apply (PG LV); [| |lia].
          -- destruct BFs as (F1 & F2 & F3 & F4). split; [|split; [|split]].
             ++ intros r Hr Y. destruct (F1 r Hr Y) as (l & B1 & B2 & B3). exists l. rewrite ET by (apply (HR r); auto). auto.
             ++ intros l Hl. rewrite ET by auto. auto.
             ++ intros l Hl. rewrite ET by auto. auto.
             ++ auto.
          -- split; [intros l Hl; left; apply EL; lia|]. split; [intros r Hr; apply EL; lia|]. split; [intros l Hl _; apply EI; lia|]. intros r Hr _. apply EI; lia.
    - rewrite X. cbn [bind]. destruct R1 as (RA & RB & _). do 3 eexists. exists TR1, TL1. split; [reflexivity|]. split; [auto|]. split; [auto|]. split; [auto|]. split; [|auto]. destruct P1 as [P1|(_ & _ & P3)]; [auto|exfalso]. destruct (proj1 (v_ok _ _ _ _ _ _ BI) eq_refl) as (r & Hr & L & T). specialize (P3 r Hr T). lia.
  Qed.
  Lemma solve_loop tr tl TR TL : rep tr n TR -> rep tl m TL -> Cons n m H TR TL ->
    exists tr' tl' f TR' TL', loop (Z.to_nat n + 1) (fun st => let '(tr, tl, f) := st in let* (lv, ok) := bm_bfs n m g tr tl in if ok then let* st := bm_phase n m h tr tl lv f in Ok (inl st) else Ok (inr (tr, tl, f))) (tr, tl, 0) = Ok (tr', tl', f) /\
      rep tr' n TR' /\ rep tl' m TL' /\ Cons n m H TR' TL' /\ cnt n TR' - f = cnt n TR /\ 0 <= f /\ NoAug TR' TL'.
  Proof.
    intros RT RL CO. pose proof (cnt_le n TR Hn) as CL.
    match goal with |- context [loop ?fu ?bd ?s0] => destruct (loop_inv (fun st => let '(tr, tl, f) := st in exists TR1 TL1, rep tr n TR1 /\ rep tl m TL1 /\ Cons n m H TR1 TL1 /\ cnt n TR1 - f = cnt n TR /\ 0 <= f) (fun st => Z.to_nat (n - snd st)) (fun x => let '(tr, tl, f) := x in exists TR1 TL1, rep tr n TR1 /\ rep tl m TL1 /\ Cons n m H TR1 TL1 /\ cnt n TR1 - f = cnt n TR /\ 0 <= f /\ NoAug TR1 TL1) bd fu s0) as (((tr' & tl') & f) & X & TR' & TL' & P) end.
    - exists TR, TL. split; [auto|]. split; [auto|]. split; [auto|]. lia.
    - cbn [snd]. lia.
    - intros ((tr1 & tl1) & f1) (TR1 & TL1 & R1 & R2 & C1 & K1 & F1). destruct (bfs_ok tr1 tl1 TR1 TL1 R1 R2 C1) as (lv & ok & LV & D & X & RV & BI). rewrite X. cbn [bind]. destruct ok.
      + destruct (phase_ok tr1 tl1 lv f1 TR1 TL1 LV D R1 R2 RV C1 BI) as (tr2 & tl2 & f2 & TR2 & TL2 & Y & A1 & A2 & A3 & A4 & A5). rewrite Y. cbn [bind]. eexists. split; [reflexivity|]. cbn [snd]. split; [exists TR2, TL2; split; [auto|]; split; [auto|]; split; [auto|]; lia|]. pose proof (cnt_le n TR2 Hn). lia.
      + eexists. split; [reflexivity|]. exists TR1, TL1. split; [auto|]. split; [auto|]. split; [auto|]. split; [auto|]. split; [auto|]. destruct BI as [I1 I2 I3 I4 I5 I6 I7 I8 I9 I10]. exists (fun l => 0 <=? LV l), (fun r => 0 <=? LV (n + r)). split; [intros l Hl T; apply Z.leb_le; auto|]. split.
        * intros l r Hl A Ig. apply Z.leb_le in A. apply Z.leb_le. destruct (Z.eq_dec (TR1 l) r) as [E|E]; [|apply (I5 l r); auto; split; [apply I2; auto|auto]]. pose proof (GR l r Hl Ig). rewrite <- E. apply I7; auto. lia.
        * intros r Hr B. apply Z.leb_le in B. assert (T : TL1 r <> -1). { intro T. enough (false = true) by discriminate. apply I9. exists r. auto. } split; [auto|]. apply Z.leb_le. apply I8; auto.
    - exists tr', tl', f, TR', TL'. auto.
  Qed.
End S.
