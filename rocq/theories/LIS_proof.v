(* longest increasing subsequence *)
From Verif Require Import Base BaseLemmas ListZ ListMore BFS_proof LIS_spec LIS_model.
From Coq Require Import Sorted.

Lemma ss_snoc {A} (R : A -> A -> Prop) l x : StronglySorted R (l ++ [x]) <-> StronglySorted R l /\ forall y, In y l -> R y x.
Proof.
  induction l as [|a l IH]; cbn [app].
  - split; [intros _; split; [constructor|intros y []]|intros _; constructor; constructor].
  - split.
    + intros H. inversion H as [|? ? H1 H2]; subst. apply IH in H1 as (H1 & H3). rewrite Forall_app in H2. destruct H2 as (H2 & H4). split; [now constructor|]. intros y [<-|Hy]; auto. now inversion H4.
    + intros (H & H3). inversion H as [|? ? H1 H2]; subst. constructor; [apply IH; split; auto; intros; apply H3; now right|]. apply Forall_app. split; auto. constructor; auto. apply H3. now left.
Qed.

Section Lis.
  Variables (lt le : Z -> Z -> bool).
  Hypothesis le_refl : forall x, le x x = true.
  Hypothesis le_trans : forall x y z, le x y = true -> le y z = true -> le x z = true.
  Hypothesis lt_trans : forall x y z, lt x y = true -> lt y z = true -> lt x z = true.
  Hypothesis le_lt : forall x y z, le x y = true -> lt y z = true -> lt x z = true.
  Hypothesis lt_le : forall x y, lt x y = true -> le x y = true.
  Hypothesis nlt_le : forall x y, lt y x = false -> le x y = true.
  Variable a : list Z.
  Notation n := (zlen a).
  Definition R (i j : Z) : Prop := i < j /\ lt (dv a i) (dv a j) = true.
  Definition pk (m : Z) (c : list Z) : Prop := (forall i, In i c -> 0 <= i < m) /\ StronglySorted R c.
  Lemma ss_ext {A} (P Q : A -> A -> Prop) l : (forall x y, In x l -> In y l -> P x y -> Q x y) -> StronglySorted P l -> StronglySorted Q l.
  Proof.
    intros H S. induction S as [|x l S IH F]; constructor.
    - apply IH. intros y z Hy Hz. apply H; now right.
    - rewrite Forall_forall in *. intros y Hy. apply H; [now left|now right|auto].
  Qed.
  Lemma pk_picks c : pk n c <-> picks lt a c.
  Proof.
    unfold pk, picks. split; intros (H & S); split; auto; (eapply ss_ext; [|exact S]); cbv beta; intros x y Hx Hy.
    - intros (L & E). split; auto. exists (dv a x), (dv a y). rewrite !vget_dv by auto. auto.
    - intros (L & u & v & Eu & Ev & E). split; auto. rewrite vget_dv in Eu, Ev by auto. congruence.
  Qed.
  Fixpoint trace (pd : list Z) (j : Z) (c : list Z) : Prop :=
    match c with [] => j = -1 | x :: c => j = x /\ 0 <= x < zlen pd /\ trace pd (dv pd x) c end.
  Lemma trace_upd pd i x c : 0 <= i < zlen pd -> (forall y, In y c -> y <> i) -> forall j, trace pd j c -> trace (zupd pd i x) j c.
  Proof.
    intros Hi. induction c as [|y c IH]; intros Hc j; cbn [trace]; auto. intros (-> & Hy & T). rewrite zlen_zupd. split; auto. split; auto. rewrite dv_zupd by auto. rewrite (proj2 (Z.eqb_neq i y)) by (intros ->; apply (Hc y); [now left|auto]).
    apply IH; auto. intros z Hz. apply Hc. now right.
  Qed.
  Lemma lb_ok dp x : StronglySorted (fun u v => lt u v = true) dp ->
    exists pos, lower_bound lt dp x = Ok pos /\ 0 <= pos <= zlen dp /\ (forall k, 0 <= k < pos -> lt (dv dp k) x = true) /\ (forall k, pos <= k < zlen dp -> lt (dv dp k) x = false).
  Proof.
    induction dp as [|y dp IH]; intros S; cbn [lower_bound].
    - exists 0. split; auto. change (zlen (@nil Z)) with 0. repeat split; intros; lia.
    - inversion S as [|? ? S' F]; subst. rewrite Forall_forall in F. rewrite zlen_cons. pose proof (zlen_nonneg dp). assert (Dc : forall k, 0 < k -> dv (y :: dp) k = dv dp (k - 1)).
      { intros k Hk. unfold dv. replace (Z.to_nat k) with (Datatypes.S (Z.to_nat (k - 1))) by lia. reflexivity. }
      destruct (lt y x) eqn:E.
      + destruct (IH S') as (pos & Ep & Hp & H1 & H2). rewrite Ep. cbn [bind]. exists (1 + pos). split; auto. split; [lia|]. split; intros k Hk.
        * destruct (Z.eq_dec k 0) as [->|]; [exact E|]. rewrite Dc by lia. apply H1. lia.
        * rewrite Dc by lia. apply H2. lia.
      + assert (N : forall z, In z dp -> lt z x = false). { intros z Hz. destruct (lt z x) eqn:Ez; auto. rewrite (lt_trans y z x) in E; auto; discriminate. }
        assert (Fb : forallb (fun y => negb (lt y x)) dp = true) by (apply forallb_forall; intros z Hz; rewrite N; auto). rewrite Fb. exists 0. split; auto. split; [lia|]. split; intros k Hk; [lia|].
        destruct (Z.eq_dec k 0) as [->|]; [exact E|]. rewrite Dc by lia. apply N. eapply vget_In, vget_dv. lia.
  Qed.
  Definition last_le (dp c : list Z) : Prop := forall c' j, c = c' ++ [j] -> zlen c' < zlen dp /\ le (dv dp (zlen c')) (dv a j) = true.
  Definition inv (i : Z) (s : list Z * list Z * list Z) : Prop :=
    let '(dp, pd, id) := s in
    zlen pd = n /\ zlen id = n /\ zlen dp <= i /\ (0 < i -> 0 < zlen dp) /\
    (forall j, i <= j < n -> dv pd j = -1) /\
    (forall k, 0 <= k < zlen dp -> 0 <= dv id k < i /\ dv a (dv id k) = dv dp k /\ exists c, trace pd (dv id k) c /\ zlen c = k + 1 /\ pk i (rev c)) /\
    StronglySorted (fun u v => lt u v = true) dp /\
    forall c, pk i c -> last_le dp c.
  Lemma ss_nth dp : StronglySorted (fun u v => lt u v = true) dp <-> forall j k, 0 <= j < k -> k < zlen dp -> lt (dv dp j) (dv dp k) = true.
  Proof.
    induction dp as [|y dp IH].
    - split; [intros _ j k H1 H2; change (zlen (@nil Z)) with 0 in H2; lia|constructor].
    - assert (Dc : forall k, 0 < k -> dv (y :: dp) k = dv dp (k - 1)). { intros k Hk. unfold dv. replace (Z.to_nat k) with (Datatypes.S (Z.to_nat (k - 1))) by lia. reflexivity. }
      rewrite zlen_cons. split.
      + intros S. inversion S as [|? ? S' F]; subst. rewrite Forall_forall in F. intros j k H1 H2. rewrite (Dc k) by lia. destruct (Z.eq_dec j 0) as [->|].
        * change (dv (y :: dp) 0) with y. apply F. eapply vget_In, vget_dv. lia.
        * rewrite Dc by lia. apply IH; auto; lia.
      + intros H. constructor.
        * apply IH. intros j k H1 H2. specialize (H (j + 1) (k + 1)). rewrite !Dc in H by lia. replace (j + 1 - 1) with j in H by lia. replace (k + 1 - 1) with k in H by lia. apply H; lia.
        * apply Forall_forall. intros z Hz. apply In_vget in Hz as (k & Hk & Ek). rewrite vget_dv in Ek by auto. specialize (H 0 (k + 1)). rewrite (Dc (k + 1)) in H by lia. replace (k + 1 - 1) with k in H by lia. change (dv (y :: dp) 0) with y in H. rewrite <- (f_equal (fun r => match r with Ok v => v | _ => 0 end) Ek). apply H; lia.
  Qed.
  Lemma step_ok i s : 0 <= i < n -> inv i s -> exists s', lis_step lt a i s = Ok s' /\ inv (i + 1) s'.
  Proof.
    destruct s as [[dp pd] id]. intros Hi (Zp & Zi & Ld & L0 & Pn & Tr & So & Mx). unfold lis_step. rewrite vget_dv by auto. cbn [bind]. set (x := dv a i).
    destruct (lb_ok dp x So) as (pos & Ep & Hp & H1 & H2). rewrite Ep. cbn [bind]. rewrite vset_ok by lia. cbn [bind].
    pose proof (proj1 (ss_nth dp) So) as So'.
    (* the new dp *)
    assert (Dp : exists dp', (if pos =? zlen dp then Ok (dp ++ [x]) else vset dp pos x) = Ok dp' /\ zlen dp' = Z.max (zlen dp) (pos + 1) /\ forall k, 0 <= k < zlen dp' -> dv dp' k = if k =? pos then x else dv dp k).
    { destruct (Z.eqb_spec pos (zlen dp)) as [E|N].
      - eexists. split; [reflexivity|]. rewrite zlen_app, zlen_one. split; [lia|]. intros k Hk. assert (E2 : vget (dp ++ [x]) k = Ok (dv (dp ++ [x]) k)) by (apply vget_dv; rewrite zlen_app, zlen_one; lia).
        destruct (Z.eqb_spec k pos) as [->|]; [rewrite vget_mid in E2 by auto; congruence|]. rewrite vget_app1 in E2 by lia. rewrite vget_dv in E2 by lia. congruence.
      - rewrite vset_ok by lia. eexists. split; [reflexivity|]. rewrite zlen_zupd. split; [lia|]. intros k Hk. rewrite dv_zupd by lia. rewrite (Z.eqb_sym k). auto. }
    destruct Dp as (dp' & Ed & Zd & Dd).
    (* the new pd *)
    assert (Pd : exists pd' c, (if 1 <=? pos then let* j := vget (zupd id pos i) (pos - 1) in vset pd i j else Ok pd) = Ok pd' /\ zlen pd' = n /\ (forall j, i + 1 <= j < n -> dv pd' j = -1) /\
       (forall j c, (forall y, In y c -> y <> i) -> trace pd j c -> trace pd' j c) /\ trace pd' i (i :: c) /\ zlen c = pos /\ pk (i + 1) (rev c ++ [i])).
    { destruct (Z.leb_spec 1 pos) as [L|L].
      - rewrite vget_dv by (rewrite zlen_zupd; lia). cbn [bind]. rewrite dv_zupd by lia. rewrite (proj2 (Z.eqb_neq _ _)) by lia. rewrite vset_ok by lia. destruct (Tr (pos - 1) ltac:(lia)) as (Ti & Tv & c & Tc & Zc & Pc).
        assert (Ne : forall y, In y c -> y <> i). { intros y Hy ->. destruct Pc as (Pc & _). apply in_rev in Hy. specialize (Pc i Hy). lia. }
        exists (zupd pd i (dv id (pos - 1))), c. split; auto. rewrite zlen_zupd. split; auto. split; [intros j Hj; rewrite dv_zupd by lia; rewrite (proj2 (Z.eqb_neq _ _)) by lia; apply Pn; lia|].
        split; [intros j c' Hc'; apply trace_upd; auto; lia|]. split; [|split; [lia|]].
        + cbn [trace]. rewrite zlen_zupd. split; auto. split; [lia|]. rewrite dv_zupd, Z.eqb_refl by lia. apply trace_upd; auto. lia.
        + destruct Pc as (Pc & Sc). split; [intros y Hy; apply in_app_iff in Hy as [Hy|[<-|[]]]; [specialize (Pc y Hy)|]; lia|]. apply ss_snoc. split; auto. intros y Hy. split; [specialize (Pc y Hy); lia|]. fold x.
          destruct c as [|z c]; [destruct Hy|]. cbn [trace] in Tc. destruct Tc as (Ez & _). specialize (H1 (pos - 1) ltac:(lia)). rewrite <- Tv, Ez in H1. cbn [rev] in Hy, Sc. apply in_app_iff in Hy as [Hy|[<-|[]]]; auto.
          apply ss_snoc in Sc as (_ & Sc). destruct (Sc y Hy) as (_ & Lz). eapply lt_trans; eauto.
      - exists pd, []. split; auto. split; auto. split; [intros; apply Pn; lia|]. split; auto. split; [cbn [trace]; split; auto; split; [lia|]; apply Pn; lia|]. split; [change (zlen (@nil Z)) with 0; lia|].
        cbn [rev app]. split; [intros y [<-|[]]; lia|]. repeat constructor. }
    destruct Pd as (pd' & cn & Epd & Zpd & Pn' & Tup & Tn & Zcn & Pcn). rewrite Epd. cbn [bind]. rewrite Ed. cbn [bind]. eexists. split; [reflexivity|].
    split; auto. split; [now rewrite zlen_zupd|]. split; [lia|]. split; [lia|]. split; auto. split; [|split].
    - intros k Hk. rewrite dv_zupd, Dd by lia. rewrite (Z.eqb_sym k pos). destruct (Z.eqb_spec pos k) as [->|N].
      + split; [lia|]. split; [reflexivity|]. exists (i :: cn). split; auto. split; [rewrite zlen_cons; lia|]. cbn [rev]. auto.
      + destruct (Tr k ltac:(lia)) as (A1 & A2 & c & A3 & A4 & (A5 & A6)). split; [lia|]. split; auto. exists c. split; [|split; auto].
        * apply Tup; auto. intros y Hy ->. apply in_rev in Hy. specialize (A5 i Hy). lia.
        * split; auto. intros y Hy. specialize (A5 y Hy). lia.
    - apply ss_nth. intros j k Hjk Hk. rewrite !Dd by lia. destruct (Z.eqb_spec j pos) as [->|Nj], (Z.eqb_spec k pos) as [->|Nk]. lia.
      + apply (le_lt x (dv dp pos)); [apply nlt_le, H2; lia|]. apply So'; lia.
      + apply H1. lia.
      + apply So'; lia.
    - intros c (Pc & Sc) c' j ->. apply ss_snoc in Sc as (Sc' & Sj). assert (Hj : 0 <= j < i + 1) by (apply Pc, in_app_iff; right; now left).
      assert (Pc' : forall y, In y c' -> 0 <= y < i) by (intros y Hy; destruct (Sj y Hy) as (A & _); specialize (Pc y ltac:(apply in_app_iff; auto)); lia). pose proof (zlen_nonneg c') as N0.
      destruct (Z.eq_dec j i) as [->|Nj].
      + (* ends at i *)
        assert (Lc : zlen c' <= pos).
        { destruct c' as [|z c'' _] using rev_ind; [change (zlen (@nil Z)) with 0; lia|]. destruct (Mx (c'' ++ [z])) with (c' := c'') (j := z) as (A & B); [split; auto|reflexivity|].
          destruct (Sj z) as (_ & Lz); [apply in_app_iff; right; now left|]. fold x in Lz. pose proof (le_lt _ _ _ B Lz) as Lx. rewrite zlen_app, zlen_one. pose proof (zlen_nonneg c''). destruct (Z_lt_le_dec (zlen c'') pos); [lia|]. rewrite H2 in Lx by lia. discriminate. }
        split; [lia|]. rewrite Dd by lia. fold x. destruct (Z.eqb_spec (zlen c') pos); [apply le_refl|]. apply lt_le, H1. lia.
      + destruct (Mx (c' ++ [j])) with (c' := c') (j := j) as (A & B); [split|reflexivity|].
        * intros y Hy. apply in_app_iff in Hy as [Hy|[<-|[]]]; auto; lia.
        * apply ss_snoc. auto.
        * split; [lia|]. rewrite Dd by lia. destruct (Z.eqb_spec (zlen c') pos) as [E|]; auto. rewrite E in *. apply (le_trans x (dv dp pos)); auto. apply nlt_le, H2. lia.
  Qed.
  Lemma upd_mid' {A} (u : list A) x v y i : i = zlen u -> zupd (u ++ x :: v) i y = u ++ y :: v.
  Proof. intros ->. unfold zupd. replace (Z.to_nat (zlen u)) with (length u) by (unfold zlen; lia). induction u; cbn [app length upd]; congruence. Qed.
  Lemma back_ok pd c : forall ini fin cur fuel, trace pd cur c -> length ini = length c -> (length c < fuel)%nat -> loop fuel (back_loop pd) (cur, zlen c, ini ++ fin) = Ok (rev c ++ fin).
  Proof.
    induction c as [|x c IH]; intros ini fin cur fuel T L F; (destruct fuel as [|fuel]; [lia|]); cbn [loop]; unfold back_loop at 1; cbn [trace] in T.
    - subst cur. destruct ini; [|discriminate]. reflexivity.
    - destruct T as (-> & Hx & T). rewrite (proj2 (Z.leb_le 0 x)) by lia. destruct ini as [|z ini _] using rev_ind; [discriminate|]. rewrite app_length in L. cbn [length] in L. rewrite zlen_cons. replace (zlen c + 1 - 1) with (zlen c) by lia.
      assert (Zi : zlen ini = zlen c) by (unfold zlen; lia). rewrite vset_ok by (rewrite !zlen_app, zlen_one; pose proof (zlen_nonneg c); pose proof (zlen_nonneg fin); lia). cbn [bind]. rewrite vget_dv by auto. cbn [bind].
      rewrite <- app_assoc. cbn [app]. rewrite upd_mid' by auto. cbn [length] in F. rewrite IH; auto; try lia. cbn [rev]. rewrite <- app_assoc. reflexivity.
  Qed.
  Lemma solve_ok : exists idx, lis_solve lt a = Ok idx /\ longest lt a idx.
  Proof.
    unfold lis_solve, longest. destruct (Z.eqb_spec n 0) as [E|N].
    - exists []. split; auto. split; [split; [intros i []|constructor]|]. intros idx' (H & _). destruct idx' as [|i l]; [lia|]. specialize (H i (or_introl eq_refl)). lia.
    - pose proof (zlen_nonneg a) as N0. destruct (for_inv inv 0 n (lis_step lt a) ([], vrep n (-1), vrep n (-1))) as (((dp & pd) & id) & Es & I).
      + auto.
      + split; [now apply zlen_vrep|]. split; [now apply zlen_vrep|]. change (zlen (@nil Z)) with 0. split; [lia|]. split; [lia|]. split; [intros; apply dv_vrep; lia|]. split; [intros; lia|]. split; [constructor|].
        intros c (Pc & _) c' j ->. specialize (Pc j ltac:(apply in_app_iff; right; now left)). lia.
      + intros i s Hi. apply step_ok. auto.
      + rewrite Es. cbn [bind]. cbv zeta. destruct I as (Zp & Zi & Ld & L0 & _ & Tr & _ & Mx). specialize (L0 ltac:(lia)). rewrite vget_dv by lia. cbn [bind]. destruct (Tr (zlen dp - 1) ltac:(lia)) as (_ & _ & c & Tc & Zc & Pc).
        assert (Zc' : zlen c = zlen dp) by lia. exists (rev c). split; [|split].
        * assert (Zv : zlen (vrep (zlen dp) 0) = zlen dp) by (apply zlen_vrep; lia). pose proof (back_ok pd c (vrep (zlen dp) 0) [] (dv id (zlen dp - 1)) (length dp + 1) Tc) as B. rewrite !app_nil_r, Zc' in B. apply B; unfold zlen in *; lia.
        * now apply pk_picks.
        * intros idx' P. apply pk_picks in P. rewrite zlen_rev. destruct idx' as [|j c' _] using rev_ind; [change (zlen (@nil Z)) with 0; lia|]. destruct (Mx _ P c' j eq_refl) as (A & _). rewrite zlen_app, zlen_one. lia.
  Qed.
End Lis.
Lemma lis_less a : exists idx, longest_increasing_subsequence a = Ok idx /\ longest Z.ltb a idx.
Proof. apply (solve_ok Z.ltb Z.leb); intros; lia. Qed.
Lemma lis_leq a : exists idx, longest_nondecreasing_subsequence a = Ok idx /\ longest Z.leb a idx.
Proof. apply (solve_ok Z.leb Z.leb); intros; lia. Qed.
Lemma lis_geq a : exists idx, longest_nonincreasing_subsequence a = Ok idx /\ longest Z.geb a idx.
Proof. apply (solve_ok Z.geb Z.geb); intros; lia. Qed.
Lemma lis_gt a : exists idx, longest_decreasing_subsequence a = Ok idx /\ longest Z.gtb a idx.
Proof. apply (solve_ok Z.gtb Z.geb); intros; lia. Qed.
