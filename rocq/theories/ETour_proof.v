(* EulerTour: least elements in the implicit segment tree *)
From Verif Require Import Base BaseLemmas SegTree_model ETour_model.

Section Least.
  Variables (m h : Z) (tl df : Z -> Z) (ok : Z -> Prop) (dep : list Z) (e : Z).
  Hypothesis Hh : 0 <= h.
  Hypothesis Hm : m = 2 ^ h.
  Hypothesis Hd : forall x, ok x -> vget dep x = Ok (df x).
  Hypothesis Hl : forall i, 0 <= i < m -> ok (tl i).
  Hypothesis He : ok e /\ forall x, ok x -> df x <= df e.
  Definition least (P : Z -> Prop) (x : Z) : Prop := ok x /\ (forall i, 0 <= i < m -> P i -> df x <= df (tl i)) /\ (x = e \/ exists i, 0 <= i < m /\ P i /\ tl i = x).
  Lemma least_ext (P Q : Z -> Prop) x : (forall i, 0 <= i < m -> (P i <-> Q i)) -> least P x -> least Q x.
  Proof. intros H (A & B & C). split; auto. split; [intros i Hi Qi; apply B; auto; now apply H|]. destruct C as [->|(i & Hi & Pi & E)]; [now left|]. right. exists i. split; auto. split; auto. now apply H. Qed.
  Lemma argmin_least P Q x y : least P x -> least Q y -> exists z, argmin dep x y = Ok z /\ least (fun i => P i \/ Q i) z.
  Proof.
    intros (A & B & C) (A' & B' & C'). unfold argmin. rewrite !Hd by auto. cbn [bind]. destruct (Z.ltb_spec (df x) (df y)) as [L|L]; eexists; (split; [reflexivity|]); (split; [auto|]).
    - split; [intros i Hi [Pi|Qi]; [auto|]; specialize (B' i Hi Qi); lia|]. destruct C as [->|(i & Hi & Pi & E)]; [now left|]. right. exists i. auto.
    - split; [intros i Hi [Pi|Qi]; [|auto]; specialize (B i Hi Pi); lia|]. destruct C' as [->|(i & Hi & Pi & E)]; [now left|]. right. exists i. auto.
  Qed.
  Definition cov (j k i : Z) : Prop := k * 2 ^ j <= m + i < (k + 1) * 2 ^ j.
  Definition node (seg : list Z) (k : Z) : Prop := exists x, vget seg k = Ok x /\ ok x /\ forall j, 0 <= j -> m <= k * 2 ^ j < 2 * m -> least (cov j k) x.
  Lemma build_ok seg0 : zlen seg0 = 2 * m -> (forall i, 0 <= i < m -> vget seg0 (m + i) = Ok (tl i)) ->
    exists seg, ford_ (m - 1) 0 (fun k seg => let* x := vget seg (2 * k) in let* y := vget seg (2 * k + 1) in let* z := argmin dep x y in vset seg k z) seg0 = Ok seg /\
      zlen seg = 2 * m /\ (forall i, 0 <= i < m -> vget seg (m + i) = Ok (tl i)) /\ forall k, 1 <= k < 2 * m -> node seg k.
  Proof.
    intros L0 E0. assert (Pm : 0 < m) by (rewrite Hm; apply Z.pow_pos_nonneg; lia).
    destruct (ford_inv (fun k seg => zlen seg = 2 * m /\ (forall i, 0 <= i < m -> vget seg (m + i) = Ok (tl i)) /\ forall k', k < k' < 2 * m -> node seg k') (m - 1) 0 (fun k seg => let* x := vget seg (2 * k) in let* y := vget seg (2 * k + 1) in let* z := argmin dep x y in vset seg k z) seg0) as (seg & E & A & B & C).
    - lia.
    - split; auto. split; auto. intros k' Hk. exists (tl (k' - m)). split; [replace k' with (m + (k' - m)) at 1 by lia; apply E0; lia|]. split; [apply Hl; lia|]. intros j Hj Hr.
      assert (j = 0). { destruct (Z.eq_dec j 0); auto. pose proof (Z.pow_le_mono_r 2 1 j ltac:(lia) ltac:(lia)). change (2 ^ 1) with 2 in H. nia. } subst j.
      split; [apply Hl; lia|]. unfold cov. rewrite Z.pow_0_r. split; [intros i Hi Hc; replace i with (k' - m) by lia; lia|]. right. exists (k' - m). split; [lia|]. split; [lia|auto].
    - intros k seg Hk (A & B & C). destruct (C (2 * k) ltac:(lia)) as (x & Ex & Ox & Lx). destruct (C (2 * k + 1) ltac:(lia)) as (y & Ey & Oy & Ly). rewrite Ex, Ey. cbn [bind].
      assert (Z0 : exists z, argmin dep x y = Ok z /\ ok z /\ (forall j, 0 <= j -> m <= k * 2 ^ j < 2 * m -> least (cov j k) z)).
      { unfold argmin. rewrite !Hd by auto. cbn [bind]. eexists. split; [reflexivity|]. split; [destruct (df x <? df y); auto|]. intros j Hj Hr.
        assert (J1 : 1 <= j). { destruct (Z.eq_dec j 0) as [->|]; [rewrite Z.pow_0_r in Hr; lia|lia]. }
        assert (Ej : 2 ^ j = 2 * 2 ^ (j - 1)) by (rewrite <- Z.pow_succ_r by lia; f_equal; lia). pose proof (Z.pow_pos_nonneg 2 (j - 1) ltac:(lia) ltac:(lia)) as Pj.
        assert (Jh : j <= h). { destruct (Z.le_gt_cases j h) as [|G]; auto. pose proof (Z.pow_le_mono_r 2 (h + 1) j ltac:(lia) ltac:(lia)) as X. rewrite Z.pow_add_r in X by lia. change (2 ^ 1) with 2 in X. rewrite <- Hm in X. nia. }
        assert (Up : (k + 1) * 2 ^ j <= 2 * m). { assert (E2 : 2 * m = 2 ^ (h + 1 - j) * 2 ^ j) by (rewrite <- Z.pow_add_r, Hm, <- Z.pow_succ_r by lia; f_equal; lia). rewrite E2 in Hr |- *. assert (k < 2 ^ (h + 1 - j)) by (apply (Zmult_gt_0_lt_reg_r k (2 ^ (h + 1 - j)) (2 ^ j)); lia). apply Z.mul_le_mono_nonneg_r; lia. }
        rewrite Ej in Hr, Up.
        assert (X1 : m <= 2 * k * 2 ^ (j - 1) < 2 * m) by lia. assert (X2 : m <= (2 * k + 1) * 2 ^ (j - 1) < 2 * m) by lia.
        destruct (argmin_least _ _ x y (Lx (j - 1) ltac:(lia) X1) (Ly (j - 1) ltac:(lia) X2)) as (z & Ez & Lz). unfold argmin in Ez. rewrite !Hd in Ez by auto. cbn [bind] in Ez. injection Ez as <-.
        eapply least_ext; [|exact Lz]. intros i Hi. unfold cov. rewrite Ej. lia. }
      destruct Z0 as (z & Ez & Oz & Lz). rewrite Ez. cbn [bind]. rewrite vset_ok by lia. eexists. split; [reflexivity|]. rewrite zlen_zupd. split; auto. split.
      + intros i Hi. rewrite vget_zupd_diff by lia. auto.
      + intros k' Hk'. destruct (Z.eq_dec k' k) as [->|N]; [exists z; rewrite vget_zupd_same by lia; auto|]. destruct (C k' ltac:(lia)) as (w & Ew & Ow & Lw). exists w. rewrite vget_zupd_diff by lia. auto.
    - exists seg. split; auto. split; auto. split; auto. intros k Hk. apply C. lia.
  Qed.
  Variable a : etour.
  Hypothesis Ea : et_m a = m /\ et_n a = e /\ et_dep a = dep.
  Hypothesis Nodes : forall k, 1 <= k < 2 * m -> node (et_seg a) k.
  Lemma query_ok A B : 0 <= A < B -> B <= m -> exists x, et_loop a (m + A) (m + B) = Ok x /\ least (fun i => A <= i < B) x.
  Proof.
    intros HA HB. destruct Ea as (Em & En & Ed). unfold et_loop. rewrite Em, En.
    destruct (loop_inv (fun s : Z * Z * Z => let '(l, r, x) := s in exists j, 0 <= j /\ m + A <= l * 2 ^ j <= r * 2 ^ j /\ r * 2 ^ j <= m + B /\ least (fun i => A <= i < B /\ ~ (l * 2 ^ j <= m + i < r * 2 ^ j)) x)
      (fun s => let '(l, r, x) := s in Z.to_nat (r - l)) (least (fun i => A <= i < B)) (fun s : Z * Z * Z => let '(l, r, x) := s in
    if l <? r then
      let* s := (if l mod 2 =? 1 then let* y := vget (et_seg a) l in let* x := argmin (et_dep a) x y in Ok (l + 1, x) else Ok (l, x)) in
      let '(l, x) := s in
      let* s := (if r mod 2 =? 1 then let* y := vget (et_seg a) (r - 1) in let* x := argmin (et_dep a) x y in Ok (r - 1, x) else Ok (r, x)) in
      let '(r, x) := s in
      Ok (inl (l / 2, r / 2, x))
    else Ok (inr x)) (S (Z.to_nat m)) (m + A, m + B, e)) as (x & E & L); auto.
    - exists 0. rewrite Z.pow_0_r. split; [lia|]. split; [lia|]. split; [lia|]. split; [apply He|]. split; [lia|now left].
    - cbn. lia.
    - intros ((l & r) & x) (j & Hj & H1 & H2 & Lx). pose proof (Z.pow_pos_nonneg 2 j ltac:(lia) Hj) as Pj. assert (Lr : l <= r) by (apply (Zmult_le_reg_r l r (2 ^ j)); lia).
      destruct (Z.ltb_spec l r) as [Lt|Ge].
      2:{ eexists. split; [reflexivity|]. eapply least_ext; [|exact Lx]. intros i Hi. assert (l = r) by lia. subst. lia. }
      (* the left end *)
      assert (S1 : exists l' x', (if l mod 2 =? 1 then let* y := vget (et_seg a) l in let* x := argmin (et_dep a) x y in Ok (l + 1, x) else Ok (l, x)) = Ok (l', x') /\ l' mod 2 = 0 /\ l <= l' <= r /\ l' <= l + 1 /\
         least (fun i => A <= i < B /\ ~ (l' * 2 ^ j <= m + i < r * 2 ^ j)) x').
      { destruct (Z.eqb_spec (l mod 2) 1) as [O|O].
        - assert (Rl : m <= l * 2 ^ j < 2 * m) by (split; [lia|]; nia). assert (1 <= l < 2 * m) by (split; nia). destruct (Nodes l ltac:(lia)) as (y & Ey & Oy & Ly). rewrite Ey. cbn [bind]. rewrite Ed.
          destruct (argmin_least _ _ x y Lx (Ly j Hj Rl)) as (z & Ez & Lz). rewrite Ez. cbn [bind]. exists (l + 1), z. split; auto. split; [rewrite Z.add_mod, O by lia; reflexivity|]. split; [lia|]. split; [lia|].
          eapply least_ext; [|exact Lz]. intros i Hi. unfold cov. assert ((l + 1) * 2 ^ j <= r * 2 ^ j) by (apply Z.mul_le_mono_nonneg_r; lia). clear - H H0 H1 H2 Hi Pj. lia.
        - exists l, x. split; auto. split; [pose proof (Z.mod_pos_bound l 2 ltac:(lia)); lia|]. split; [lia|]. split; [lia|auto]. }
      destruct S1 as (l' & x' & E1 & M1 & B1 & B1' & Lx'). rewrite E1. cbn [bind]. clear E1.
      assert (K1 : m + A <= l' * 2 ^ j) by (assert (l * 2 ^ j <= l' * 2 ^ j) by (apply Z.mul_le_mono_nonneg_r; lia); lia).
      assert (S2 : exists r' x2, (if r mod 2 =? 1 then let* y := vget (et_seg a) (r - 1) in let* x := argmin (et_dep a) x' y in Ok (r - 1, x) else Ok (r, x')) = Ok (r', x2) /\ r' mod 2 = 0 /\ l' <= r' <= r /\
         least (fun i => A <= i < B /\ ~ (l' * 2 ^ j <= m + i < r' * 2 ^ j)) x2).
      { destruct (Z.eqb_spec (r mod 2) 1) as [O|O].
        - assert (l' < r) by (destruct (Z.eq_dec l' r) as [->|]; lia). assert (X : l' * 2 ^ j <= (r - 1) * 2 ^ j) by (apply Z.mul_le_mono_nonneg_r; lia). assert (Rl : m <= (r - 1) * 2 ^ j < 2 * m) by lia. assert (1 <= r - 1 < 2 * m) by (split; nia).
          destruct (Nodes (r - 1) ltac:(lia)) as (y & Ey & Oy & Ly). rewrite Ey. cbn [bind]. rewrite Ed. destruct (argmin_least _ _ x' y Lx' (Ly j Hj Rl)) as (z & Ez & Lz). rewrite Ez. cbn [bind]. exists (r - 1), z. split; auto. split; [rewrite Zminus_mod, O; reflexivity|]. split; [lia|].
          eapply least_ext; [|exact Lz]. intros i Hi. unfold cov. clear - X K1 H2 Hi Pj. lia.
        - exists r, x'. split; auto. split; [pose proof (Z.mod_pos_bound r 2 ltac:(lia)); lia|]. split; [lia|auto]. }
      destruct S2 as (r' & x2 & E2 & M2 & B2 & Lx2). rewrite E2. cbn [bind]. clear E2. eexists. split; [reflexivity|].
      assert (Dl : l' = 2 * (l' / 2)) by (rewrite (Z.div_mod l' 2) at 1 by lia; lia). assert (Dr : r' = 2 * (r' / 2)) by (rewrite (Z.div_mod r' 2) at 1 by lia; lia). split; [|lia].
      exists (j + 1). assert (Ej : 2 ^ (j + 1) = 2 * 2 ^ j) by (rewrite Z.pow_add_r by lia; lia). assert (F1 : l' / 2 * 2 ^ (j + 1) = l' * 2 ^ j) by (rewrite Ej, Dl at 1; nia). assert (F2 : r' / 2 * 2 ^ (j + 1) = r' * 2 ^ j) by (rewrite Ej, Dr at 1; nia).
      rewrite F1, F2. split; [lia|]. assert (r' * 2 ^ j <= r * 2 ^ j) by (apply Z.mul_le_mono_nonneg_r; lia). assert (l' * 2 ^ j <= r' * 2 ^ j) by (apply Z.mul_le_mono_nonneg_r; lia). split; [lia|]. split; [lia|auto].
    - exists x. auto.
  Qed.
End Least.
