From Verif Require Import Base BaseLemmas ListZ ListMore Seq Hist SpSeg_model SpSeg_spec.

Inductive sh := SE | SI (q : Z) (x y : sh).
Fixpoint nodes (t : sh) : list Z := match t with SE => [] | SI q x y => q :: nodes x ++ nodes y end.

Lemma NoDup_app3 {X} (a b : list X) : NoDup (a ++ b) <-> NoDup a /\ NoDup b /\ (forall x, In x a -> In x b -> False).
Proof.
  induction a as [|x a IH]; cbn.
  - split; [intro H; repeat split; auto; constructor|tauto].
  - split.
    + intro H. inversion H as [|? ? H1 H2]; subst. apply IH in H2. destruct H2 as (A & B & C). repeat split; auto.
      * constructor; auto. intro Q. apply H1. apply in_or_app. auto.
      * intros y [<-|Hy] Q; [apply H1, in_or_app; auto|eauto].
    + intros (A & B & C). inversion A as [|? ? A1 A2]; subst. constructor.
      * intro Q. apply in_app_or in Q. destruct Q as [Q|Q]; [auto|apply (C x); auto].
      * apply IH. repeat split; auto. intros y Hy Q. apply (C y); auto.
Qed.

Section SP.
  Context {T : Type}.
  Variables (op : T -> T -> T) (e : T) (init : Z -> Z -> T).
  Hypothesis M : is_monoid op e.
  Definition base (i : Z) : T := init i (i + 1).
  Hypothesis Hinit : forall l r, 0 <= l <= r -> init l r = prod_ op e base l r.
  Notation pool := (list (snode T)).
  Notation prod := (prod_ op e).

  Fixpoint rp (m : pool) (t : sh) (p l r : Z) (a : Z -> T) : Prop :=
    match t with
    | SE => p = 0 /\ forall i, l <= i < r -> a i = base i
    | SI q x y => p = q /\ 0 < q /\ exists c0 c1, vget m q = Ok (SN c0 c1 (prod a l r)) /\
        (1 < r - l -> rp m x c0 l ((l + r) / 2) a /\ rp m y c1 ((l + r) / 2) r a) /\
        (r - l <= 1 -> x = SE /\ y = SE)
    end.

  Lemma mid_bound l r : 1 < r - l -> l < (l + r) / 2 < r.
  Proof. intro H. pose proof (Z.div_mod (l + r) 2 ltac:(lia)). pose proof (Z.mod_pos_bound (l + r) 2 ltac:(lia)). lia. Qed.

  Lemma rp_ext m t : forall p l r a b, rp m t p l r a -> (forall i, l <= i < r -> a i = b i) -> rp m t p l r b.
  Proof.
    induction t as [|q x IHx y IHy]; intros p l r a b H E; cbn in *.
    - destruct H as [H1 H2]. split; auto. intros i Hi. rewrite <- E; auto.
    - destruct H as (H1 & H2 & c0 & c1 & H3 & H4 & H5). split; auto. split; auto. exists c0, c1.
      rewrite <- (prod_ext op e a b) by auto. split; auto. split; auto. intro L. pose proof (mid_bound _ _ L). destruct (H4 L) as [Hx Hy]. split.
      + eapply IHx; eauto. intros; apply E; lia.
      + eapply IHy; eauto. intros; apply E; lia.
  Qed.
  Lemma rp_frame m m' t : forall p l r a, rp m t p l r a -> (forall q, In q (nodes t) -> vget m' q = vget m q) -> rp m' t p l r a.
  Proof.
    induction t as [|q x IHx y IHy]; intros p l r a H E; cbn in *; auto.
    destruct H as (H1 & H2 & c0 & c1 & H3 & H4 & H5). split; auto. split; auto. exists c0, c1. rewrite E by auto. split; auto. split; auto.
    intro L. destruct (H4 L) as [Hx Hy]. split; [eapply IHx|eapply IHy]; eauto; intros k Hk; apply E; right; apply in_or_app; auto.
  Qed.
  Lemma rp_nodes m t : forall p l r a, rp m t p l r a -> forall q, In q (nodes t) -> 0 < q < zlen m.
  Proof.
    induction t as [|q x IHx y IHy]; intros p l r a H k Hk; cbn in *; [tauto|].
    destruct H as (H1 & H2 & c0 & c1 & H3 & H4 & H5). destruct Hk as [<-|Hk].
    - pose proof (vget_range _ _ _ H3). lia.
    - destruct (Z.lt_ge_cases 1 (r - l)) as [L|L].
      + destruct (H4 L) as [Hx Hy]. apply in_app_or in Hk. destruct Hk; [eapply IHx|eapply IHy]; eauto.
      + destruct (H5 L) as [-> ->]. destruct Hk.
  Qed.
  Lemma rp_dat m t p l r a : rp m t p l r a -> 0 <= l <= r -> sp_dat init m p l r = Ok (prod a l r).
  Proof.
    intros H Hl. unfold sp_dat. destruct t as [|q x y]; cbn in H.
    - destruct H as [-> H]. cbn. rewrite Hinit by auto. f_equal. apply prod_ext. intros; symmetry; auto.
    - destruct H as (-> & H2 & c0 & c1 & H3 & _). replace (q =? 0) with false by lia. cbn [negb]. rewrite H3. reflexivity.
  Qed.

  Lemma get_ok m i : forall N t p l r a fuel, (Z.to_nat (r - l) <= N)%nat -> (N <= fuel)%nat -> 0 <= l <= i -> i < r -> rp m t p l r a ->
    (let* cur := loop fuel (fun '(cur, l, r) =>
      if negb (cur =? 0) && (1 <? r - l) then
        let mid := (l + r) / 2 in
        if i <? mid then let* c := sp_ch m cur false in Ok (inl (c, l, mid))
        else let* c := sp_ch m cur true in Ok (inl (c, mid, r))
      else Ok (inr cur)) (p, l, r) in
     sp_dat init m cur i (i + 1)) = Ok (a i).
  Proof.
    induction N as [|N IH]; intros t p l r a fuel HN HF Hl Hi H; [lia|].
    destruct fuel as [|fuel]; [lia|]. cbn [loop].
    destruct t as [|q x y].
    - cbn in H. destruct H as [-> H]. cbn [Z.eqb negb andb bind]. unfold sp_dat. cbn [Z.eqb negb]. rewrite H by lia. reflexivity.
    - pose proof H as H'. cbn in H. destruct H as (-> & H2 & c0 & c1 & H3 & H4 & _). replace (q =? 0) with false by lia. cbn [negb andb].
      destruct (1 <? r - l) eqn:L.
      + pose proof (mid_bound l r ltac:(lia)). destruct (H4 ltac:(lia)) as [Hx Hy]. unfold sp_ch. rewrite H3. cbn [bind sn0 sn1 sn_dat]. cbv zeta. destruct (i <? (l + r) / 2) eqn:B; cbn [bind].
        * apply (IH x c0 l _ a fuel); auto; lia.
        * apply (IH y c1 _ r a fuel); auto; lia.
      + cbn [bind]. assert (l = i) by lia. subst l. replace r with (i + 1) in H' by lia. rewrite (rp_dat _ _ _ _ _ _ H') by lia.
        now rewrite (prod_one op e M).
  Qed.

  Lemma query_ok m ql qr : 0 <= ql <= qr -> forall N t p l r a fuel, (Z.to_nat (r - l) <= N)%nat -> (N < fuel)%nat -> 0 <= l <= r -> (l < r \/ r <= ql) -> rp m t p l r a ->
    sp_query op e init fuel m p ql qr l r = Ok (prod a (Z.max ql l) (Z.min qr r)).
  Proof.
    intro Hq. induction N as [|N IH]; intros t p l r a fuel HN HF Hl Hlr H; destruct fuel as [|fuel]; try lia; cbn [sp_query].
    - replace ((r <=? ql) || (qr <=? l)) with true by lia. now rewrite prod_nil by lia.
    - destruct ((r <=? ql) || (qr <=? l)) eqn:D; [now rewrite prod_nil by lia|].
      destruct t as [|q x y].
      + cbn in H. destruct H as [-> H]. cbn [Z.eqb]. rewrite Hinit by lia. f_equal. apply prod_ext. intros; symmetry; apply H; lia.
      + cbn in H. destruct H as (-> & H2 & c0 & c1 & H3 & H4 & _). replace (q =? 0) with false by lia.
        destruct ((ql <=? l) && (r <=? qr)) eqn:C.
        * rewrite H3. cbn [bind sn_dat]. do 2 f_equal; lia.
        * assert (L : 1 < r - l) by lia. pose proof (mid_bound _ _ L). destruct (H4 L) as [Hx Hy]. unfold sp_ch. rewrite H3. cbn [bind sn0 sn1]. cbv zeta.
          rewrite (IH x c0 l _ a fuel) by (auto; lia). cbn [bind]. rewrite (IH y c1 _ r a fuel) by (auto; lia). cbn [bind]. f_equal.
          set (mm := (l + r) / 2) in *. destruct (Z.le_gt_cases qr mm) as [Q1|Q1].
          { rewrite (prod_nil op e a (Z.max ql mm)) by lia. rewrite (mon_r _ _ M). f_equal; lia. }
          destruct (Z.le_gt_cases mm ql) as [Q2|Q2].
          { rewrite (prod_nil op e a (Z.max ql l)) by lia. rewrite (mon_l _ _ M). f_equal; lia. }
          rewrite (prod_split op e M a (Z.max ql l) mm (Z.min qr r)) by lia. f_equal; f_equal; lia.
  Qed.

  (* what apply does to the pool: only nodes of the tree and fresh ones change *)
  Definition grows (m m' : pool) (t t' : sh) : Prop :=
    zlen m <= zlen m' /\ NoDup (nodes t') /\
    (forall q, In q (nodes t') -> In q (nodes t) \/ zlen m <= q < zlen m') /\
    (forall q, 0 <= q < zlen m -> ~ In q (nodes t) -> vget m' q = vget m q).

  Lemma rec_ok i f : forall N t p l r a m fuel, (Z.to_nat (r - l) <= N)%nat -> (N <= fuel)%nat -> 0 <= l <= i -> i < r ->
    rp m t p l r a -> t <> SE -> NoDup (nodes t) ->
    exists (m' : pool) t', sp_rec op init fuel m i f p l r = Ok m' /\ rp m' t' p l r (assign a i (f (a i))) /\ t' <> SE /\ grows m m' t t'.
  Proof.
    induction N as [|N IH]; intros t p l r a m fuel HN HF Hl Hi H HT ND; [lia|]. destruct fuel as [|fuel]; [lia|]. cbn [sp_rec].
    destruct t as [|q x y]; [congruence|]. pose proof H as H'. cbn in H. destruct H as (-> & H2 & c0 & c1 & H3 & H4 & H5).
    pose proof (vget_range _ _ _ H3) as Bq. destruct (r - l =? 1) eqn:L.
    - rewrite (rp_dat _ _ _ _ _ _ H') by lia. cbn [bind]. rewrite H3. cbn [bind sn0 sn1]. rewrite vset_ok by lia.
      eexists; exists (SI q x y). split; [reflexivity|]. destruct (H5 ltac:(lia)) as [-> ->]. split; [|split; [discriminate|]].
      + cbn. split; auto. split; auto. exists c0, c1. rewrite vget_zupd by lia. rewrite Z.eqb_refl. split; [|split; [lia|auto]].
        replace r with (l + 1) by lia. rewrite !(prod_one op e M). unfold assign. assert (l = i) by lia. subst l. now rewrite Z.eqb_refl.
      + unfold grows. rewrite zlen_zupd. cbn [nodes app] in *. split; [lia|]. split; auto. split; auto. intros k Hk NI. rewrite vget_zupd by lia.
        destruct (q =? k) eqn:Q; auto. exfalso. apply NI. left. lia.
    - assert (L1 : 1 < r - l) by lia. pose proof (mid_bound _ _ L1) as MB. set (mid := (l + r) / 2) in *. cbv zeta.
      destruct (H4 L1) as [Hx Hy]. cbn [nodes] in ND. inversion ND as [|? ? Nq ND2]; subst. apply NoDup_app3 in ND2. destruct ND2 as (NDx & NDy & Dxy).
      (* get_or_create, then the recursive call, then the new dat: generic in the side *)
      assert (G : forall (b : bool) (lo hi c : Z) (z : sh), (z = if b then y else x) -> (c = if b then c1 else c0) -> (lo = if b then mid else l) -> (hi = if b then r else mid) ->
        lo <= i < hi ->
        exists m1 c' z0, sp_goc init m q b lo hi = Ok (m1, c') /\ z0 <> SE /\ rp m1 z0 c' lo hi a /\ NoDup (nodes z0) /\ zlen m <= zlen m1 /\
          (forall k, In k (nodes z0) -> In k (nodes z) \/ zlen m <= k < zlen m1) /\
          (forall k, 0 <= k < zlen m -> k <> q -> vget m1 k = vget m k) /\
          vget m1 q = Ok (if b then SN c0 c' (prod a l r) else SN c' c1 (prod a l r))).
      { intros b lo hi c z -> -> -> -> Hi2.
        assert (Hz : rp m (if b then y else x) (if b then c1 else c0) (if b then mid else l) (if b then r else mid) a) by (destruct b; auto).
        unfold sp_goc, sp_ch. rewrite H3. cbn [bind sn0 sn1].
        destruct (if b then y else x) as [|q' x' y'] eqn:Ez.
        - cbn in Hz. destruct Hz as [Hc Hz]. rewrite Hc. cbn [Z.eqb negb sp_new_node]. rewrite vget_app1 by lia. rewrite H3. cbn [bind sn0 sn1 sn_dat].
          rewrite vset_ok by (rewrite zlen_app; pose proof (zlen_one (SN 0 0 (init (if b then mid else l) (if b then r else mid)))); lia). cbn [bind].
          eexists; exists (zlen m), (SI (zlen m) SE SE). split; [reflexivity|]. split; [discriminate|].
          assert (ZL : zlen (zupd (m ++ [SN 0 0 (init (if b then mid else l) (if b then r else mid))]) q
             (if b then SN c0 (zlen m) (prod a l r) else SN (zlen m) c1 (prod a l r))) = zlen m + 1)
             by (rewrite zlen_zupd, zlen_app, zlen_one; lia).
          rewrite ZL. split.
          + cbn. split; auto. split; [lia|]. exists 0, 0. rewrite vget_zupd by (rewrite zlen_app, zlen_one; lia). replace (q =? zlen m) with false by lia.
            rewrite vget_mid by auto. rewrite Hinit by (destruct b; lia). split; [do 2 f_equal; apply prod_ext; intros; symmetry; auto|]. split; auto.
            intro L2. pose proof (mid_bound _ _ L2). split; split; auto; intros; apply Hz; lia.
          + split; [cbn; constructor; [intros []|constructor]|]. split; [lia|]. split; [|split].
            * cbn. intros k [<-|[]]. right. lia.
            * intros k Hk Nk. rewrite vget_zupd by (rewrite zlen_app, zlen_one; lia). replace (q =? k) with false by lia. apply vget_app1. lia.
            * rewrite vget_zupd by (rewrite zlen_app, zlen_one; lia). rewrite Z.eqb_refl. destruct b; auto.
        - assert (Hc : 0 < (if b then c1 else c0)) by (cbn in Hz; lia). replace ((if b then c1 else c0) =? 0) with false by lia. cbn [negb].
          exists m, (if b then c1 else c0), (SI q' x' y'). split; auto. split; [discriminate|]. split; auto. split; [destruct b; rewrite <- Ez; auto|].
          split; [lia|]. split; [auto|]. split; [auto|]. rewrite H3. destruct b; auto. }
      set (a' := assign a i (f (a i))).
      assert (Pa : forall u w, ~ u <= i < w -> forall k, u <= k < w -> a k = a' k).
      { intros u w O k Hk. unfold a', assign. replace (k =? i) with false by lia. auto. }
      destruct (i <? mid) eqn:B.
      + destruct (G false l mid c0 x eq_refl eq_refl eq_refl eq_refl ltac:(lia)) as (m1 & c' & z0 & E1 & Nz & Rz & NDz & Z1 & Iz & Fz & Q1).
        rewrite E1. cbn [bind].
        assert (Nq0 : ~ In q (nodes z0)) by (intro Q; apply Iz in Q; destruct Q as [Q|Q]; [apply Nq, in_or_app; auto|lia]).
        destruct (IH z0 c' l mid a m1 fuel ltac:(lia) ltac:(lia) ltac:(lia) ltac:(lia) Rz Nz NDz) as (m2 & z' & E2 & Rz' & Nz' & (Z2 & ND' & Iz' & Fz')).
        rewrite E2. cbn [bind]. fold a' in Rz'.
        assert (Q2 : vget m2 q = Ok (SN c' c1 (prod a l r))) by (rewrite Fz' by (auto; lia); auto).
        assert (Ry : rp m2 y c1 mid r a').
        { apply rp_ext with a; [|apply Pa; lia]. eapply rp_frame; eauto. intros k Hk. pose proof (rp_nodes _ _ _ _ _ _ Hy k Hk).
          assert (k <> q) by (intros ->; apply Nq, in_or_app; auto).
          assert (~ In k (nodes z0)) by (intro Q; apply Iz in Q; destruct Q as [Q|Q]; [eauto|lia]). rewrite Fz' by (auto; lia). apply Fz; lia. }
        unfold sp_ch. rewrite Q2. cbn [bind sn0 sn1]. rewrite (rp_dat _ _ _ _ _ _ Rz') by lia. cbn [bind].
        rewrite (rp_dat _ _ _ _ _ _ Ry) by lia. cbn [bind]. rewrite vset_ok by lia.
        eexists; exists (SI q z' y). split; [reflexivity|]. split; [|split; [discriminate|]].
        * cbn. split; auto. split; auto. exists c', c1. rewrite vget_zupd by lia. rewrite Z.eqb_refl. rewrite (prod_split op e M a' l mid r) by lia. split; auto.
          split; [|lia]. intros _. fold mid. split; [eapply rp_frame; [exact Rz'|]|eapply rp_frame; [exact Ry|]]; intros k Hk; rewrite vget_zupd by lia;
            (destruct (q =? k) eqn:Qk; [exfalso; assert (k = q) by lia; subst k|reflexivity]).
          { apply Iz' in Hk. destruct Hk as [Hk|Hk]; [auto|lia]. }
          { apply Nq, in_or_app; auto. }
        * unfold grows. rewrite zlen_zupd. split; [lia|]. split; [|split].
          { cbn [nodes]. constructor.
            - intro Q. apply in_app_or in Q. destruct Q as [Q|Q]; [apply Iz' in Q; destruct Q as [Q|Q]; [auto|lia]|apply Nq, in_or_app; auto].
            - apply NoDup_app3. split; auto. split; auto. intros k K1 K2. pose proof (rp_nodes _ _ _ _ _ _ Hy k K2).
              apply Iz' in K1. destruct K1 as [K1|K1]; [apply Iz in K1; destruct K1; [eauto|lia]|lia]. }
          { cbn [nodes]. intros k [<-|K]; [left; left; auto|]. apply in_app_or in K. destruct K as [K|K]; [|left; right; apply in_or_app; auto].
            apply Iz' in K. destruct K as [K|K]; [apply Iz in K; destruct K; [left; right; apply in_or_app; auto|right; lia]|right; lia]. }
          { cbn [nodes]. intros k Hk NI. rewrite vget_zupd by lia. destruct (q =? k) eqn:Qk; [exfalso; apply NI; left; lia|].
            assert (~ In k (nodes z0)) by (intro Q; apply Iz in Q; destruct Q as [Q|Q]; [apply NI; right; apply in_or_app; auto|lia]). rewrite Fz' by (auto; lia). apply Fz; lia. }
      + destruct (G true mid r c1 y eq_refl eq_refl eq_refl eq_refl ltac:(lia)) as (m1 & c' & z0 & E1 & Nz & Rz & NDz & Z1 & Iz & Fz & Q1).
        rewrite E1. cbn [bind].
        assert (Nq0 : ~ In q (nodes z0)) by (intro Q; apply Iz in Q; destruct Q as [Q|Q]; [apply Nq, in_or_app; auto|lia]).
        destruct (IH z0 c' mid r a m1 fuel ltac:(lia) ltac:(lia) ltac:(lia) ltac:(lia) Rz Nz NDz) as (m2 & z' & E2 & Rz' & Nz' & (Z2 & ND' & Iz' & Fz')).
        rewrite E2. cbn [bind]. fold a' in Rz'.
        assert (Q2 : vget m2 q = Ok (SN c0 c' (prod a l r))) by (rewrite Fz' by (auto; lia); auto).
        assert (Rx : rp m2 x c0 l mid a').
        { apply rp_ext with a; [|apply Pa; lia]. eapply rp_frame; eauto. intros k Hk. pose proof (rp_nodes _ _ _ _ _ _ Hx k Hk).
          assert (k <> q) by (intros ->; apply Nq, in_or_app; auto).
          assert (~ In k (nodes z0)) by (intro Q; apply Iz in Q; destruct Q as [Q|Q]; [eauto|lia]). rewrite Fz' by (auto; lia). apply Fz; lia. }
        unfold sp_ch. rewrite Q2. cbn [bind sn0 sn1]. rewrite (rp_dat _ _ _ _ _ _ Rx) by lia. cbn [bind].
        rewrite (rp_dat _ _ _ _ _ _ Rz') by lia. cbn [bind]. rewrite vset_ok by lia.
        eexists; exists (SI q x z'). split; [reflexivity|]. split; [|split; [discriminate|]].
        * cbn. split; auto. split; auto. exists c0, c'. rewrite vget_zupd by lia. rewrite Z.eqb_refl. rewrite (prod_split op e M a' l mid r) by lia. split; auto.
          split; [|lia]. intros _. fold mid. split; [eapply rp_frame; [exact Rx|]|eapply rp_frame; [exact Rz'|]]; intros k Hk; rewrite vget_zupd by lia;
            (destruct (q =? k) eqn:Qk; [exfalso; assert (k = q) by lia; subst k|reflexivity]).
          { apply Nq, in_or_app; auto. }
          { apply Iz' in Hk. destruct Hk as [Hk|Hk]; [auto|lia]. }
        * unfold grows. rewrite zlen_zupd. split; [lia|]. split; [|split].
          { cbn [nodes]. constructor.
            - intro Q. apply in_app_or in Q. destruct Q as [Q|Q]; [apply Nq, in_or_app; auto|apply Iz' in Q; destruct Q as [Q|Q]; [auto|lia]].
            - apply NoDup_app3. split; auto. split; auto. intros k K2 K1. pose proof (rp_nodes _ _ _ _ _ _ Hx k K2).
              apply Iz' in K1. destruct K1 as [K1|K1]; [apply Iz in K1; destruct K1; [eauto|lia]|lia]. }
          { cbn [nodes]. intros k [<-|K]; [left; left; auto|]. apply in_app_or in K. destruct K as [K|K]; [left; right; apply in_or_app; auto|].
            apply Iz' in K. destruct K as [K|K]; [apply Iz in K; destruct K; [left; right; apply in_or_app; auto|right; lia]|right; lia]. }
          { cbn [nodes]. intros k Hk NI. rewrite vget_zupd by lia. destruct (q =? k) eqn:Qk; [exfalso; apply NI; left; lia|].
            assert (~ In k (nodes z0)) by (intro Q; apply Iz in Q; destruct Q as [Q|Q]; [apply NI; right; apply in_or_app; auto|lia]). rewrite Fz' by (auto; lia). apply Fz; lia. }
  Qed.

  (* ---- the collection --------------------------------------------------------- *)
  Definition one (m : pool) (t : sh) (s : stree) (nf : Z * (Z -> T)) : Prop :=
    0 <= fst nf /\ st_n s = fst nf /\ t <> SE /\ NoDup (nodes t) /\ rp m t (st_root s) 0 (fst nf) (snd nf).
  Definition Inv (s : pool * list stree) (a : list (Z * (Z -> T))) : Prop :=
    exists ts, 1 <= zlen (fst s) /\ zlen (snd s) = zlen a /\ zlen ts = zlen a /\
      (forall k t, vget ts k = Ok t -> exists st nf, vget (snd s) k = Ok st /\ vget a k = Ok nf /\ one (fst s) t st nf) /\
      (forall j k t t', vget ts j = Ok t -> vget ts k = Ok t' -> j <> k -> forall q, In q (nodes t) -> In q (nodes t') -> False).

  Lemma lookup m ss a k : Inv (m, ss) a -> (vget a k = UB /\ vget ss k = UB) \/
    exists st n f, vget a k = Ok (n, f) /\ vget ss k = Ok st /\ st_n st = n /\ 0 <= n /\ exists t, t <> SE /\ rp m t (st_root st) 0 n f.
  Proof.
    intros (ts & Hm & L1 & L2 & HA & HB). cbn [fst snd] in *. destruct (Z.lt_ge_cases k 0) as [N|N].
    - left. unfold vget. replace (k <? 0) with true by lia. auto.
    - destruct (Z.lt_ge_cases k (zlen a)) as [Q|Q].
      + right. destruct (vget_Ok ts k ltac:(lia)) as [t Et]. destruct (HA k t Et) as (st & [n f] & E1 & E2 & O1 & O2 & O3 & O4 & O5).
        exists st, n, f. cbn in *. repeat split; auto. exists t; auto.
      + left. unfold vget. replace (k <? 0) with false by lia. unfold zlen in *. rewrite !(proj2 (nth_error_None _ _)) by lia. auto.
  Qed.

  Lemma update_sim m ss a k n f st i g : Inv (m, ss) a -> vget a k = Ok (n, f) -> vget ss k = Ok st -> 0 <= i < n ->
    exists m', sp_apply op init m st i g = Ok m' /\ Inv (m', ss) (zupd a k (n, assign f i (g (f i)))).
  Proof.
    intros (ts & Hm & L1 & L2 & HA & HB) Ea Es Hi. cbn [fst snd] in *. pose proof (vget_range _ _ _ Ea) as Bk.
    destruct (vget_Ok ts k ltac:(lia)) as [t Et]. destruct (HA k t Et) as (st' & nf & E1 & E2 & O1 & O2 & O3 & O4 & O5).
    assert (st' = st) by congruence. assert (nf = (n, f)) by congruence. subst st' nf. cbn [fst snd] in *.
    unfold sp_apply. rewrite O2. replace ((0 <=? i) && (i <? n)) with true by lia. cbn [assert_ bind].
    destruct (rec_ok i g (Z.to_nat n) t (st_root st) 0 n f m (S (Z.to_nat n)) ltac:(lia) ltac:(lia) ltac:(lia) ltac:(lia) O5 O3 O4) as (m' & t' & E & R & NE & (G1 & G2 & G3 & G4)).
    exists m'. split; auto. exists (zupd ts k t'). cbn [fst snd]. rewrite !zlen_zupd. split; [lia|]. split; auto. split; auto. split.
    - intros j tj Ej. pose proof (vget_range _ _ _ Ej) as Bj. rewrite zlen_zupd in Bj. rewrite vget_zupd in Ej by lia. rewrite vget_zupd by lia. destruct (k =? j) eqn:K.
      + assert (tj = t') by congruence. subst tj. assert (j = k) by lia. subst j. exists st, (n, assign f i (g (f i))). split; auto. split; auto. unfold one; cbn [fst snd]. auto.
      + destruct (HA j tj Ej) as (sj & nj & F1 & F2 & P1 & P2 & P3 & P4 & P5). exists sj, nj. split; auto. split; auto. unfold one. repeat split; auto.
        eapply rp_frame; eauto. intros q Hq. pose proof (rp_nodes _ _ _ _ _ _ P5 q Hq). apply G4; [lia|]. intro Q. eapply (HB j k); eauto. lia.
    - intros j j' tj tj' Ej Ej' Nj q Q1 Q2. pose proof (vget_range _ _ _ Ej). pose proof (vget_range _ _ _ Ej').
      rewrite zlen_zupd in *. rewrite vget_zupd in Ej, Ej' by lia.
      assert (old : forall jj tt, vget ts jj = Ok tt -> In q (nodes tt) -> q < zlen m).
      { intros jj tt Ejj Q. destruct (HA jj tt Ejj) as (sj & nj & F1 & F2 & P1 & P2 & P3 & P4 & P5). apply (rp_nodes _ _ _ _ _ _ P5 q Q). }
      destruct (k =? j) eqn:K1; destruct (k =? j') eqn:K2; try lia.
      + injection Ej as <-. apply G3 in Q1. destruct Q1 as [Q1|Q1]; [eapply (HB k j'); eauto; lia|]. pose proof (old _ _ Ej' Q2). lia.
      + injection Ej' as <-. apply G3 in Q2. destruct Q2 as [Q2|Q2]; [eapply (HB j k); eauto; lia|]. pose proof (old _ _ Ej Q1). lia.
      + eapply (HB j j'); eauto.
  Qed.

  Lemma sim s a o : Inv s a ->
    match sp_spec op e base a o with
    | Ok (r, a') => exists s', sp_step op e init s o = Ok (r, s') /\ Inv s' a'
    | Abort => sp_step op e init s o = Abort
    | OutOfFuel => False
    | UB => True
    end.
  Proof.
    destruct s as [m ss]. intro I. destruct o as [n|k i|k i x|k i g|k l r|k|k]; cbn [sp_spec sp_step]; auto;
      try (destruct (lookup _ _ _ k I) as [[E1 E2]|(st & n & f & E1 & E2 & E3 & E4 & t & NE & R)]; rewrite E1; cbn [bind]; auto; rewrite E2; cbn [bind]).
    - destruct (0 <=? n) eqn:B; auto. unfold sp_new. cbn [sp_new_node]. eexists; split; [reflexivity|].
      destruct I as (ts & Hm & L1 & L2 & HA & HB). cbn [fst snd] in *.
      exists (ts ++ [SI (zlen m) SE SE]). cbn [fst snd]. rewrite !zlen_app, !zlen_one. split; [lia|]. split; [lia|]. split; [lia|].
      assert (NF : rp (m ++ [SN 0 0 (init 0 n)]) (SI (zlen m) SE SE) (zlen m) 0 n base).
      { cbn. split; auto. split; [lia|]. exists 0, 0. rewrite vget_mid by auto. rewrite Hinit by lia. split; auto. }
      split.
      + intros k t Ek. pose proof (vget_range _ _ _ Ek) as Bk. rewrite zlen_app, zlen_one in Bk. destruct (Z.eq_dec k (zlen ts)) as [->|N].
        * rewrite vget_mid in Ek by auto. injection Ek as <-. exists (ST n (zlen m)), (n, base). rewrite !vget_mid by lia. split; auto. split; auto.
          unfold one. cbn [fst snd st_n st_root]. split; [lia|]. split; auto. split; [discriminate|]. split; [constructor; [intros []|constructor]|auto].
        * rewrite vget_app1 in Ek by lia. destruct (HA k t Ek) as (st & nf & F1 & F2 & P1 & P2 & P3 & P4 & P5). exists st, nf.
          rewrite !vget_app1 by lia. split; auto. split; auto. unfold one. repeat split; auto. eapply rp_frame; eauto. intros q Hq. apply vget_app1.
          pose proof (rp_nodes _ _ _ _ _ _ P5 q Hq). lia.
      + assert (old : forall jj tt, vget ts jj = Ok tt -> In (zlen m) (nodes tt) -> False).
        { intros jj tt Ejj Q. destruct (HA jj tt Ejj) as (sj & nj & F1 & F2 & P1 & P2 & P3 & P4 & P5). pose proof (rp_nodes _ _ _ _ _ _ P5 _ Q). lia. }
        intros j j' tj tj' Ej Ej' Nj q Q1 Q2. pose proof (vget_range _ _ _ Ej). pose proof (vget_range _ _ _ Ej'). rewrite zlen_app, zlen_one in *.
        destruct (Z.eq_dec j (zlen ts)) as [->|N1]; destruct (Z.eq_dec j' (zlen ts)) as [->|N2]; try lia.
        * rewrite vget_mid in Ej by auto. injection Ej as <-. rewrite vget_app1 in Ej' by lia. destruct Q1 as [<-|[]]. eauto.
        * rewrite vget_mid in Ej' by auto. injection Ej' as <-. rewrite vget_app1 in Ej by lia. destruct Q2 as [<-|[]]. eauto.
        * rewrite vget_app1 in Ej, Ej' by lia. eapply (HB j j'); eauto.
    - unfold sp_get. rewrite E3. destruct ((0 <=? i) && (i <? n)) eqn:B; [|reflexivity]. cbn [assert_ bind].
      rewrite (get_ok m i (Z.to_nat n) t (st_root st) 0 n f) by (auto; lia). cbn [bind]. eauto.
    - unfold sp_set. destruct ((0 <=? i) && (i <? n)) eqn:B.
      + destruct (update_sim _ _ _ _ _ _ _ i (fun _ => x) I E1 E2 ltac:(lia)) as (m' & E & I'). rewrite E. cbn [bind]. eauto.
      + unfold sp_apply. rewrite E3, B. reflexivity.
    - destruct ((0 <=? i) && (i <? n)) eqn:B.
      + destruct (update_sim _ _ _ _ _ _ _ i g I E1 E2 ltac:(lia)) as (m' & E & I'). rewrite E. cbn [bind]. eauto.
      + unfold sp_apply. rewrite E3, B. reflexivity.
    - unfold sp_prod. rewrite E3. destruct ((0 <=? l) && (l <=? r) && (r <=? n)) eqn:B; [|reflexivity]. cbn [assert_ bind].
      rewrite (query_ok m l r ltac:(lia) (Z.to_nat n) t (st_root st) 0 n f) by (auto; lia). cbn [bind].
      replace (Z.max l 0) with l by lia. replace (Z.min r n) with r by lia. eauto.
    - unfold sp_all. destruct t as [|q x y]; [congruence|]. cbn in R. destruct R as (-> & _ & c0 & c1 & R & _). rewrite R. cbn [bind sn_dat]. eauto.
  Qed.
  Lemma sp_history_ ops : snd (run (sp_spec op e base) [] ops) <> UB ->
    run (sp_step op e init) (sp_pool0 e, []) ops = run (sp_spec op e base) [] ops.
  Proof.
    intro H. apply (run_sim _ _ Inv); auto.
    - apply sim.
    - exists []. cbn. split; [unfold sp_pool0; rewrite zlen_one; lia|]. do 2 (split; auto). split.
      + intros k t E. pose proof (vget_range _ _ _ E) as B. change (zlen (@nil sh)) with 0 in B. lia.
      + intros j k t t' E. pose proof (vget_range _ _ _ E) as B. change (zlen (@nil sh)) with 0 in B. lia.
  Qed.
End SP.
