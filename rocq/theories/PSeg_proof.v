From Verif Require Import Base BaseLemmas ListZ ListMore Seq Hist SegTree_spec SegTree_proof LazySeg_proof2 PSeg_model PSeg_spec.

Lemma skipn_skipn {X} (a b : nat) (s : list X) : skipn a (skipn b s) = skipn (a + b) s.
Proof. revert s. induction b as [|b IH]; intros s; cbn [skipn]; [now rewrite Nat.add_0_r|]. destruct s as [|x s]; [now rewrite !skipn_nil|]. rewrite Nat.add_succ_r. cbn [skipn]. apply IH. Qed.
Section PS.
  Context {T : Type}.
  Variables (op : T -> T -> T) (e : T).
  Hypothesis M : is_monoid op e.
  Notation mem := (list (pnd T) * Z)%type.
  Notation prod := (prod_ op e).

  Inductive pt (m : list (pnd T)) (P : Z -> Prop) (cl : bool) (a : Z -> T) : Z -> Z -> Z -> Prop :=
  | pt_leaf p l r c0 c1 : P p -> r = l + 1 -> vget m p = Ok (PNd c0 c1 (a l)) -> (cl = true -> c0 = -1) -> pt m P cl a p l r
  | pt_node p l r c0 c1 : P p -> 1 < r - l -> vget m p = Ok (PNd c0 c1 (prod a l r)) ->
      pt m P cl a c0 l ((l + r) / 2) -> pt m P cl a c1 ((l + r) / 2) r -> pt m P cl a p l r.

  Lemma mid_bound l r : 1 < r - l -> l < (l + r) / 2 < r.
  Proof. intro H. pose proof (Z.div_mod (l + r) 2 ltac:(lia)). pose proof (Z.mod_pos_bound (l + r) 2 ltac:(lia)). lia. Qed.

  Lemma pt_frame m m' (P P' : Z -> Prop) cl a : (forall q, P q -> P' q /\ vget m' q = vget m q) ->
    forall p l r, pt m P cl a p l r -> pt m' P' cl a p l r.
  Proof.
    intros F p l r H. induction H as [p l r c0 c1 Hp Hr E C|p l r c0 c1 Hp L E Hx IHx Hy IHy]; destruct (F p Hp) as [F1 F2].
    - apply pt_leaf with c0 c1; auto. now rewrite F2.
    - apply pt_node with c0 c1; auto. now rewrite F2.
  Qed.
  Lemma pt_ext m P cl a b : forall p l r, pt m P cl a p l r -> (forall i, l <= i < r -> a i = b i) -> pt m P cl b p l r.
  Proof.
    intros p l r H. induction H as [p l r c0 c1 Hp Hr E C|p l r c0 c1 Hp L E Hx IHx Hy IHy]; intro F.
    - apply pt_leaf with c0 c1; auto. rewrite <- F by lia. auto.
    - pose proof (mid_bound _ _ L). apply pt_node with c0 c1; auto.
      + rewrite <- (prod_ext op e a b) by auto. auto.
      + apply IHx. intros; apply F; lia.
      + apply IHy. intros; apply F; lia.
  Qed.
  Lemma pt_range m P cl a p l r : pt m P cl a p l r -> l < r.
  Proof. intro H. destruct H; lia. Qed.
  Lemma pt_top m P cl a p l r : pt m P cl a p l r -> P p.
  Proof. intro H. destruct H; auto. Qed.
  Lemma pt_dat m P cl a p l r : pt m P cl a p l r -> exists c0 c1, vget m p = Ok (PNd c0 c1 (prod a l r)).
  Proof. intro H. destruct H as [p l r c0 c1 Hp Hr E C|p l r c0 c1 Hp L E Hx Hy]; exists c0, c1; auto. subst r. now rewrite (prod_one op e M). Qed.
  Lemma pt_split m P cl a p l r : pt m P cl a p l r -> 1 < r - l -> exists c0 c1, P p /\ vget m p = Ok (PNd c0 c1 (prod a l r)) /\
    pt m P cl a c0 l ((l + r) / 2) /\ pt m P cl a c1 ((l + r) / 2) r.
  Proof. intros H L. destruct H as [p l r c0 c1 Hp Hr E C|p l r c0 c1 Hp L' E Hx Hy]; [lia|]. exists c0, c1. auto. Qed.

  (* ---- the pool ------------------------------------------------------------- *)
  Definition Mem (s : mem) : Prop := 0 <= snd s <= zlen (fst s).
  Definition fresh (s : mem) : Prop := snd s = zlen (fst s).
  Definition keeps (b : Z) (s s' : mem) : Prop :=
    Mem s' /\ snd s <= snd s' /\ (fresh s -> fresh s') /\ forall q, 0 <= q < b -> vget (fst s') q = vget (fst s) q.
  Lemma keeps_trans b b' s1 s2 s3 : keeps b s1 s2 -> keeps b' s2 s3 -> b <= b' -> keeps b s1 s3.
  Proof.
    intros (A1 & A2 & A3 & A4) (B1 & B2 & B3 & B4) Hb. split; auto. split; [lia|]. split; auto. intros q Hq. rewrite B4 by lia. auto.
  Qed.
  Lemma keeps_refl b s : Mem s -> keeps b s s.
  Proof. intro H. split; auto. split; [lia|]. auto. Qed.

  Lemma keeps_le b b' s s' : keeps b s s' -> b' <= b -> keeps b' s s'.
  Proof. intros (A1 & A2 & A3 & A4) Hb. split; auto. split; auto. split; auto. intros; apply A4; lia. Qed.

  Lemma alloc_ok s : Mem s -> exists s' nd, ps_alloc e s = (s', snd s) /\ keeps (snd s) s s' /\ snd s' = snd s + 1 /\
    vget (fst s') (snd s) = Ok nd /\ (fresh s -> p_0 nd = -1).
  Proof.
    destruct s as [m k]. unfold Mem, keeps, fresh, ps_alloc. cbn [fst snd]. intro H. destruct (k <? zlen m) eqn:B.
    - destruct (vget_Ok m k ltac:(lia)) as [nd E]. exists (m, k + 1), nd. cbn [fst snd]. split; auto. split; [|split; [auto|split; [auto|lia]]].
      split; [unfold Mem; cbn; lia|]. split; [lia|]. split; [lia|auto].
    - exists (m ++ [PNd (-1) (-1) e], k + 1), (PNd (-1) (-1) e). cbn [fst snd]. split; auto. unfold Mem. cbn [fst snd]. rewrite zlen_app, zlen_one. split.
      + split; [lia|]. split; [lia|]. split; [lia|]. intros q Hq. apply vget_app1. lia.
      + split; auto. split; auto. apply vget_mid. lia.
  Qed.
  Lemma put_ok s p nd : Mem s -> 0 <= p < snd s -> exists s', ps_put s p nd = Ok s' /\ snd s' = snd s /\ keeps p s s' /\
    vget (fst s') p = Ok nd /\ (forall q, q <> p -> vget (fst s') q = vget (fst s) q).
  Proof.
    destruct s as [m k]. unfold Mem, keeps, fresh, ps_put. cbn [fst snd]. intros H Hp. rewrite vset_ok by lia. cbn [bind].
    exists (zupd m p nd, k). cbn [fst snd]. unfold Mem. cbn [fst snd]. rewrite zlen_zupd.
    assert (G : forall q, q <> p -> vget (zupd m p nd) q = vget m q).
    { intros q Hq. destruct (Z.lt_ge_cases q 0) as [N|N].
      - unfold vget. replace (q <? 0) with true by lia. auto.
      - rewrite vget_zupd by lia. replace (p =? q) with false by lia. auto. }
    split; auto. split; auto. split.
    - split; auto. split; [lia|]. split; auto. intros q Hq. apply G. lia.
    - split; auto. rewrite vget_zupd by lia. now rewrite Z.eqb_refl.
  Qed.
  Lemma clone_ok s c nd : Mem s -> 0 <= c < snd s -> vget (fst s) c = Ok nd -> exists s', ps_clone e s c = Ok (s', snd s) /\ keeps (snd s) s s' /\ snd s' = snd s + 1 /\
    vget (fst s') (snd s) = Ok nd.
  Proof.
    intros H Hc E. unfold ps_clone. destruct (alloc_ok s H) as (s1 & nd1 & E1 & K1 & Z1 & G1 & _). rewrite E1.
    unfold ps_node. pose proof K1 as (M1 & _ & _ & F1). rewrite F1 by auto. rewrite E. cbn [bind].
    destruct (put_ok s1 (snd s) nd M1 ltac:(unfold Mem in *; lia)) as (s2 & E2 & Z2 & K2 & G2 & F2). rewrite E2. cbn [bind].
    exists s2. split; auto. split; [eapply keeps_trans; eauto; lia|]. split; [lia|auto].
  Qed.

  (* ---- build ----------------------------------------------------------------- *)
  Definition within (lo hi q : Z) : Prop := lo <= q < hi.
  Lemma build_ok d cl : forall N fuel s l r, (Z.to_nat (r - l) <= N)%nat -> (N <= fuel)%nat -> Mem s -> (cl = true -> fresh s) -> 0 <= l < r -> r <= zlen d ->
    exists s', ps_build_rec op e fuel d s l r = Ok (s', snd s) /\ keeps (snd s) s s' /\ snd s < snd s' /\
      pt (fst s') (within (snd s) (snd s')) cl (fun i => nth (Z.to_nat i) d e) (snd s) l r.
  Proof.
    induction N as [|N IH]; intros fuel s l r HN HF Hs Hcl Hl Hr; [lia|]. destruct fuel as [|fuel]; [lia|]. cbn [ps_build_rec].
    destruct (alloc_ok s Hs) as (s1 & nd1 & E1 & K1 & Z1 & G1 & C1). rewrite E1. set (k := snd s) in *.
    pose proof K1 as (M1 & _ & Fr1 & F1). assert (K0 : 0 <= k) by (unfold k, Mem in *; lia).
    destruct (r - l =? 1) eqn:L.
    - rewrite (vget_nth e) by lia. cbn [bind]. unfold ps_set_dat, ps_node. rewrite G1. cbn [bind].
      destruct (put_ok s1 k (PNd (p_0 nd1) (p_1 nd1) (nth (Z.to_nat l) d e)) M1 ltac:(lia)) as (s2 & E2 & Z2 & K2 & G2 & F2). rewrite E2. cbn [bind].
      exists s2. split; auto. split; [eapply keeps_trans; eauto; lia|]. split; [lia|].
      eapply pt_leaf; eauto; [unfold within; lia|lia].
    - assert (L1 : 1 < r - l) by lia. pose proof (mid_bound _ _ L1) as MB. set (mid := (l + r) / 2) in *. cbv zeta.
      destruct (IH fuel s1 l mid ltac:(lia) ltac:(lia) M1 ltac:(auto) ltac:(lia) ltac:(lia)) as (s2 & E2 & K2 & Z2 & R2). rewrite E2. cbn [bind]. rewrite Z1 in *.
      pose proof K2 as (M2 & _ & Fr2 & F2). unfold ps_set_ch at 1, ps_node. rewrite F2 by lia. rewrite G1. cbn [bind].
      destruct (put_ok s2 k (PNd (k + 1) (p_1 nd1) (p_dat nd1)) M2 ltac:(lia)) as (s3 & E3 & Z3 & K3 & G3 & F3). rewrite E3. cbn [bind].
      pose proof K3 as (M3 & _ & Fr3 & _).
      destruct (IH fuel s3 mid r ltac:(lia) ltac:(lia) M3 ltac:(auto) ltac:(lia) ltac:(lia)) as (s4 & E4 & K4 & Z4 & R4). rewrite E4. cbn [bind].
      pose proof K4 as (M4 & _ & Fr4 & F4). unfold ps_set_ch, ps_node. rewrite F4 by lia. rewrite G3. cbn [bind p_0 p_1 p_dat].
      destruct (put_ok s4 k (PNd (k + 1) (snd s3) (p_dat nd1)) M4 ltac:(lia)) as (s5 & E5 & Z5 & K5 & G5 & F5). rewrite E5. cbn [bind].
      pose proof K5 as (M5 & _ & Fr5 & _).
      assert (R2' : pt (fst s5) (within (k + 1) (snd s5)) cl (fun i => nth (Z.to_nat i) d e) (k + 1) l mid).
      { eapply pt_frame; [|exact R2]. unfold within. intros q Hq. split; [lia|]. rewrite F5 by lia. rewrite F4 by lia. apply F3. lia. }
      assert (R4' : pt (fst s5) (within (k + 1) (snd s5)) cl (fun i => nth (Z.to_nat i) d e) (snd s3) mid r).
      { eapply pt_frame; [|exact R4]. unfold within. intros q Hq. split; [lia|]. apply F5. lia. }
      unfold ps_update, ps_node. rewrite G5. cbn [bind p_0 p_1 p_dat].
      destruct (pt_dat _ _ _ _ _ _ _ R2') as (x0 & x1 & Dx). destruct (pt_dat _ _ _ _ _ _ _ R4') as (y0 & y1 & Dy).
      rewrite Dx. cbn [bind]. rewrite Dy. cbn [bind]. unfold ps_set_dat, ps_node. rewrite G5. cbn [bind p_0 p_1 p_dat].
      match goal with |- context [ps_put s5 k ?nd] => destruct (put_ok s5 k nd M5 ltac:(lia)) as (s6 & E6 & Z6 & K6 & G6 & F6) end. rewrite E6. cbn [bind].
      exists s6. split; auto. split.
      { do 2 (eapply keeps_trans; [|eassumption|apply Z.le_refl]). eapply keeps_trans; [|exact K4|lia]. eapply keeps_trans; [|exact K3|lia].
        eapply keeps_trans; [exact K1|exact K2|lia]. }
      split; [lia|]. eapply pt_node with (c0 := k + 1) (c1 := snd s3); auto.
      + unfold within; lia.
      + rewrite G6. do 2 f_equal. symmetry. apply (prod_split op e M). lia.
      + fold mid. eapply pt_frame; [|exact R2']. unfold within. intros q Hq. split; [lia|]. apply F6. lia.
      + fold mid. eapply pt_frame; [|exact R4']. unfold within. intros q Hq. split; [lia|]. apply F6. lia.
  Qed.

  (* ---- queries ----------------------------------------------------------------- *)
  Lemma get_ok s i P cl a : forall N fuel p l r, (Z.to_nat (r - l) <= N)%nat -> (N <= fuel)%nat -> l <= i < r -> pt (fst s) P cl a p l r ->
    (let* cur := loop fuel (fun '(cur, l, r) =>
      if 1 <? r - l then
        let m := (l + r) / 2 in
        let* nd := ps_node s cur in
        if i <? m then Ok (inl (p_0 nd, l, m)) else Ok (inl (p_1 nd, m, r))
      else Ok (inr cur)) (p, l, r) in
    let* nd := ps_node s cur in Ok (p_dat nd)) = Ok (a i).
  Proof.
    induction N as [|N IH]; intros fuel p l r HN HF Hi H; [lia|]. destruct fuel as [|fuel]; [lia|]. cbn [loop].
    destruct (1 <? r - l) eqn:L.
    - destruct (pt_split _ _ _ _ _ _ _ H ltac:(lia)) as (c0 & c1 & Hp & E & Hx & Hy). pose proof (mid_bound l r ltac:(lia)). cbv zeta.
      unfold ps_node at 1. rewrite E. cbn [bind p_0 p_1]. destruct (i <? (l + r) / 2) eqn:B; cbn [bind].
      + apply IH; auto; lia.
      + apply IH; auto; lia.
    - cbn [bind]. destruct (pt_dat _ _ _ _ _ _ _ H) as (c0 & c1 & E). unfold ps_node. rewrite E. cbn [bind p_dat].
      assert (l = i) by lia. subst l. replace r with (i + 1) by lia. now rewrite (prod_one op e M).
  Qed.

  Lemma prod_ok s P cl a ql qr : ql <= qr -> forall N fuel p l r, (Z.to_nat (r - l) <= N)%nat -> (N < fuel)%nat -> pt (fst s) P cl a p l r ->
    ps_prod_rec op e fuel s p l r ql qr = Ok (prod a (Z.max ql l) (Z.min qr r)).
  Proof.
    intro Hq. induction N as [|N IH]; intros fuel p l r HN HF H; pose proof (pt_range _ _ _ _ _ _ _ H); [lia|]. destruct fuel as [|fuel]; [lia|]. cbn [ps_prod_rec].
    destruct ((r <=? ql) || (qr <=? l)) eqn:D; [now rewrite prod_nil by lia|].
    destruct ((ql <=? l) && (r <=? qr)) eqn:C.
    - destruct (pt_dat _ _ _ _ _ _ _ H) as (c0 & c1 & E). unfold ps_node. rewrite E. cbn [bind p_dat]. do 2 f_equal; lia.
    - assert (L : 1 < r - l) by lia. pose proof (mid_bound _ _ L). destruct (pt_split _ _ _ _ _ _ _ H L) as (c0 & c1 & Hp & E & Hx & Hy).
      unfold ps_node. rewrite E. cbn [bind p_0 p_1]. cbv zeta. rewrite (IH fuel c0 l) by (auto; lia). cbn [bind]. rewrite (IH fuel c1 _ r) by (auto; lia). cbn [bind]. f_equal.
      set (mm := (l + r) / 2) in *. destruct (Z.le_gt_cases qr mm) as [Q1|Q1].
      { rewrite (prod_nil op e a (Z.max ql mm)) by lia. rewrite (mon_r _ _ M). f_equal; lia. }
      destruct (Z.le_gt_cases mm ql) as [Q2|Q2].
      { rewrite (prod_nil op e a (Z.max ql l)) by lia. rewrite (mon_l _ _ M). f_equal; lia. }
      rewrite (prod_split op e M a (Z.max ql l) mm (Z.min qr r)) by lia. f_equal; f_equal; lia.
  Qed.

  Lemma dump_ok s (P : Z -> Prop) a d : forall N fuel p l r out, (Z.to_nat (r - l) <= N)%nat -> (N <= fuel)%nat -> (forall q, P q -> 0 <= q) -> 0 <= l -> r <= zlen d ->
    (forall i, l <= i < r -> a i = nth (Z.to_nat i) d e) -> pt (fst s) P true a p l r ->
    ps_dump_rec fuel s p out = Ok (out ++ slice l r d).
  Proof.
    induction N as [|N IH]; intros fuel p l r out HN HF HP Hl Hr Ha H; pose proof (pt_range _ _ _ _ _ _ _ H); [lia|]. destruct fuel as [|fuel]; [lia|]. cbn [ps_dump_rec].
    destruct H as [p l r c0 c1 Hp Er E C|p l r c0 c1 Hp L E Hx Hy]; unfold ps_node; rewrite E; cbn [bind p_0 p_1 p_dat].
    - rewrite (C eq_refl). cbn [Z.eqb]. do 2 f_equal. subst r. unfold slice. replace (Z.to_nat (l + 1 - l)) with 1%nat by lia. rewrite Ha by lia.
      assert (HK : (Z.to_nat l < length d)%nat) by (unfold zlen in *; lia). clear - HK. revert HK. generalize (Z.to_nat l) as k. induction d as [|x d IHd]; intros k Hk; cbn in *; [lia|].
      destruct k as [|k]; cbn; auto. apply IHd. lia.
    - pose proof (pt_top _ _ _ _ _ _ _ Hx) as P0. apply HP in P0. replace (c0 =? -1) with false by lia. pose proof (mid_bound _ _ L) as MB.
      rewrite (IH fuel c0 l ((l + r) / 2)) by (auto; try lia; intros; apply Ha; lia). cbn [bind].
      rewrite (IH fuel c1 ((l + r) / 2) r) by (auto; try lia; intros; apply Ha; lia). rewrite <- app_assoc. do 2 f_equal.
      unfold slice. set (mm := (l + r) / 2) in *. replace (Z.to_nat mm) with (Z.to_nat (mm - l) + Z.to_nat l)%nat by lia.
      replace (Z.to_nat (r - l)) with (Z.to_nat (mm - l) + Z.to_nat (r - mm))%nat by lia. rewrite <- (skipn_skipn (Z.to_nat (mm - l)) (Z.to_nat l)).
      generalize (skipn (Z.to_nat l) d) as x. generalize (Z.to_nat (mm - l)) as u, (Z.to_nat (r - mm)) as w. clear.
      induction u as [|u IH]; intros w x; cbn; auto. destruct x as [|y x]; cbn; [now rewrite firstn_nil|]. f_equal. apply IH.
  Qed.

  Lemma maxr_ok s P cl a g lq : forall N fuel p l r sum, (Z.to_nat (r - l) <= N)%nat -> (N <= fuel)%nat -> pt (fst s) P cl a p l r ->
    sum = prod a lq (Z.max lq l) -> g sum = true ->
    exists res sum', ps_maxr op fuel g s lq p l r sum = Ok (res, sum') /\
      ((res = r /\ sum' = prod a lq (Z.max lq r) /\ g sum' = true) \/
       (Z.max lq l <= res < r /\ g (prod a lq res) = true /\ g (prod a lq (res + 1)) = false)).
  Proof.
    induction N as [|N IH]; intros fuel p l r sum HN HF H Hs Hg; pose proof (pt_range _ _ _ _ _ _ _ H) as Rg; [lia|]. destruct fuel as [|fuel]; [lia|]. cbn [ps_maxr].
    destruct (r <=? lq) eqn:B0.
    - eexists; eexists; split; [reflexivity|]. left. split; auto. split; auto. rewrite Hs. f_equal. lia.
    - destruct (pt_dat _ _ _ _ _ _ _ H) as (c0 & c1 & E).
      match goal with |- context [bind ?X _] => assert (G : exists stop, X = Ok stop /\
          match stop with
          | Some (res, sum') => (res = r /\ sum' = prod a lq (Z.max lq r) /\ g sum' = true) \/ (Z.max lq l <= res < r /\ g (prod a lq res) = true /\ g (prod a lq (res + 1)) = false)
          | None => 1 < r - l
          end) end.
      { destruct (lq <=? l) eqn:B1.
        - unfold ps_node. rewrite E. cbn [bind p_dat]. cbv zeta. replace (Z.max lq l) with l in * by lia.
          assert (Es : op sum (prod a l r) = prod a lq r) by (rewrite Hs; symmetry; apply (prod_split op e M); lia). rewrite Es.
          destruct (g (prod a lq r)) eqn:Gn.
          + eexists; split; [reflexivity|]. left. replace (Z.max lq r) with r by lia. auto.
          + destruct (r - l =? 1) eqn:L; eexists; (split; [reflexivity|]); [|lia]. right. split; [lia|]. split; [congruence|]. replace (l + 1) with r by lia. auto.
        - eexists; split; [reflexivity|]. cbv beta iota. lia. }
      destruct G as (stop & Es & G). rewrite Es. cbn [bind]. destruct stop as [[res sum']|]; [eauto|].
      pose proof (mid_bound _ _ G) as MB. destruct (pt_split _ _ _ _ _ _ _ H G) as (d0 & d1 & Hp & E' & Hx & Hy).
      unfold ps_node. rewrite E'. cbn [bind p_0 p_1]. cbv zeta. set (mm := (l + r) / 2) in *.
      destruct (IH fuel d0 l mm sum ltac:(lia) ltac:(lia) Hx Hs Hg) as (res & sum' & E1 & D). rewrite E1. cbn [bind].
      destruct D as [(-> & D1 & D2)|(D1 & D2 & D3)].
      + rewrite Z.eqb_refl. cbn [negb]. destruct (IH fuel d1 mm r sum' ltac:(lia) ltac:(lia) Hy D1 D2) as (res & sum'' & E2 & D). rewrite E2.
        eexists; eexists; split; [reflexivity|]. destruct D as [D|(Q1 & Q2 & Q3)]; [left; auto|right]. split; [lia|auto].
      + replace (res =? mm) with false by lia. cbn [negb]. eexists; eexists; split; [reflexivity|]. right. split; [lia|auto].
  Qed.
  Lemma minl_ok s P cl a g rq : forall N fuel p l r sum, (Z.to_nat (r - l) <= N)%nat -> (N <= fuel)%nat -> pt (fst s) P cl a p l r ->
    sum = prod a (Z.min rq r) rq -> g sum = true ->
    exists res sum', ps_minl op fuel g s rq p l r sum = Ok (res, sum') /\
      ((res = l /\ sum' = prod a (Z.min rq l) rq /\ g sum' = true) \/
       (l < res <= Z.min rq r /\ g (prod a res rq) = true /\ g (prod a (res - 1) rq) = false)).
  Proof.
    induction N as [|N IH]; intros fuel p l r sum HN HF H Hs Hg; pose proof (pt_range _ _ _ _ _ _ _ H) as Rg; [lia|]. destruct fuel as [|fuel]; [lia|]. cbn [ps_minl].
    destruct (rq <=? l) eqn:B0.
    - eexists; eexists; split; [reflexivity|]. left. split; auto. split; auto. rewrite Hs. f_equal. lia.
    - destruct (pt_dat _ _ _ _ _ _ _ H) as (c0 & c1 & E).
      match goal with |- context [bind ?X _] => assert (G : exists stop, X = Ok stop /\
          match stop with
          | Some (res, sum') => (res = l /\ sum' = prod a (Z.min rq l) rq /\ g sum' = true) \/ (l < res <= Z.min rq r /\ g (prod a res rq) = true /\ g (prod a (res - 1) rq) = false)
          | None => 1 < r - l
          end) end.
      { destruct (r <=? rq) eqn:B1.
        - unfold ps_node. rewrite E. cbn [bind p_dat]. cbv zeta. replace (Z.min rq r) with r in * by lia.
          assert (Es : op (prod a l r) sum = prod a l rq) by (rewrite Hs; symmetry; apply (prod_split op e M); lia). rewrite Es.
          destruct (g (prod a l rq)) eqn:Gn.
          + eexists; split; [reflexivity|]. left. replace (Z.min rq l) with l by lia. auto.
          + destruct (r - l =? 1) eqn:L; eexists; (split; [reflexivity|]); [|lia]. right. split; [lia|]. split; [congruence|]. replace (r - 1) with l by lia. auto.
        - eexists; split; [reflexivity|]. cbv beta iota. lia. }
      destruct G as (stop & Es & G). rewrite Es. cbn [bind]. destruct stop as [[res sum']|]; [eauto|].
      pose proof (mid_bound _ _ G) as MB. destruct (pt_split _ _ _ _ _ _ _ H G) as (d0 & d1 & Hp & E' & Hx & Hy).
      unfold ps_node. rewrite E'. cbn [bind p_0 p_1]. cbv zeta. set (mm := (l + r) / 2) in *.
      destruct (IH fuel d1 mm r sum ltac:(lia) ltac:(lia) Hy Hs Hg) as (res & sum' & E1 & D). rewrite E1. cbn [bind].
      destruct D as [(-> & D1 & D2)|(D1 & D2 & D3)].
      + rewrite Z.eqb_refl. cbn [negb]. destruct (IH fuel d0 l mm sum' ltac:(lia) ltac:(lia) Hx D1 D2) as (res & sum'' & E2 & D). rewrite E2.
        eexists; eexists; split; [reflexivity|]. destruct D as [D|(Q1 & Q2 & Q3)]; [left; auto|right]. split; [lia|auto].
      + replace (res =? mm) with false by lia. cbn [negb]. eexists; eexists; split; [reflexivity|]. right. split; [lia|auto].
  Qed.

  (* ---- apply ------------------------------------------------------------------- *)
  Lemma update_dat s p c0 c1 d u0 u1 x w0 w1 y : Mem s -> 0 <= p < snd s -> vget (fst s) p = Ok (PNd c0 c1 d) -> vget (fst s) c0 = Ok (PNd u0 u1 x) -> vget (fst s) c1 = Ok (PNd w0 w1 y) ->
    exists s', ps_update op s p = Ok s' /\ snd s' = snd s /\ keeps p s s' /\ vget (fst s') p = Ok (PNd c0 c1 (op x y)) /\ (forall q, q <> p -> vget (fst s') q = vget (fst s) q).
  Proof.
    intros H Hp E E0 E1. unfold ps_update, ps_node. rewrite E. cbn [bind p_0 p_1]. rewrite E0. cbn [bind]. rewrite E1. cbn [bind p_dat].
    unfold ps_set_dat, ps_node. rewrite E. cbn [bind p_0 p_1]. apply put_ok; auto.
  Qed.
  Definition pset (a : Z -> T) (i : Z) (x : T) (j : Z) : T := if j =? i then x else a j.

  Lemma down_ok i f cl a k0 : forall N fuel s cur l r c0 c1 p path, (Z.to_nat (r - l) <= N)%nat -> (N <= fuel)%nat -> Mem s -> 0 <= k0 <= cur -> snd s = cur + 1 ->
    l <= i < r -> pt (fst s) (within 0 k0) cl a p l r -> vget (fst s) p = Ok (PNd c0 c1 (prod a l r)) -> vget (fst s) cur = Ok (PNd c0 c1 (prod a l r)) ->
    exists s' leaf ps, loop fuel (ps_down e i) (s, cur, l, r, path) = Ok (s', leaf, ps ++ path) /\ keeps cur s s' /\
      exists s'', (let* nd := ps_node s' leaf in let* t := ps_set_dat s' leaf (f (p_dat nd)) in for_each ps (fun p s => ps_update op s p) t) = Ok s'' /\
        snd s'' = snd s' /\ keeps cur s' s'' /\
        pt (fst s'') (fun q => within 0 k0 q \/ within cur (snd s'') q) cl (pset a i (f (a i))) cur l r.
  Proof.
    induction N as [|N IH]; intros fuel s cur l r c0 c1 p path HN HF Hs Hk Ek Hi Hp Ep Ec; [lia|]. destruct fuel as [|fuel]; [lia|]. cbn [loop ps_down].
    destruct (1 <? r - l) eqn:L.
    - assert (L1 : 1 < r - l) by lia. pose proof (mid_bound _ _ L1) as MB. set (mid := (l + r) / 2) in *. cbv zeta.
      destruct (pt_split _ _ _ _ _ _ _ Hp L1) as (d0 & d1 & Pp & E & Hx & Hy). fold mid in Hx, Hy. assert (d0 = c0 /\ d1 = c1) as [-> ->] by (split; congruence).
      unfold ps_node at 1. rewrite Ec. cbn [bind p_0 p_1].
      set (b := negb (i <? mid)). set (c := if b then c1 else c0). set (lo := if b then mid else l). set (hi := if b then r else mid).
      assert (Hc : pt (fst s) (within 0 k0) cl a c lo hi) by (unfold c, lo, hi; destruct b; auto).
      assert (Hi' : lo <= i < hi) by (unfold lo, hi, b; destruct (i <? mid) eqn:B; cbn [negb]; lia).
      destruct (pt_dat _ _ _ _ _ _ _ Hc) as (u0 & u1 & Eu). pose proof (pt_top _ _ _ _ _ _ _ Hc) as Pc. unfold within in Pc.
      destruct (clone_ok s c _ Hs ltac:(lia) Eu) as (s1 & E1 & K1 & Z1 & G1). rewrite E1. cbn [bind]. pose proof K1 as (M1 & _ & Fr1 & F1).
      unfold ps_set_ch, ps_node at 1. rewrite F1 by lia. rewrite Ec. cbn [bind p_0 p_1 p_dat].
      set (nd' := if b then PNd c0 (snd s) (prod a l r) else PNd (snd s) c1 (prod a l r)).
      destruct (put_ok s1 cur nd' M1 ltac:(lia)) as (s2 & E2 & Z2 & K2 & G2 & F2). rewrite E2. cbn [bind]. pose proof K2 as (M2 & _ & Fr2 & _).
      assert (OldF : forall q, 0 <= q < k0 -> vget (fst s2) q = vget (fst s) q) by (intros q Hq; rewrite F2 by lia; apply F1; lia).
      destruct (IH fuel s2 (snd s) lo hi u0 u1 c (cur :: path)) as (s3 & leaf & ps & E3 & K3 & s4 & E4 & Z4 & K4 & R4); auto.
      { unfold lo, hi; destruct b; lia. } { lia. } { lia. } { lia. }
      { eapply pt_frame; [|exact Hc]. unfold within. intros q Hq. split; auto. }
      { rewrite OldF by lia. auto. } { rewrite F2 by lia. auto. }
      change (if b then mid else l) with lo. change (if b then r else mid) with hi. rewrite E3. exists s3, leaf, (ps ++ [cur]).
      split; [rewrite <- app_assoc; reflexivity|]. pose proof K3 as (M3 & Z3 & Fr3 & F3). pose proof K4 as (M4 & _ & Fr4 & F4). split.
      { eapply keeps_trans; [|exact K3|lia]. eapply keeps_trans; [|exact K2|lia]. eapply keeps_le; [exact K1|lia]. }
      assert (C4 : vget (fst s4) cur = Ok nd') by (rewrite F4 by lia; rewrite F3 by lia; auto).
      assert (Old4 : forall q, 0 <= q < k0 -> vget (fst s4) q = vget (fst s) q) by (intros q Hq; rewrite F4 by lia; rewrite F3 by lia; apply OldF; lia).
      assert (Rx : if b then pt (fst s4) (fun q => within 0 k0 q \/ within (cur + 1) (snd s4) q) cl (pset a i (f (a i))) c0 l mid
                   else pt (fst s4) (fun q => within 0 k0 q \/ within (cur + 1) (snd s4) q) cl (pset a i (f (a i))) c1 mid r).
      { destruct b eqn:Eb; eapply pt_ext with a; try (eapply pt_frame; [|eassumption]; unfold within; intros q Hq; split; [lia|apply Old4; lia]);
          intros j Hj; unfold pset; unfold lo, hi in Hi'; replace (j =? i) with false by lia; auto. }
      assert (R4' : pt (fst s4) (fun q => within 0 k0 q \/ within (cur + 1) (snd s4) q) cl (pset a i (f (a i))) (snd s) lo hi).
      { eapply pt_frame; [|exact R4]. unfold within. intros q Hq. split; auto. lia. }
      set (x0 := if b then c0 else snd s). set (x1 := if b then snd s else c1).
      assert (RL : pt (fst s4) (fun q => within 0 k0 q \/ within (cur + 1) (snd s4) q) cl (pset a i (f (a i))) x0 l mid) by (unfold x0, lo, hi in *; destruct b; auto).
      assert (RR : pt (fst s4) (fun q => within 0 k0 q \/ within (cur + 1) (snd s4) q) cl (pset a i (f (a i))) x1 mid r) by (unfold x1, lo, hi in *; destruct b; auto).
      assert (C4' : vget (fst s4) cur = Ok (PNd x0 x1 (prod a l r))) by (rewrite C4; unfold nd', x0, x1; destruct b; auto).
      destruct (pt_dat _ _ _ _ _ _ _ RL) as (v0 & v1 & EL). destruct (pt_dat _ _ _ _ _ _ _ RR) as (w0 & w1 & ER).
      destruct (update_dat s4 cur _ _ _ _ _ _ _ _ _ M4 ltac:(lia) C4' EL ER) as (s5 & E5 & Z5 & K5 & G5 & F5).
      exists s5. split.
      { clear - E4 E5. destruct (ps_node s3 leaf) as [nd| | |]; cbn [bind] in *; try discriminate.
        destruct (ps_set_dat s3 leaf (f (p_dat nd))) as [t| | |]; cbn [bind] in *; try discriminate. rewrite for_each_app. rewrite E4. cbn [bind for_each]. now rewrite E5. }
      split; [lia|]. split.
      { eapply keeps_trans; [|exact K5|lia]. eapply keeps_le; [exact K4|lia]. }
      eapply pt_node with (c0 := x0) (c1 := x1); auto.
      + right. unfold within. lia.
      + rewrite G5. do 2 f_equal. symmetry. apply (prod_split op e M). lia.
      + fold mid. eapply pt_frame; [|exact RL]. unfold within. intros q Hq. split; [lia|]. apply F5. lia.
      + fold mid. eapply pt_frame; [|exact RR]. unfold within. intros q Hq. split; [lia|]. apply F5. lia.
    - exists s, cur, []. split; auto. split; [now apply keeps_refl|]. unfold ps_node. rewrite Ec. cbn [bind p_dat]. unfold ps_set_dat, ps_node. rewrite Ec. cbn [bind p_0 p_1].
      destruct (put_ok s cur (PNd c0 c1 (f (prod a l r))) Hs ltac:(lia)) as (s2 & E2 & Z2 & K2 & G2 & F2). rewrite E2. cbn [bind for_each].
      exists s2. split; auto. split; auto. split; auto. assert (r = l + 1 /\ l = i) as [-> ->] by lia. eapply pt_leaf with (c0 := c0) (c1 := c1); auto.
      + right. unfold within. lia.
      + rewrite G2. rewrite (prod_one op e M). unfold pset. now rewrite Z.eqb_refl.
      + intro C. destruct Hp as [p l r d0 d1 Pp Er Ed Cd|]; [|lia]. assert (d0 = c0) by congruence. subst. auto.
  Qed.

  Lemma apply_ok s p n i f cl a : Mem s -> 0 <= i < n -> pt (fst s) (within 0 (snd s)) cl a p 0 n ->
    exists s' root, ps_apply op e s p n i f = Ok (s', root) /\ keeps (snd s) s s' /\ snd s <= root /\
      pt (fst s') (within 0 (snd s')) cl (pset a i (f (a i))) root 0 n.
  Proof.
    intros Hs Hi Hp. unfold ps_apply. destruct (pt_dat _ _ _ _ _ _ _ Hp) as (c0 & c1 & E). pose proof (pt_top _ _ _ _ _ _ _ Hp) as Pp. unfold within in Pp.
    destruct (clone_ok s p _ Hs Pp E) as (s1 & E1 & K1 & Z1 & G1). rewrite E1. cbn [bind]. pose proof K1 as (M1 & _ & Fr1 & F1).
    destruct (down_ok i f cl a (snd s) (Z.to_nat n) (S (Z.to_nat n)) s1 (snd s) 0 n c0 c1 p []) as (s2 & leaf & ps & E2 & K2 & s3 & E3 & Z3 & K3 & R3); auto; try lia.
    { eapply pt_frame; [|exact Hp]. intros q Hq. split; auto. }
    { rewrite F1 by lia. auto. }
    rewrite app_nil_r in E2. rewrite E2. cbn [bind].
    destruct (ps_node s2 leaf) as [nd| | |]; cbn [bind] in *; try discriminate.
    destruct (ps_set_dat s2 leaf (f (p_dat nd))) as [t| | |]; cbn [bind] in *; try discriminate. rewrite E3. cbn [bind].
    exists s3, (snd s). split; auto. split; [eapply keeps_trans; [exact K1| |apply Z.le_refl]; eapply keeps_trans; eauto; lia|]. split; [lia|].
    eapply pt_frame; [|exact R3]. unfold within. pose proof K2 as (_ & Z2 & _). unfold Mem in Hs. intros q Hq. split; auto. lia.
  Qed.

  (* ---- the collection ------------------------------------------------------------ *)
  Definition at_ (v : list T) (i : Z) : T := nth (Z.to_nat i) v e.
  Definition one (s : mem) (cl : bool) (t : ptree) (v : list T) : Prop :=
    pt_n t = zlen v /\ ((v = [] /\ pt_root t = -1) \/ (0 < zlen v /\ pt (fst s) (within 0 (snd s)) cl (at_ v) (pt_root t) 0 (zlen v))).
  Definition Inv (s : mem * list ptree) (a : bool * list (list T)) : Prop :=
    Mem (fst s) /\ (fst a = true -> fresh (fst s)) /\ Forall2 (one (fst s) (fst a)) (snd s) (snd a).

  Lemma one_keeps s s' cl t v : keeps (snd s) s s' -> one s cl t v -> one s' cl t v.
  Proof.
    intros (A1 & A2 & A3 & A4) (H1 & H2). split; auto. destruct H2 as [H2|[H2 H3]]; [left; auto|right; split; auto].
    eapply pt_frame; [|exact H3]. unfold within. intros q Hq. split; [lia|]. apply A4. lia.
  Qed.
  Lemma F2_get {A B} (R : A -> B -> Prop) x y k : Forall2 R x y -> (vget y k = UB /\ vget x k = UB) \/ exists u w, vget x k = Ok u /\ vget y k = Ok w /\ R u w.
  Proof.
    intro H. unfold vget. destruct (k <? 0); [left; auto|]. generalize (Z.to_nat k) as n. clear k.
    induction H as [|u w x y Huw H IH]; intros [|n]; cbn; auto. right. eauto.
  Qed.
  Lemma add_one s s' fl vs xs t v : Mem s' -> (fl = true -> fresh s') -> keeps (snd s) s s' -> Forall2 (one s fl) vs xs -> one s' fl t v ->
    Inv (s', vs ++ [t]) (fl, xs ++ [v]).
  Proof.
    intros H1 H2 H3 H4 H5. split; [exact H1|]. split; [exact H2|]. cbn [fst snd]. apply Forall2_app; [|constructor; auto].
    clear - H3 H4. induction H4; constructor; auto. eapply one_keeps; eauto.
  Qed.
  Lemma pset_zupd v i x n : 0 <= i < zlen v -> forall j, 0 <= j < n -> pset (at_ v) i x j = at_ (zupd v i x) j.
  Proof.
    intros Hi j Hj. unfold pset, at_. destruct (j =? i) eqn:B.
    - assert (j = i) by lia. subst j. pose proof (vget_zupd v i i x) as Q. specialize (Q ltac:(lia)). rewrite Z.eqb_refl in Q.
      rewrite (vget_nth e) in Q by (rewrite zlen_zupd; lia). congruence.
    - unfold zupd. revert B Hi Hj. intros B Hi Hj. assert (N : Z.to_nat j <> Z.to_nat i) by lia. clear - N. revert N. generalize (Z.to_nat j) as u, (Z.to_nat i) as w.
      induction v as [|y v IH]; intros [|u] [|w] N; cbn; auto; try lia.
  Qed.

  Lemma sim s a o : Inv s a ->
    match ps_spec op e a o with
    | Ok (r, a') => exists s', ps_step op e s o = Ok (r, s') /\ Inv s' a'
    | Abort => ps_step op e s o = Abort
    | OutOfFuel => False
    | UB => True
    end.
  Proof.
    destruct s as [m vs]. destruct a as [fl xs]. intros (Hm & Hf & HA). cbn [fst snd] in *.
    assert (I0 : Inv (m, vs) (fl, xs)) by (split; [exact Hm|split; [exact Hf|exact HA]]).
    destruct o as [|d|k i|k i x|k i f|k l r|k|k l g|k r g|k|]; cbn [ps_spec ps_step];
      try (destruct (F2_get _ _ _ k HA) as [[E1 E2]|(t & v & E1 & E2 & Ht & Hv)]; rewrite ?E1, ?E2; cbn [bind]; auto; pose proof (zlen_nonneg v) as Zv; unfold in_range, in_interval; rewrite ?Ht).
    - eexists; split; [reflexivity|]. eapply add_one; eauto using keeps_refl. split; auto.
    - destruct (zlen d =? 0) eqn:B; auto. pose proof (zlen_nonneg d). unfold ps_build.
      destruct (build_ok d fl (Z.to_nat (zlen d)) (S (length d)) m 0 (zlen d)) as (m' & E & K & Z1 & R); auto; try (unfold zlen; lia); try lia.
      rewrite E. cbn [bind]. eexists; split; [reflexivity|]. pose proof K as (M' & _ & Fr & _). eapply add_one; eauto. split; auto. right. split; [lia|]. cbn [pt_root].
      eapply pt_frame; [|exact R]. unfold within. unfold Mem in Hm. intros q Hq. split; auto. lia.
    - destruct ((0 <=? i) && (i <? zlen v)) eqn:B; [|reflexivity]. cbn [assert_ bind]. rewrite (vget_nth e) by lia. cbn [bind].
      destruct Hv as [[-> _]|[_ Hv]]; [change (zlen (@nil T)) with 0 in B; lia|].
      unfold ps_get. rewrite (get_ok m i (within 0 (snd m)) fl (at_ v) (Z.to_nat (zlen v)) _ (pt_root t) 0 (zlen v)) by (auto; lia). cbn [bind]. eauto.
    - destruct ((0 <=? i) && (i <? zlen v)) eqn:B; [|reflexivity]. cbn [assert_ bind].
      destruct Hv as [[-> _]|[_ Hv]]; [change (zlen (@nil T)) with 0 in B; lia|].
      destruct (apply_ok m (pt_root t) (zlen v) i (fun _ => x) fl (at_ v) Hm ltac:(lia) Hv) as (m' & root & E & K & Hr & R). rewrite E. cbn [bind].
      eexists; split; [reflexivity|]. pose proof K as (M' & _ & Fr & _). eapply add_one; eauto. split; cbn [pt_n pt_root]; rewrite zlen_zupd; auto. right. split; [lia|].
      eapply pt_ext; [exact R|]. intros j Hj. apply (pset_zupd v i x (zlen v)); lia.
    - destruct ((0 <=? i) && (i <? zlen v)) eqn:B; [|reflexivity]. cbn [assert_ bind]. rewrite (vget_nth e) by lia. cbn [bind].
      destruct Hv as [[-> _]|[_ Hv]]; [change (zlen (@nil T)) with 0 in B; lia|].
      destruct (apply_ok m (pt_root t) (zlen v) i f fl (at_ v) Hm ltac:(lia) Hv) as (m' & root & E & K & Hr & R). rewrite E. cbn [bind].
      eexists; split; [reflexivity|]. pose proof K as (M' & _ & Fr & _). eapply add_one; eauto. split; cbn [pt_n pt_root]; rewrite zlen_zupd; auto. right. split; [lia|].
      eapply pt_ext; [exact R|]. intros j Hj. apply (pset_zupd v i (f (at_ v i)) (zlen v)); lia.
    - destruct ((0 <=? l) && (l <=? r) && (r <=? zlen v)) eqn:B; [|reflexivity]. cbn [assert_ bind].
      destruct Hv as [[-> _]|[_ Hv]].
      + change (zlen (@nil T)) with 0 in *. assert (l = 0 /\ r = 0) as [-> ->] by lia. cbn. eauto.
      + rewrite (prod_ok m (within 0 (snd m)) fl (at_ v) l r ltac:(lia) (Z.to_nat (zlen v)) _ (pt_root t) 0 (zlen v)) by (auto; lia). cbn [bind].
        replace (Z.max l 0) with l by lia. replace (Z.min r (zlen v)) with r by lia. unfold at_, fold. rewrite (prod_slice op e e v) by lia. eauto.
    - unfold ps_prod_all. destruct Hv as [[-> ->]|[_ Hv]]; [cbn; eauto|]. destruct (pt_dat _ _ _ _ _ _ _ Hv) as (c0 & c1 & E).
      pose proof (pt_top _ _ _ _ _ _ _ Hv) as Q. unfold within in Q. replace (pt_root t =? -1) with false by lia. cbn [negb]. unfold ps_node. rewrite E. cbn [bind p_dat].
      unfold at_. rewrite (prod_slice op e e v) by lia. unfold slice. rewrite Z.sub_0_r. cbn [Z.to_nat skipn]. unfold zlen. rewrite Nat2Z.id, firstn_all. eauto.
    - replace ((0 <=? l) && (l <=? zlen v) && (zlen v <=? zlen v)) with ((0 <=? l) && (l <=? zlen v)) by lia.
      destruct ((0 <=? l) && (l <=? zlen v)) eqn:B; [|reflexivity]. cbn [assert_ bind]. destruct (g e) eqn:Ge; [|reflexivity]. cbn [assert_ bind].
      destruct (initial (rights op e g l v)) eqn:Bi; auto.
      assert (G : exists r sum, ps_maxr op (S (Z.to_nat (zlen v))) g m l (pt_root t) 0 (zlen v) e = Ok (r, sum) /\ l <= r <= zlen v /\
         g (fold op e l r v) = true /\ (r = zlen v \/ g (fold op e l (r + 1) v) = false)).
      { destruct Hv as [[-> _]|[_ Hv]].
        - change (zlen (@nil T)) with 0 in *. assert (l = 0) by lia. subst l. cbn. exists 0, e. auto with zarith.
        - destruct (maxr_ok m (within 0 (snd m)) fl (at_ v) g l (Z.to_nat (zlen v)) (S (Z.to_nat (zlen v))) (pt_root t) 0 (zlen v) e) as (r & sum & E & D); auto; try lia.
          { rewrite prod_nil by lia. auto. }
          exists r, sum. split; auto. destruct D as [(-> & D1 & D2)|(D1 & D2 & D3)].
          + replace (Z.max l (zlen v)) with (zlen v) in D1 by lia. split; [lia|]. split; auto. unfold fold. rewrite <- (prod_slice op e e v) by lia.
            unfold at_ in D1. rewrite <- D1. auto.
          + split; [lia|]. unfold fold. rewrite <- !(prod_slice op e e v) by lia. auto. }
      destruct G as (r & sum & E & Hr & G1 & G2). rewrite E. cbn [bind]. unfold rights in *. rewrite (trues_char _ _ (r - l)); try lia; auto.
      { replace (l + (r - l + 1) - 1) with r by lia. eauto. }
      { now replace (l + (r - l)) with r by lia. }
      { destruct G2 as [->|G2]; [left; lia|]. right. now replace (l + (r - l + 1)) with (r + 1) by lia. }
    - replace ((0 <=? 0) && (0 <=? r) && (r <=? zlen v)) with ((0 <=? r) && (r <=? zlen v)) by lia.
      destruct ((0 <=? r) && (r <=? zlen v)) eqn:B; [|reflexivity]. cbn [assert_ bind]. destruct (g e) eqn:Ge; [|reflexivity]. cbn [assert_ bind].
      destruct (initial (lefts op e g r v)) eqn:Bi; auto.
      assert (G : exists l sum, ps_minl op (S (Z.to_nat (zlen v))) g m r (pt_root t) 0 (zlen v) e = Ok (l, sum) /\ 0 <= l <= r /\
         g (fold op e l r v) = true /\ (l = 0 \/ g (fold op e (l - 1) r v) = false)).
      { destruct Hv as [[-> _]|[_ Hv]].
        - change (zlen (@nil T)) with 0 in *. assert (r = 0) by lia. subst r. cbn. exists 0, e. auto with zarith.
        - destruct (minl_ok m (within 0 (snd m)) fl (at_ v) g r (Z.to_nat (zlen v)) (S (Z.to_nat (zlen v))) (pt_root t) 0 (zlen v) e) as (l & sum & E & D); auto; try lia.
          { rewrite prod_nil by lia. auto. }
          exists l, sum. split; auto. destruct D as [(-> & D1 & D2)|(D1 & D2 & D3)].
          + replace (Z.min r 0) with 0 in D1 by lia. split; [lia|]. split; auto. unfold fold. rewrite <- (prod_slice op e e v) by lia.
            unfold at_ in D1. rewrite <- D1. auto.
          + split; [lia|]. unfold fold. rewrite <- !(prod_slice op e e v) by lia. auto. }
      destruct G as (l & sum & E & Hl & G1 & G2). rewrite E. cbn [bind]. unfold lefts in *. rewrite (trues_char _ _ (r - l)); try lia; auto.
      { replace (r - (r - l + 1 - 1)) with l by lia. eauto. }
      { now replace (r - (r - l)) with l by lia. }
      { destruct G2 as [->|G2]; [left; lia|]. right. now replace (r - (r - l + 1)) with (l - 1) by lia. }
    - destruct fl; auto. unfold ps_dump. destruct Hv as [[-> ->]|[_ Hv]]; [cbn; eauto|].
      pose proof (pt_top _ _ _ _ _ _ _ Hv) as Q. unfold within in Q. replace (pt_root t =? -1) with false by lia.
      rewrite (dump_ok m (within 0 (snd m)) (at_ v) v (Z.to_nat (zlen v)) _ (pt_root t) 0 (zlen v)); auto; try lia.
      + cbn [bind app]. unfold slice. rewrite Z.sub_0_r. cbn [Z.to_nat skipn]. unfold zlen. rewrite Nat2Z.id, firstn_all. eauto.
      + unfold within. lia.
    - eexists; split; [reflexivity|]. split; [unfold Mem in *; cbn; pose proof (zlen_nonneg (fst m)); lia|]. cbn. split; [discriminate|constructor].
  Qed.

  Lemma ps_history_ ops : snd (run (ps_spec op e) (true, []) ops) <> UB ->
    run (ps_step op e) (([], 0), []) ops = run (ps_spec op e) (true, []) ops.
  Proof.
    intro H. apply (run_sim _ _ Inv); auto; [apply sim|]. split; [unfold Mem; cbn [fst snd]; change (zlen (@nil (pnd T))) with 0; lia|]. split; [reflexivity|constructor].
  Qed.
End PS.

(* building from an empty vector never returns *)
Lemma build_empty_ {T} (op : T -> T -> T) e d fuel : forall s, ps_build_rec op e fuel d s 0 0 = OutOfFuel.
Proof.
  induction fuel as [|fuel IH]; intro s; cbn [ps_build_rec]; auto. destruct (ps_alloc e s) as [s1 p]. change (0 - 0 =? 1) with false. cbv iota zeta.
  change ((0 + 0) / 2) with 0. rewrite IH. reflexivity.
Qed.
