(* PersistentArray *)
From Verif Require Import Base BaseLemmas ListZ Hist PArray_model PArray_spec Heap_spec Heap_proof.

Section PA.
  Context {T : Type}.
  Variable lg : Z.
  Hypothesis Hlg : 0 <= lg.
  Notation mem := (list (pnode T)).
  Let B := 2 ^ lg.
  Lemma B_pos : 1 <= B.
  Proof. pose proof (Z.pow_pos_nonneg 2 lg ltac:(lia) Hlg). unfold B. lia. Qed.
  Lemma shl1 : Z.shiftl 1 lg = B.
  Proof. rewrite Z.shiftl_mul_pow2 by auto. apply Z.mul_1_l. Qed.
  Lemma land_mask id : Z.land id (mask lg) = id mod B.
  Proof. unfold mask. rewrite shl1. unfold B. rewrite <- Z.land_ones by auto. now rewrite Z.ones_equiv, <- Z.sub_1_r. Qed.
  Lemma shr_div x : Z.shiftr x lg = x / B.
  Proof. apply Z.shiftr_div_pow2; auto. Qed.
  Definition dig (d : Z) : Z := if d =? 0 then B else d.
  Lemma dig_eq id : 0 < id -> id = dig (id mod B) + B * ((id - 1) / B).
  Proof.
    intro H. pose proof B_pos. unfold dig. pose proof (Z.div_mod id B ltac:(lia)) as E. pose proof (Z.mod_pos_bound id B ltac:(lia)).
    destruct (Z.eqb_spec (id mod B) 0) as [Q|Q].
    - replace ((id - 1) / B) with (id / B - 1); [lia|]. apply (Z.div_unique (id - 1) B (id / B - 1) (B - 1)); lia.
    - replace ((id - 1) / B) with (id / B); [lia|]. apply (Z.div_unique (id - 1) B (id / B) (id mod B - 1)); lia.
  Qed.
  Lemma dig_pos d : 0 <= d < B -> 1 <= dig d <= B.
  Proof. unfold dig. destruct (Z.eqb_spec d 0); lia. Qed.
  Lemma pred_div id : 0 < id -> 0 <= (id - 1) / B < id.
  Proof. intro H. pose proof B_pos. split; [apply Z.div_pos; lia|]. pose proof (Z.div_le_upper_bound (id - 1) B (id - 1) ltac:(lia) ltac:(nia)). lia. Qed.

  Notation ng := (@node_get T lg).
  Notation nv := (@node_val T lg).
  Lemma ng_fuel (m : mem) f : forall f' p id, 0 <= id -> (Z.to_nat id < f)%nat -> (Z.to_nat id < f')%nat ->
    loop f (fun '(node, id) =>
      if id =? 0 then Ok (inr node) else
      let* nd := vget m node in
      let* q := vget (pch nd) (Z.land id (mask lg)) in
      Ok (inl (q, Z.shiftr (id - 1) lg))) (p, id) =
    loop f' (fun '(node, id) =>
      if id =? 0 then Ok (inr node) else
      let* nd := vget m node in
      let* q := vget (pch nd) (Z.land id (mask lg)) in
      Ok (inl (q, Z.shiftr (id - 1) lg))) (p, id).
  Proof.
    induction f as [|f IH]; intros [|f'] p id H H1 H2; try lia. cbn [loop]. destruct (Z.eqb_spec id 0); auto.
    destruct (vget m p) as [nd| | |]; auto. cbn [bind]. destruct (vget (pch nd) (Z.land id (mask lg))) as [q| | |]; auto. cbn [bind].
    rewrite shr_div. pose proof (pred_div id ltac:(lia)). apply IH; lia.
  Qed.
  Lemma ng_eq (m : mem) p id : 0 <= id -> ng m p id =
    if id =? 0 then Ok p else let* nd := vget m p in let* q := vget (pch nd) (id mod B) in ng m q ((id - 1) / B).
  Proof.
    intro H. unfold node_get at 1. cbn [loop]. destruct (Z.eqb_spec id 0); auto.
    destruct (vget m p) as [nd| | |]; auto. cbn [bind]. rewrite land_mask. destruct (vget (pch nd) (id mod B)) as [q| | |]; auto. cbn [bind].
    rewrite shr_div. pose proof (pred_div id ltac:(lia)). apply ng_fuel; lia.
  Qed.
  Lemma ng_0 m p : ng m p 0 = Ok p.
  Proof. rewrite ng_eq by lia. reflexivity. Qed.
  Lemma id_ind (P : Z -> Prop) : (forall id, 0 <= id -> (id <> 0 -> P ((id - 1) / B)) -> P id) -> forall id, 0 <= id -> P id.
  Proof.
    intros H id H0. apply (Zlt_0_ind P); auto. intros x IH Hx. apply H; auto. intro N. apply IH. apply pred_div. lia.
  Qed.

  (* simulation of walks *)
  Lemma sim (m' m : mem) (R : Z -> Z -> Prop) :
    (forall x y, R x y -> (vget m' x = UB /\ vget m y = UB) \/
       exists nx ny, vget m' x = Ok nx /\ vget m y = Ok ny /\ zlen (pch nx) = B /\ zlen (pch ny) = B /\
         forall d qx qy, vget (pch nx) d = Ok qx -> vget (pch ny) d = Ok qy -> R qx qy) ->
    forall id, 0 <= id -> forall x y, R x y ->
      (ng m' x id = UB /\ ng m y id = UB) \/ exists a b, ng m' x id = Ok a /\ ng m y id = Ok b /\ R a b.
  Proof.
    intros H. apply (id_ind (fun id => forall x y, R x y -> (ng m' x id = UB /\ ng m y id = UB) \/ exists a b, ng m' x id = Ok a /\ ng m y id = Ok b /\ R a b)).
    intros id H0 IH x y Rxy. rewrite !ng_eq by auto. destruct (Z.eqb_spec id 0) as [->|N]; [right; eauto|].
    destruct (H x y Rxy) as [(-> & ->)|(nx & ny & -> & -> & Bx & By & C)]; [left; auto|]. cbn [bind].
    pose proof B_pos. pose proof (Z.mod_pos_bound id B ltac:(lia)).
    destruct (vget_Ok (pch nx) (id mod B) ltac:(lia)) as (qx & Ex). destruct (vget_Ok (pch ny) (id mod B) ltac:(lia)) as (qy & Ey).
    rewrite Ex, Ey. cbn [bind]. apply IH; eauto.
  Qed.
  Lemma sim_val (m' m : mem) (R : Z -> Z -> Prop) :
    (forall x y, R x y -> (vget m' x = UB /\ vget m y = UB) \/
       exists nx ny, vget m' x = Ok nx /\ vget m y = Ok ny /\ pval nx = pval ny /\ zlen (pch nx) = B /\ zlen (pch ny) = B /\
         forall d qx qy, vget (pch nx) d = Ok qx -> vget (pch ny) d = Ok qy -> R qx qy) ->
    forall id x y, 0 <= id -> R x y -> nv m' x id = nv m y id.
  Proof.
    intros H id x y H0 Rxy. unfold node_val. destruct (sim m' m R) with (id := id) (x := x) (y := y) as [(-> & ->)|(a & b & -> & -> & Rab)]; auto.
    - intros u v Ruv. destruct (H u v Ruv) as [|(nx & ny & E1 & E2 & _ & E3)]; [auto|right; eauto].
    - cbn [bind]. destruct (H a b Rab) as [(-> & ->)|(nx & ny & -> & -> & E & _)]; auto. cbn [bind]. now rewrite E.
  Qed.

  (* every node stands for one index *)
  Definition wf (m : mem) (L K : Z -> Z) : Prop :=
    forall i nd, vget m i = Ok nd -> zlen (pch nd) = B /\ 0 <= K i /\
      forall d q, vget (pch nd) d = Ok q -> q = -1 \/ (0 <= q < zlen m /\ L q = L i + dig d * B ^ K i /\ K q = K i + 1).
  Definition ptr (m : mem) (p : Z) : Prop := p = -1 \/ 0 <= p < zlen m.
  Lemma vget_null {A} (v : list A) : vget v (-1) = UB.
  Proof. apply vget_UB. lia. Qed.
  Lemma frame m m' L K : wf m L K -> (forall i, 0 <= i < zlen m -> vget m' i = vget m i) -> forall p id, 0 <= id -> ptr m p ->
    ng m' p id = ng m p id /\ nv m' p id = nv m p id.
  Proof.
    intros W F p id H0 Hp.
    assert (C : forall x y, x = y /\ ptr m x -> (vget m' x = UB /\ vget m y = UB) \/
       exists nx ny, vget m' x = Ok nx /\ vget m y = Ok ny /\ pval nx = pval ny /\ zlen (pch nx) = B /\ zlen (pch ny) = B /\
         forall d qx qy, vget (pch nx) d = Ok qx -> vget (pch ny) d = Ok qy -> qx = qy /\ ptr m qx).
    { intros x y (<- & [->|Hx]); [left; split; apply vget_null|]. right. rewrite (F x Hx). destruct (vget_Ok m x Hx) as (nd & E).
      destruct (W x nd E) as (Bn & _ & C). exists nd, nd. split; auto. split; auto. split; auto. split; auto. split; auto.
      intros d qx qy E1 E2. split; [congruence|]. destruct (C d qx E1) as [|(H & _)]; [now left|now right]. }
    split.
    - destruct (sim m' m (fun x y => x = y /\ ptr m x)) with (id := id) (x := p) (y := p) as [(-> & ->)|(a & b & -> & -> & -> & _)]; auto.
      intros x y Rxy. destruct (C x y Rxy) as [|(nx & ny & E1 & E2 & _ & E3)]; [auto|right; eauto].
    - apply (sim_val m' m (fun x y => x = y /\ ptr m x)); auto.
  Qed.
  Lemma label m L K : wf m L K -> forall id, 0 <= id -> forall p q, ptr m p -> ng m p id = Ok q -> q = -1 \/ (0 <= q < zlen m /\ 0 <= p < zlen m /\ L q = L p + id * B ^ K p).
  Proof.
    intros W. apply (id_ind (fun id => forall p q, ptr m p -> ng m p id = Ok q -> q = -1 \/ (0 <= q < zlen m /\ 0 <= p < zlen m /\ L q = L p + id * B ^ K p))).
    intros id H0 IH p q Hp E. rewrite ng_eq in E by auto. destruct (Z.eqb_spec id 0) as [->|N].
    - injection E as <-. destruct Hp as [->|Hp]; [now left|right]. split; auto. split; auto. lia.
    - destruct (vget m p) as [nd| | |] eqn:En; try discriminate. cbn [bind] in E. destruct (vget (pch nd) (id mod B)) as [c| | |] eqn:Ec; try discriminate. cbn [bind] in E.
      destruct (W p nd En) as (_ & Kp & C). pose proof (vget_range _ _ _ En). destruct (C _ _ Ec) as [->|(Hc & Lc & Kc)].
      + destruct (IH N (-1) q (or_introl eq_refl) E) as [|(_ & ? & _)]; [now left|lia].
      + destruct (IH N c q (or_intror Hc) E) as [|(Hq & _ & Lq)]; [now left|right]. split; auto. split; auto.
        rewrite Lq, Lc, Kc. rewrite Z.pow_add_r, Z.pow_1_r by lia. rewrite (dig_eq id) at 3 by lia. ring.
  Qed.
  Lemma nv_cases m L K p id : wf m L K -> 0 <= id -> ptr m p -> nv m p id = UB \/ exists c nd, ng m p id = Ok c /\ vget m c = Ok nd /\ nv m p id = Ok (pval nd).
  Proof.
    intros W H0 Hp. unfold node_val. destruct (sim m m (fun x y => x = y /\ ptr m x)) with (id := id) (x := p) (y := p) as [(-> & _)|(a & b & Ea & _ & _ & Pa)]; auto.
    - intros x y (<- & [->|Hx]); [left; split; apply vget_null|]. right. destruct (vget_Ok m x Hx) as (nd & E).
      destruct (W x nd E) as (Bn & _ & C). exists nd, nd. repeat split; auto; [congruence|]. destruct (C d qx H) as [|(Hq & _)]; [now left|now right].
    - rewrite Ea. cbn [bind]. destruct Pa as [->|Ha]; [left; now rewrite vget_null|]. right. destruct (vget_Ok m a Ha) as (nd & E). rewrite E. eauto.
  Qed.

  (* appending a node *)
  Lemma wf_app m L K nd l k : wf m L K -> zlen (pch nd) = B -> 0 <= k ->
    (forall d q, vget (pch nd) d = Ok q -> q = -1 \/ (0 <= q < zlen m /\ L q = l + dig d * B ^ k /\ K q = k + 1)) ->
    wf (m ++ [nd]) (fun i => if i =? zlen m then l else L i) (fun i => if i =? zlen m then k else K i).
  Proof.
    intros W Hn Hk C i nd' E. pose proof (vget_range _ _ _ E) as R. rewrite zlen_app, zlen_one in *.
    destruct (Z.eqb_spec i (zlen m)) as [->|N].
    - rewrite vget_mid in E by auto. injection E as <-. split; auto. split; auto. intros d q Eq.
      destruct (C d q Eq) as [|(Hq & C1 & C2)]; [now left|right]. destruct (Z.eqb_spec q (zlen m)); [lia|]. split; [lia|auto].
    - rewrite vget_app1 in E by lia. destruct (W i nd' E) as (H1 & H2 & H3). split; auto. split; auto. intros d q Eq.
      destruct (H3 d q Eq) as [|(Hq & C1 & C2)]; [now left|right]. destruct (Z.eqb_spec q (zlen m)); [lia|]. split; [lia|auto].
  Qed.
  (* overwriting a child pointer *)
  Lemma wf_child m L K c nd d q : wf m L K -> vget m c = Ok nd -> 0 <= d < B -> 0 <= q < zlen m -> L q = L c + dig d * B ^ K c -> K q = K c + 1 ->
    wf (zupd m c (PN (zupd (pch nd) d q) (pval nd))) L K.
  Proof.
    intros W E Hd Hq Lq Kq i nd' E'. pose proof (vget_range _ _ _ E) as Rc. pose proof (vget_range _ _ _ E') as R. rewrite zlen_zupd in *.
    destruct (W c nd E) as (H1 & H2 & H3).
    rewrite vget_zupd in E' by lia. destruct (Z.eqb_spec c i) as [<-|N].
    - injection E' as <-. cbn [pch]. rewrite zlen_zupd. split; auto. split; auto. intros e q' Eq. rewrite vget_zupd in Eq by lia.
      destruct (Z.eqb_spec d e) as [<-|Ne]; [injection Eq as <-; right; auto|]. apply H3. exact Eq.
    - apply W. exact E'.
  Qed.
  Lemma wf_val m L K c nd x : wf m L K -> vget m c = Ok nd -> wf (zupd m c (PN (pch nd) x)) L K.
  Proof.
    intros W E i nd' E'. pose proof (vget_range _ _ _ E) as Rc. rewrite vget_zupd in E' by lia. rewrite zlen_zupd.
    destruct (Z.eqb_spec c i) as [<-|N]; [injection E' as <-; exact (W c nd E)|]. now apply W.
  Qed.
  Lemma set_val_ok m L K c nd x : wf m L K -> vget m c = Ok nd ->
    set_val m c x = Ok (zupd m c (PN (pch nd) x)) /\
    (forall p j, 0 <= j -> ptr m p -> ng (zupd m c (PN (pch nd) x)) p j = ng m p j) /\
    (forall p j, 0 <= j -> ptr m p -> nv (zupd m c (PN (pch nd) x)) p j = match ng m p j with Ok c' => if c' =? c then Ok x else nv m p j | _ => nv m p j end).
  Proof.
    intros W E. pose proof (vget_range _ _ _ E) as Rc. split; [unfold set_val; rewrite E; cbn [bind]; now rewrite vset_ok by lia|].
    set (m' := zupd m c (PN (pch nd) x)).
    assert (G : forall p j, 0 <= j -> ptr m p -> ng m' p j = ng m p j).
    { intros p j Hj Hp. destruct (sim m' m (fun x y => x = y /\ ptr m x)) with (id := j) (x := p) (y := p) as [(-> & ->)|(a & b & -> & -> & -> & _)]; auto.
      intros u v (<- & [->|Hu]); [left; split; apply vget_null|]. right. destruct (vget_Ok m u Hu) as (nu & Eu).
      destruct (W u nu Eu) as (Bn & _ & C). exists (if c =? u then PN (pch nd) x else nu), nu. unfold m'. rewrite vget_zupd by lia.
      split; [destruct (c =? u); auto|]. split; auto.
      assert (P : pch (if c =? u then PN (pch nd) x else nu) = pch nu) by (destruct (Z.eqb_spec c u) as [<-|]; auto; cbn [pch]; congruence).
      rewrite P. split; auto. split; auto. intros d qx qy E1 E2. split; [congruence|]. destruct (C d qx E1) as [|(Hq & _)]; [now left|now right]. }
    split; auto. intros p j Hj Hp. unfold node_val. rewrite G by auto. destruct (ng m p j) as [c'| | |] eqn:Ec; auto. cbn [bind].
    unfold m'. rewrite vget_zupd by lia. rewrite (Z.eqb_sym c c'). destruct (Z.eqb_spec c' c); auto.
  Qed.

  (* paths *)
  Inductive path (m : mem) : Z -> Z -> Z -> Z -> Prop :=
  | path_refl p id : path m p id p id
  | path_step p id nd q c id' : 0 < id -> vget m p = Ok nd -> vget (pch nd) (id mod B) = Ok q -> path m q ((id - 1) / B) c id' -> path m p id c id'.
  Lemma path_get m p id c id' : path m p id c id' -> 0 <= id -> ng m p id = ng m c id' /\ 0 <= id'.
  Proof.
    induction 1 as [|p id nd q c id' H E1 E2 P IH]; intro H0; auto. rewrite ng_eq by auto. destruct (Z.eqb_spec id 0); [lia|].
    rewrite E1. cbn [bind]. rewrite E2. cbn [bind]. apply IH. apply pred_div. lia.
  Qed.
  Lemma path_snoc m p id c id' nd q : path m p id c id' -> 0 < id' -> vget m c = Ok nd -> vget (pch nd) (id' mod B) = Ok q -> path m p id q ((id' - 1) / B).
  Proof. induction 1; intros H' E1 E2; econstructor; eauto. constructor. Qed.
  Lemma path_K m L K p id c id' : wf m L K -> path m p id c id' -> 0 <= c < zlen m -> p = -1 \/ K p <= K c.
  Proof.
    intros W. induction 1 as [|p id nd q c id' H E1 E2 P IH]; intro Hc; [right; lia|]. destruct (IH Hc) as [->|Kq].
    - inversion P; subst; [lia|]. rewrite vget_null in *. discriminate.
    - right. destruct (W p nd E1) as (_ & _ & C). destruct (C _ _ E2) as [->|(_ & _ & Kq')]; [|lia].
      inversion P; subst; [lia|]. rewrite vget_null in *. discriminate.
  Qed.
  Lemma path_frame m m' L K p id c id' : wf m L K -> 0 <= c < zlen m -> (forall i, 0 <= i < zlen m -> i <> c -> vget m' i = vget m i) ->
    path m p id c id' -> path m' p id c id'.
  Proof.
    intros W Hc F. induction 1 as [|p id nd q c id' H E1 E2 P IH]; [constructor|]. econstructor; eauto.
    rewrite F; eauto using vget_range. intros ->. destruct (path_K m L K _ _ _ _ W P Hc) as [->|Kq].
    - inversion P; subst; [lia|]. rewrite vget_null in *. discriminate.
    - destruct (W c nd E1) as (_ & _ & C). destruct (C _ _ E2) as [->|(_ & _ & Kq')]; [|lia].
      inversion P; subst; [lia|]. rewrite vget_null in *. discriminate.
  Qed.

  (* set *)
  Section Set_.
    Variable m0 : mem.
    Variables p0 r id : Z.
    Hypothesis Hid : 0 <= id.
    Definition sinv (m : mem) (L K : Z -> Z) (cur id' : Z) : Prop :=
      wf m L K /\ zlen m0 <= zlen m /\ (forall i, 0 <= i < zlen m0 -> vget m i = vget m0 i) /\ zlen m0 <= cur < zlen m /\
      zlen m0 <= r < zlen m /\ L r = 0 /\ K r = 0 /\ path m r id cur id' /\ (forall j, 0 <= j -> nv m r j = nv m0 p0 j).
    Lemma zn0 : 0 <= zlen m0.
    Proof. apply zlen_nonneg. Qed.
    Lemma set_step m L K cur id' nd q nq : sinv m L K cur id' -> 0 < id' -> vget m cur = Ok nd -> vget (pch nd) (id' mod B) = Ok q -> vget m q = Ok nq ->
      exists L' K', sinv (zupd (m ++ [nq]) cur (PN (zupd (pch nd) (id' mod B) (zlen m)) (pval nd))) L' K' (zlen m) ((id' - 1) / B) /\
        (forall i, 0 <= i < zlen m0 -> L' i = L i /\ K' i = K i).
    Proof.
      intros (W & H1 & H2 & H3 & H4 & L0 & K0 & P & V) Hi Ec Eq Enq. pose proof B_pos. pose proof zn0. pose proof (Z.mod_pos_bound id' B ltac:(lia)) as Hd.
      set (d := id' mod B) in *. set (L' := fun i => if i =? zlen m then L q else L i). set (K' := fun i => if i =? zlen m then K q else K i).
      pose proof (vget_range _ _ _ Enq) as Rq. destruct (W cur nd Ec) as (Bn & Kc & Cc). destruct (Cc d q Eq) as [->|(_ & Lq & Kq)]; [lia|].
      destruct (W q nq Enq) as (Bq & Kq0 & Cq).
      assert (W1 : wf (m ++ [nq]) L' K') by (apply wf_app; auto).
      assert (Ec1 : vget (m ++ [nq]) cur = Ok nd) by (rewrite vget_app1 by lia; auto).
      assert (NL : L' (zlen m) = L q /\ K' (zlen m) = K q) by (unfold L', K'; now rewrite Z.eqb_refl).
      assert (OL : forall i, i <> zlen m -> L' i = L i /\ K' i = K i) by (intros i Ni; unfold L', K'; destruct (Z.eqb_spec i (zlen m)); auto; lia).
      destruct NL as (NL & NK). destruct (OL cur ltac:(lia)) as (OL1 & OK1). destruct (OL r ltac:(lia)) as (OL2 & OK2).
      assert (W2 : wf (zupd (m ++ [nq]) cur (PN (zupd (pch nd) d (zlen m)) (pval nd))) L' K').
      { apply wf_child; auto; rewrite ?zlen_app, ?zlen_one; try lia. rewrite NL, OL1, OK1. exact Lq. }
      set (m3 := zupd (m ++ [nq]) cur (PN (zupd (pch nd) d (zlen m)) (pval nd))) in *.
      assert (Z3 : zlen m3 = zlen m + 1) by (unfold m3; rewrite zlen_zupd, zlen_app, zlen_one; lia).
      assert (G : forall i, 0 <= i < zlen m -> i <> cur -> vget m3 i = vget m i).
      { intros i Hi' Ni. unfold m3. rewrite vget_zupd by (rewrite zlen_app, zlen_one; lia). destruct (Z.eqb_spec cur i); [lia|]. now rewrite vget_app1 by lia. }
      assert (Gc : vget m3 cur = Ok (PN (zupd (pch nd) d (zlen m)) (pval nd))).
      { unfold m3. rewrite vget_zupd by (rewrite zlen_app, zlen_one; lia). now rewrite Z.eqb_refl. }
      assert (Gq : vget m3 (zlen m) = Ok nq).
      { unfold m3. rewrite vget_zupd by (rewrite zlen_app, zlen_one; lia). destruct (Z.eqb_spec cur (zlen m)); [lia|]. now apply vget_mid. }
      exists L', K'. split; [|intros i Hi'; apply OL; lia]. split; auto. split; [lia|].
      split; [intros i Hi'; rewrite G by lia; now apply H2|]. split; [lia|]. split; [lia|]. split; [now rewrite OL2|]. split; [now rewrite OK2|]. split.
      - eapply path_snoc; [apply (path_frame m m3 L K r id cur id' W); [lia|exact G|exact P]|auto|exact Gc|]. cbn [pch]. fold d. rewrite vget_zupd by lia. now rewrite Z.eqb_refl.
      - intros j Hj. rewrite <- V by auto. apply (sim_val m3 m (fun x y => (x = y /\ ptr m x) \/ (x = zlen m /\ y = q))); auto; [|left; split; auto; right; lia].
        intros x y [(<- & [->|Hx])|(-> & ->)]; [left; split; apply vget_null| |].
        + right. destruct (vget_Ok m x Hx) as (nx & Ex). destruct (W x nx Ex) as (Bx & _ & Cx). destruct (Z.eq_dec x cur) as [->|N].
          * assert (nx = nd) by congruence. subst nx. exists (PN (zupd (pch nd) d (zlen m)) (pval nd)), nd. split; auto. split; auto. split; auto. cbn [pch].
            rewrite zlen_zupd. split; auto. split; auto. intros e qx qy E1 E2. rewrite vget_zupd in E1 by lia. destruct (Z.eqb_spec d e) as [<-|Ne].
            -- right. split; congruence.
            -- left. split; [congruence|]. destruct (Cx e qx) as [|(Hq & _)]; [congruence|now left|now right].
          * exists nx, nx. rewrite G by auto. split; auto. split; auto. split; auto. split; auto. split; auto. intros e qx qy E1 E2. left. split; [congruence|].
            destruct (Cx e qx E1) as [|(Hq & _)]; [now left|now right].
        + right. exists nq, nq. split; auto. split; auto. split; auto. split; auto. split; auto. intros e qx qy E1 E2. left. split; [congruence|].
          destruct (Cq e qx E1) as [|(Hq & _)]; [now left|now right].
    Qed.
    Lemma set_loop : forall f m L K cur id', sinv m L K cur id' -> (Z.to_nat id' < f)%nat -> 0 <= id' ->
      let o := loop f (fun '(m, cur, id) =>
        if id =? 0 then Ok (inr (m, cur)) else
        let* nd := vget m cur in
        let* q := vget (pch nd) (Z.land id (mask lg)) in
        let* (m, q') := clone m q in
        let* m := set_child m cur (Z.land id (mask lg)) q' in
        Ok (inl (m, q', Z.shiftr (id - 1) lg))) (m, cur, id') in
      (o = UB /\ nv m0 p0 id = UB) \/ exists m' L' K' cur', o = Ok (m', cur') /\ sinv m' L' K' cur' 0 /\ (forall i, 0 <= i < zlen m0 -> L' i = L i /\ K' i = K i).
    Proof.
      induction f as [|f IH]; intros m L K cur id' I Hf Hi; [lia|]. cbn [loop]. cbv zeta. destruct (Z.eqb_spec id' 0) as [->|N]; [right; exists m, L, K, cur; auto|].
      pose proof I as (W & H1 & H2 & H3 & H4 & L0 & K0 & P & V). pose proof zn0. pose proof B_pos. pose proof (Z.mod_pos_bound id' B ltac:(lia)) as Hd. pose proof (pred_div id' ltac:(lia)) as Hp.
      destruct (vget_Ok m cur ltac:(lia)) as (nd & Ec). rewrite Ec. cbn [bind]. rewrite land_mask. destruct (W cur nd Ec) as (Bn & _ & Cc).
      destruct (vget_Ok (pch nd) (id' mod B) ltac:(lia)) as (q & Eq). rewrite Eq. cbn [bind].
      destruct (vget_cases m q) as [(nq & Enq)|Enq].
      - destruct (set_step m L K cur id' nd q nq I ltac:(lia) Ec Eq Enq) as (L' & K' & I' & A').
        unfold clone. rewrite Enq. cbn [bind]. unfold set_child. rewrite vget_app1 by lia. rewrite Ec. cbn [bind].
        rewrite vset_ok by lia. cbn [bind]. rewrite vset_ok by (rewrite zlen_app, zlen_one; lia). cbn [bind]. rewrite shr_div.
        destruct (IH _ _ _ _ _ I' ltac:(lia) ltac:(lia)) as [O|(m2 & L2 & K2 & c2 & O & I2 & A2)]; [left; exact O|right].
        exists m2, L2, K2, c2. split; [exact O|]. split; auto. intros i Hi'. destruct (A' i Hi') as (<- & <-). now apply A2.
      - left. unfold clone. rewrite Enq. split; auto. rewrite <- V by auto. unfold node_val. rewrite (proj1 (path_get _ _ _ _ _ P Hid)).
        rewrite ng_eq by auto. destruct (Z.eqb_spec id' 0); [lia|]. rewrite Ec. cbn [bind]. rewrite Eq. cbn [bind].
        rewrite ng_eq by lia. destruct (Z.eqb_spec ((id' - 1) / B) 0); cbn [bind]; now rewrite Enq.
    Qed.
  End Set_.
  Lemma set_ok m0 L K p0 id x : wf m0 L K -> 0 <= id -> ptr m0 p0 -> (p0 <> -1 -> L p0 = 0 /\ K p0 = 0) ->
    (node_set lg m0 p0 id x = UB /\ nv m0 p0 id = UB) \/
    exists m' r L' K', node_set lg m0 p0 id x = Ok (m', r) /\ nv m0 p0 id <> UB /\ wf m' L' K' /\ zlen m0 <= zlen m' /\ (forall i, 0 <= i < zlen m0 -> vget m' i = vget m0 i) /\
      (forall i, 0 <= i < zlen m0 -> L' i = L i /\ K' i = K i) /\ 0 <= r < zlen m' /\ L' r = 0 /\ K' r = 0 /\
      (forall j, 0 <= j -> nv m' r j = if j =? id then Ok x else nv m0 p0 j).
  Proof.
    intros W Hid Hp H0. remember (node_set lg m0 p0 id x) as o eqn:Eo. unfold node_set in Eo. unfold clone at 1 in Eo. destruct Hp as [->|Hp].
    { left. rewrite vget_null in Eo. split; auto. unfold node_val. rewrite ng_eq by auto. rewrite vget_null. destruct (id =? 0); cbn [bind]; auto. }
    destruct (H0 ltac:(lia)) as (Lp & Kp). destruct (vget_Ok m0 p0 Hp) as (nd & E). rewrite E in Eo. cbn [bind] in Eo. destruct (W p0 nd E) as (Bn & _ & C).
    set (L1 := fun i => if i =? zlen m0 then 0 else L i). set (K1 := fun i => if i =? zlen m0 then 0 else K i).
    assert (W1 : wf (m0 ++ [nd]) L1 K1).
    { apply wf_app; auto; [lia|]. intros d q Eq. destruct (C d q Eq) as [|(Hq & Lq & Kq)]; [now left|right]. split; auto. rewrite Lq, Kq, Lp, Kp. auto. }
    assert (I : sinv m0 p0 (zlen m0) id (m0 ++ [nd]) L1 K1 (zlen m0) id).
    { split; auto. rewrite zlen_app, zlen_one. pose proof (zlen_nonneg m0). split; [lia|]. split; [intros i Hi; now rewrite vget_app1 by lia|]. split; [lia|]. split; [lia|].
      unfold L1, K1. rewrite Z.eqb_refl. split; auto. split; auto. split; [constructor|].
      intros j Hj. apply (sim_val (m0 ++ [nd]) m0 (fun x y => (x = y /\ ptr m0 x) \/ (x = zlen m0 /\ y = p0))); auto.
      intros u v [(<- & [->|Hu])|(-> & ->)]; [left; split; apply vget_null| |].
      - right. destruct (vget_Ok m0 u Hu) as (nu & Eu). destruct (W u nu Eu) as (Bu & _ & Cu). exists nu, nu. rewrite vget_app1 by lia.
        split; auto. split; auto. split; auto. split; auto. split; auto. intros d qx qy E1 E2. left. split; [congruence|]. destruct (Cu d qx E1) as [|(Hq & _)]; [now left|now right].
      - right. exists nd, nd. rewrite vget_mid by auto.
        split; auto. split; auto. split; auto. split; auto. split; auto. intros d qx qy E1 E2. left. split; [congruence|]. destruct (C d qx E1) as [|(Hq & _)]; [now left|now right]. }
    destruct (set_loop m0 p0 (zlen m0) id Hid (S (Z.to_nat id)) _ _ _ _ _ I ltac:(lia) Hid) as [(O & V)|(m' & L' & K' & cur & O & I' & A')].
    { left. cbv zeta in O. rewrite O in Eo. auto. }
    right. cbv zeta in O. rewrite O in Eo. cbn [bind] in Eo. destruct I' as (W' & H1 & H2 & H3 & H4 & L0 & K0 & P & V).
    destruct (vget_Ok m' cur ltac:(pose proof (zlen_nonneg m0); lia)) as (nc & Ec). destruct (set_val_ok m' L' K' cur nc x W' Ec) as (Es & _ & Vs). rewrite Es in Eo. cbn [bind] in Eo.
    pose proof (zlen_nonneg m0). assert (Gid : ng m' (zlen m0) id = Ok cur) by (rewrite (proj1 (path_get _ _ _ _ _ P Hid)); apply ng_0).
    exists (zupd m' cur (PN (pch nc) x)), (zlen m0), L', K'. split; auto.
    split. { rewrite <- V by auto. unfold node_val. rewrite Gid. cbn [bind]. rewrite Ec. cbn [bind]. discriminate. }
    split; [now apply wf_val|]. rewrite zlen_zupd. split; auto. split; [intros i Hi; rewrite vget_zupd by lia; destruct (Z.eqb_spec cur i); [lia|]; now apply H2|].
    split. { intros i Hi. destruct (A' i Hi) as (-> & ->). unfold L1, K1. destruct (Z.eqb_spec i (zlen m0)); [lia|auto]. }
    split; [lia|]. split; auto. split; auto. intros j Hj. rewrite Vs by (auto; right; lia). destruct (Z.eqb_spec j id) as [->|N]; [rewrite Gid, Z.eqb_refl; auto|].
    destruct (ng m' (zlen m0) j) as [c'| | |] eqn:Eg; try now apply V. destruct (Z.eqb_spec c' cur) as [->|]; [|now apply V]. exfalso. assert (P0 : ptr m' (zlen m0)) by (right; lia).
    destruct (label m' L' K' W' j Hj _ _ P0 Eg) as [|(_ & _ & E1)]; [lia|]. destruct (label m' L' K' W' id Hid _ _ P0 Gid) as [|(_ & _ & E2)]; [lia|].
    rewrite L0, K0 in E1, E2. rewrite Z.pow_0_r in *. lia.
  Qed.

  (* build *)
  Lemma new_node_eq (m : mem) x : new_node lg m x = (m ++ [PN (vrep B (-1)) x], zlen m).
  Proof. unfold new_node. now rewrite shl1. Qed.
  Section Build.
    Variable init : list T.
    Notation n := (zlen init).
    Section Node.
      Variable m0 : mem.
      Variables L0 K0 : Z -> Z.
      Variables id p : Z.
      Variable x0 : T.
      Let cur := zlen m0 - 1.
      Definition binv (m : mem) (L K : Z -> Z) (S : Z -> Prop) : Prop :=
        wf m L K /\ zlen m0 <= zlen m /\ (forall i, 0 <= i < cur -> vget m i = vget m0 i) /\
        (forall i, i < zlen m0 -> L i = L0 i /\ K i = K0 i) /\
        (forall i nd d q, cur <= i -> vget m i = Ok nd -> vget (pch nd) d = Ok q -> q = -1 \/ i < q < zlen m) /\
        exists nd, vget m cur = Ok nd /\ pval nd = x0 /\ zlen (pch nd) = B /\
          forall d, 0 <= d < B -> (S d /\ exists q, vget (pch nd) d = Ok q /\ cur < q < zlen m /\
              forall rest, 0 <= rest -> nv m q rest = vget init (id + p * dig d + p * B * rest)) \/
            (~ S d /\ vget (pch nd) d = Ok (-1)).
      Definition dfs_post (m : mem) (L K : Z -> Z) : Prop :=
        wf m L K /\ zlen m0 <= zlen m /\ (forall i, 0 <= i < cur -> vget m i = vget m0 i) /\
        (forall i, i < zlen m0 -> L i = L0 i /\ K i = K0 i) /\
        (forall i nd d q, cur <= i -> vget m i = Ok nd -> vget (pch nd) d = Ok q -> q = -1 \/ i < q < zlen m) /\
        (forall rest, 0 <= rest -> nv m cur rest = vget init (id + p * rest)).
      Hypothesis Hcur : 1 <= zlen m0.
      Hypothesis Hp : 1 <= p.
      Hypothesis Hx0 : vget init id = Ok x0.
      Lemma binv_post m L K S : binv m L K S -> (forall d, 0 <= d < B -> ~ S d -> n <= id + p * dig d) -> dfs_post m L K.
      Proof.
        intros (W & H1 & H2 & H3 & H4 & nd & E & Ex & Bn & C) HS. split; auto. split; auto. split; auto. split; auto. split; auto.
        intros rest H0. unfold node_val. rewrite ng_eq by auto. destruct (Z.eqb_spec rest 0) as [->|N].
        - cbn [bind]. rewrite E. cbn [bind]. rewrite Z.mul_0_r, Z.add_0_r. congruence.
        - rewrite E. cbn [bind]. pose proof B_pos. pose proof (Z.mod_pos_bound rest B ltac:(lia)) as Hd. pose proof (dig_eq rest ltac:(lia)) as De.
          pose proof (pred_div rest ltac:(lia)) as Hr. destruct (C _ Hd) as [(_ & q & Eq & _ & V)|(NS & Eq)]; rewrite Eq; cbn [bind].
          + specialize (V ((rest - 1) / B) ltac:(lia)). unfold node_val in V. rewrite V. f_equal. rewrite De at 3. ring.
          + rewrite ng_eq by lia. rewrite vget_null. specialize (HS _ Hd NS). pose proof (dig_pos _ Hd). 
            rewrite (vget_UB init); [destruct ((rest - 1) / B =? 0); cbn [bind]; rewrite ?vget_null; auto|]. nia.
      Qed.
    End Node.
    Definition dfs_spec (fuel : nat) : Prop := forall m L K id p x nd, wf m L K -> 1 <= zlen m -> 0 <= id -> 1 <= p -> vget init id = Ok x ->
      vget m (zlen m - 1) = Ok nd -> pval nd = x -> pch nd = vrep B (-1) -> L (zlen m - 1) = id -> p = B ^ K (zlen m - 1) -> n - id < Z.of_nat fuel ->
      exists m' L' K', build_dfs lg fuel init m (zlen m - 1) id p = Ok m' /\ dfs_post m L K id p m' L' K'.
    Lemma add_child fuel m0 L0 K0 id p x0 m L K S d x : dfs_spec fuel -> 1 <= zlen m0 -> 0 <= id -> 1 <= p -> L0 (zlen m0 - 1) = id -> p = B ^ K0 (zlen m0 - 1) -> 0 <= K0 (zlen m0 - 1) ->
      n - (id + p * dig d) < Z.of_nat fuel -> 0 <= d < B -> vget init (id + p * dig d) = Ok x ->
      binv m0 L0 K0 id p x0 m L K S ->
      exists m' L' K', (let* m1 := set_child (m ++ [PN (vrep B (-1)) x]) (zlen m0 - 1) d (zlen m) in build_dfs lg fuel init m1 (zlen m) (id + p * dig d) (p * B)) = Ok m' /\
        binv m0 L0 K0 id p x0 m' L' K' (fun e => e = d \/ S e).
    Proof.
      intros HD Hm0 Hid Hp HL HK HK0 Hf Hd Ex (W & H1 & H2 & H3 & H4 & nd & E & Exx & Bn & C). pose proof B_pos. set (cur := zlen m0 - 1) in *.
      destruct (H3 cur ltac:(lia)) as (Lc & Kc).
      set (L1 := fun i => if i =? zlen m then id + p * dig d else L i). set (K1 := fun i => if i =? zlen m then K cur + 1 else K i).
      set (nn := PN (vrep B (-1)) x).
      assert (W1 : wf (m ++ [nn]) L1 K1).
      { apply wf_app; auto; cbn [pch]; [now apply zlen_vrep; lia|lia|]. intros e q Eq. left. pose proof (vget_range _ _ _ Eq) as R. cbn [pch nn] in R, Eq.
        rewrite zlen_vrep in R by lia. rewrite vget_vrep in Eq by lia. congruence. }
      assert (Ec1 : vget (m ++ [nn]) cur = Ok nd) by (rewrite vget_app1 by lia; auto).
      assert (OL : forall i, i <> zlen m -> L1 i = L i /\ K1 i = K i) by (intros i Ni; unfold L1, K1; destruct (Z.eqb_spec i (zlen m)); auto; lia).
      assert (NL : L1 (zlen m) = id + p * dig d /\ K1 (zlen m) = K cur + 1) by (unfold L1, K1; now rewrite Z.eqb_refl). destruct NL as (NL & NK).
      destruct (OL cur ltac:(lia)) as (OL1 & OK1).
      set (m1 := zupd (m ++ [nn]) cur (PN (zupd (pch nd) d (zlen m)) (pval nd))).
      assert (W2 : wf m1 L1 K1).
      { apply wf_child; auto; rewrite ?zlen_app, ?zlen_one; try lia. rewrite NL, OL1, OK1, Lc, Kc, HL, HK. ring. }
      assert (Z1 : zlen m1 = zlen m + 1) by (unfold m1; rewrite zlen_zupd, zlen_app, zlen_one; lia).
      assert (G : forall i, 0 <= i < zlen m -> i <> cur -> vget m1 i = vget m i).
      { intros i Hi' Ni. unfold m1. rewrite vget_zupd by (rewrite zlen_app, zlen_one; lia). destruct (Z.eqb_spec cur i); [lia|]. now rewrite vget_app1 by lia. }
      assert (Gc : vget m1 cur = Ok (PN (zupd (pch nd) d (zlen m)) (pval nd))).
      { unfold m1. rewrite vget_zupd by (rewrite zlen_app, zlen_one; lia). now rewrite Z.eqb_refl. }
      assert (Gq : vget m1 (zlen m) = Ok nn).
      { unfold m1. rewrite vget_zupd by (rewrite zlen_app, zlen_one; lia). destruct (Z.eqb_spec cur (zlen m)); [lia|]. now apply vget_mid. }
      unfold set_child. rewrite Ec1. cbn [bind]. rewrite vset_ok by lia. cbn [bind]. rewrite vset_ok by (rewrite zlen_app, zlen_one; lia). cbn [bind]. fold m1.
      pose proof (dig_pos d Hd) as Dp.
      destruct (HD m1 L1 K1 (id + p * dig d) (p * B) x nn) as (m' & L' & K' & O & P1 & P2 & P3 & P4 & P5 & P6); auto; try lia; try nia.
      { rewrite Z1. now replace (zlen m + 1 - 1) with (zlen m) by lia. }
      { rewrite Z1. now replace (zlen m + 1 - 1) with (zlen m) by lia. }
      { rewrite Z1. replace (zlen m + 1 - 1) with (zlen m) by lia. rewrite NK, Kc, HK, Z.pow_add_r, Z.pow_1_r by lia. reflexivity. }
      rewrite Z1 in *. replace (zlen m + 1 - 1) with (zlen m) in * by lia.
      exists m', L', K'. split; auto. split; auto. split; [lia|]. split. { intros i Hi. rewrite P3 by lia. rewrite G by lia. apply H2. lia. }
      split. { intros i Hi. destruct (P4 i ltac:(lia)) as (-> & ->). destruct (OL i ltac:(lia)) as (-> & ->). apply H3. lia. }
      split.
      { intros i ni e q Hi Ei Eq. destruct (Z.lt_ge_cases i (zlen m)) as [Li|Li]; [|apply (P5 i ni e q); auto; lia]. rewrite P3 in Ei by lia.
        destruct (Z.eq_dec i cur) as [->|N].
        - rewrite Gc in Ei. injection Ei as <-. cbn [pch] in Eq. rewrite vget_zupd in Eq by lia. destruct (Z.eqb_spec d e); [injection Eq as <-; right; lia|].
          destruct (H4 cur nd e q ltac:(lia) E Eq) as [|Hq]; [now left|right; lia].
        - rewrite G in Ei by lia. destruct (H4 i ni e q ltac:(lia) Ei Eq) as [|Hq]; [now left|right; lia]. }
      exists (PN (zupd (pch nd) d (zlen m)) (pval nd)). rewrite P3 by lia. split; auto. split; auto. cbn [pch]. rewrite zlen_zupd. split; auto.
      intros e He. rewrite vget_zupd by lia. destruct (Z.eqb_spec d e) as [<-|Ne].
      { left. split; auto. exists (zlen m). split; auto. split; [lia|]. intros rest Hr. now apply P6. }
      destruct (C e He) as [(Se & q & Eq & Hq & V)|(NS & Eq)]; [left|right; split; auto; intros [->|]; auto; congruence].
      split; auto. exists q. split; auto. split; [lia|]. intros rest Hr. rewrite <- V by auto.
      apply (sim_val m' m (fun u v => u = v /\ (u = -1 \/ q <= u < zlen m))); auto; [|split; auto; right; lia].
      intros u v (<- & [->|Hu]); [left; split; apply vget_null|]. right. destruct (vget_Ok m u ltac:(lia)) as (nu & Eu). exists nu, nu.
      rewrite P3, G by lia. destruct (W u nu Eu) as (Bu & _ & _). split; auto. split; auto. split; auto. split; auto. split; auto.
      intros b qx qy E1 E2. split; [congruence|]. destruct (H4 u nu b qx ltac:(lia) Eu E1) as [|Hqx]; [now left|right; lia].
    Qed.
    Lemma dfs_ok fuel : dfs_spec fuel.
    Proof.
      induction fuel as [|fuel IH]; intros m L K id p x nd W Hm Hid Hp Ex E Exx Ech HL HK Hf.
      { apply vget_range in Ex. lia. }
      cbn [build_dfs]. rewrite shl1. pose proof B_pos. assert (HK0 : 0 <= K (zlen m - 1)) by (destruct (W _ _ E) as (_ & H1 & _); auto).
      assert (I0 : binv m L K id p x m L K (fun e => 1 <= e < 1)).
      { split; auto. split; [lia|]. split; auto. split; auto. 
        assert (Cn : forall d q, vget (pch nd) d = Ok q -> q = -1).
        { intros d q Eq. pose proof (vget_range _ _ _ Eq) as R. rewrite Ech in *. rewrite zlen_vrep in R by lia. rewrite vget_vrep in Eq by lia. congruence. }
        split. { intros i ni d q Hi Ei Eq. pose proof (vget_range _ _ _ Ei). assert (i = zlen m - 1) by lia. subst i. left. assert (ni = nd) by congruence. subst ni. eauto. }
        exists nd. split; auto. split; auto. rewrite Ech. split; [apply zlen_vrep; lia|]. intros d Hd. right. split; [lia|]. now apply vget_vrep. }
      assert (Shp : Z.shiftl p lg = p * B) by (rewrite Z.shiftl_mul_pow2 by auto; reflexivity). rewrite Shp.
      match goal with |- context [loop ?fu ?bo ?st] =>
        destruct (loop_inv (fun '(m1, d, nid) => 1 <= d <= B /\ nid = id + p * d /\ exists L1 K1, binv m L K id p x m1 L1 K1 (fun e => 1 <= e < d))
          (fun '(_, d, _) => Z.to_nat (B - d))
          (fun '(m1, rest) => match rest with
            | None => exists L1 K1 d, 1 <= d <= B /\ n <= id + p * d /\ binv m L K id p x m1 L1 K1 (fun e => 1 <= e < d)
            | Some nid => nid = id + p * B /\ exists L1 K1, binv m L K id p x m1 L1 K1 (fun e => 1 <= e < B) end) bo fu st) as ((m1, rest) & O & Q) end.
      - split; [lia|]. split; [lia|]. eauto.
      - lia.
      - intros ((m1, d), nid) (Hd & -> & L1 & K1 & I1). cbv beta iota zeta. destruct (Z.ltb_spec d B) as [Ld|Ld].
        + destruct (Z.ltb_spec (id + p * d) n) as [Ln|Ln].
          * assert (Dd : dig d = d) by (unfold dig; destruct (Z.eqb_spec d 0); lia).
            destruct (vget_Ok init (id + p * d) ltac:(nia)) as (y & Ey). rewrite Ey. cbn [bind]. rewrite new_node_eq.
            destruct (add_child fuel m L K id p x m1 L1 K1 (fun e => 1 <= e < d) d y) as (m' & L' & K' & O & I'); auto; rewrite ?Dd; auto; try lia; try nia.
            rewrite Dd in O. 
            destruct (set_child (m1 ++ [PN (vrep B (-1)) y]) (zlen m - 1) d (zlen m1)) as [m2| | |]; cbn [bind] in O |- *; try discriminate.
            rewrite O. cbn [bind]. eexists; split; [reflexivity|]. split; [|lia]. split; [lia|]. split; [lia|]. exists L', K'.
            destruct I' as (J1 & J2 & J3 & J4 & J5 & nd' & J6 & J7 & J8 & J9). split; auto. split; auto. split; auto. split; auto. split; auto.
            exists nd'. split; auto. split; auto. split; auto. intros e He. destruct (J9 e He) as [(Se & J)|(Se & J)]; [left|right]; split; auto; lia.
          * eexists; split; [reflexivity|]. exists L1, K1, d. auto.
        + eexists; split; [reflexivity|]. assert (d = B) by lia. subst d. split; [lia|]. eauto.
      - cbn zeta in O |- *. rewrite O. cbn [bind]. destruct rest as [nid|].
        + destruct Q as (-> & L1 & K1 & I1). destruct (Z.ltb_spec (id + p * B) n) as [Ln|Ln].
          * assert (Dd : dig 0 = B) by reflexivity.
            destruct (vget_Ok init (id + p * B) ltac:(nia)) as (y & Ey). rewrite Ey. cbn [bind]. rewrite new_node_eq.
            destruct (add_child fuel m L K id p x m1 L1 K1 (fun e => 1 <= e < B) 0 y) as (m' & L' & K' & O' & I'); auto; rewrite ?Dd; auto; try lia; try nia.
            rewrite Dd in O'. exists m', L', K'. split; [exact O'|]. eapply binv_post; eauto. intros d Hd NS. cbv beta in NS. exfalso. apply NS. lia.
          * exists m1, L1, K1. split; auto. eapply binv_post; eauto. intros d Hd NS. cbv beta in NS. assert (d = 0) by lia. subst d. exact Ln.
        + destruct Q as (L1 & K1 & d & Hd & Ln & I1). exists m1, L1, K1. split; auto. eapply binv_post; eauto. intros e He NS. cbv beta in NS.
          unfold dig. destruct (Z.eqb_spec e 0); nia.
    Qed.
    Lemma build_ok m L K : wf m L K -> exists m' r L' K', build lg m init = Ok (m', r) /\ wf m' L' K' /\ zlen m <= zlen m' /\
      (forall i, 0 <= i < zlen m -> vget m' i = vget m i) /\ (forall i, i < zlen m -> L' i = L i /\ K' i = K i) /\
      ptr m' r /\ (r <> -1 -> L' r = 0 /\ K' r = 0) /\ (forall j, 0 <= j -> nv m' r j = vget init j).
    Proof.
      intro W. unfold build. pose proof B_pos. pose proof (zlen_nonneg m). destruct (Z.eqb_spec n 0) as [Q|Q].
      - exists m, (-1), L, K. split; auto. split; auto. split; [lia|]. split; auto. split; auto. split; [now left|]. split; [lia|].
        intros j Hj. rewrite (vget_UB init) by lia. unfold node_val. rewrite ng_eq by auto. rewrite vget_null. destruct (j =? 0); cbn [bind]; rewrite ?vget_null; auto.
      - pose proof (zlen_nonneg init). destruct (vget_Ok init 0 ltac:(lia)) as (x & Ex). rewrite Ex. cbn [bind]. rewrite new_node_eq.
        set (nn := PN (vrep B (-1)) x). set (L1 := fun i => if i =? zlen m then 0 else L i). set (K1 := fun i => if i =? zlen m then 0 else K i).
        assert (W1 : wf (m ++ [nn]) L1 K1).
        { apply wf_app; auto; cbn [pch]; [now apply zlen_vrep; lia|lia|]. intros e q Eq. left. pose proof (vget_range _ _ _ Eq) as R. cbn [pch nn] in R, Eq.
          rewrite zlen_vrep in R by lia. rewrite vget_vrep in Eq by lia. congruence. }
        assert (Z1 : zlen (m ++ [nn]) = zlen m + 1) by now rewrite zlen_app, zlen_one.
        destruct (dfs_ok (S (length init)) (m ++ [nn]) L1 K1 0 1 x nn) as (m' & L' & K' & O & P1 & P2 & P3 & P4 & P5 & P6); auto; rewrite ?Z1; try lia;
          replace (zlen m + 1 - 1) with (zlen m) in * by lia.
        { now apply vget_mid. }
        { unfold L1. now rewrite Z.eqb_refl. }
        { unfold K1. rewrite Z.eqb_refl. reflexivity. }
        { unfold zlen. lia. }
        rewrite Z1 in *. replace (zlen m + 1 - 1) with (zlen m) in * by lia. rewrite O. cbn [bind].
        exists m', (zlen m), L', K'. split; auto. split; auto. split; [lia|]. split. { intros i Hi. rewrite P3 by lia. now rewrite vget_app1 by lia. }
        split. { intros i Hi. destruct (P4 i ltac:(lia)) as (-> & ->). unfold L1, K1. destruct (Z.eqb_spec i (zlen m)); [lia|auto]. }
        split; [right; lia|]. split. { intros _. destruct (P4 (zlen m) ltac:(lia)) as (-> & ->). unfold L1, K1. rewrite Z.eqb_refl. auto. }
        intros j Hj. rewrite P6 by auto. f_equal. lia.
    Qed.
  End Build.
End PA.
