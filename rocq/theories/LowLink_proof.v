(* Proofs about LowLink_model: the depth-first search as a derivation. *)
From Verif Require Import Base BaseLemmas ListZ Seq ListMore LowLink_model.

(* preorder, parent, low, id of the edge to the parent, end of the preorder interval *)
Record W := mkW { wP : Z -> Z; wA : Z -> Z; wL : Z -> Z; wT : Z -> Z; wO : Z -> Z }.
Definition acc : Type := Z * Z * bool * Z.

Inductive walk (G : Z -> list (Z * Z)) (w : W) : Z -> list (Z * Z) -> acc -> acc -> list Z -> list Z -> Prop :=
| w_nil u a : walk G w u [] a a [] []
| w_prev u y adj c l ia ch a' bs ars : 0 <= wP w y < c -> walk G w u adj (c, l, ia, ch) a' bs ars -> walk G w u ((y, wT w u) :: adj) (c, l, ia, ch) a' bs ars
| w_skip u y id adj c l ia ch a' bs ars : id <> wT w u -> 0 <= wP w y < c -> walk G w u adj (c, Z.min l (wP w y), ia, ch) a' bs ars ->
    walk G w u ((y, id) :: adj) (c, l, ia, ch) a' bs ars
| w_call u y id adj c l ia ch ia1 ch1 bs1 ars1 a' bs ars : id <> wT w u -> wP w y = c -> wA w y = u -> wT w y = id ->
    walk G w y (G y) (c + 1, c, false, 0) (wO w y, wL w y, ia1, ch1) bs1 ars1 ->
    walk G w u adj (wO w y, Z.min l (wL w y), (if wP w u <=? wL w y then negb (wT w u <? 0) else ia), ch + 1) a' bs ars ->
    walk G w u ((y, id) :: adj) (c, l, ia, ch) a' (bs1 ++ (if wP w u <? wL w y then [id] else []) ++ bs) (ars1 ++ (if ia1 then [y] else []) ++ ars).
Definition a_c (a : acc) : Z := let '(c, _, _, _) := a in c.
Lemma walk_mono G w u adj a a' bs ars : walk G w u adj a a' bs ars -> a_c a <= a_c a'.
Proof. induction 1; cbn [a_c] in *; lia. Qed.

Section D.
  Variable n : Z.
  Variable g : list (list (Z * Z)).
  Variable G : Z -> list (Z * Z).
  Hypothesis Hg : rep g n G.
  Hypothesis HG1 : forall u y id, 0 <= u < n -> In (y, id) (G u) -> 0 <= y < n /\ 0 <= id.
  Hypothesis HG2 : forall u y z id, 0 <= u < n -> u <> y -> In (y, id) (G u) -> In (z, id) (G y) -> z = u.
  Notation vx v := (0 <= v < n).

  Lemma walk_frame w w' : forall u adj a a' bs ars, walk G w u adj a a' bs ars -> vx u -> incl adj (G u) ->
    (forall v, vx v -> 0 <= wP w v < a_c a' -> wP w' v = wP w v) ->
    (forall v, vx v -> a_c a <= wP w v < a_c a' -> wA w' v = wA w v /\ wL w' v = wL w v /\ wT w' v = wT w v /\ wO w' v = wO w v) ->
    0 <= a_c a -> wP w' u = wP w u -> wT w' u = wT w u -> walk G w' u adj a a' bs ars.
  Proof.
    intros u adj a a' bs ars H. induction H as [u a|u y adj c l ia ch a' bs ars Hy H IH|u y id adj c l ia ch a' bs ars N Hy H IH|u y id adj c l ia ch ia1 ch1 bs1 ars1 a' bs ars N EP EA ET H1 IH1 H2 IH2];
      intros Hu Hin FP FO Hc EPu ETu; cbn [a_c] in *.
    - constructor.
    - pose proof (walk_mono _ _ _ _ _ _ _ _ H) as M. cbn [a_c] in M. assert (Vy : vx y) by (apply (HG1 u y (wT w u)); auto; apply Hin; left; auto).
      rewrite <- ETu. apply w_prev; [rewrite FP by (auto; lia); auto|]. apply IH; auto. intros e I; apply Hin; right; auto.
    - pose proof (walk_mono _ _ _ _ _ _ _ _ H) as M. cbn [a_c] in M. assert (Vy : vx y) by (apply (HG1 u y id); auto; apply Hin; left; auto).
      apply w_skip; [congruence|rewrite FP by (auto; lia); auto|]. rewrite FP by (auto; lia). apply IH; auto. intros e I; apply Hin; right; auto.
    - pose proof (walk_mono _ _ _ _ _ _ _ _ H1) as M1. pose proof (walk_mono _ _ _ _ _ _ _ _ H2) as M2. cbn [a_c] in M1, M2.
      assert (Vy : vx y) by (apply (HG1 u y id); auto; apply Hin; left; auto). destruct (FO y Vy ltac:(lia)) as (F1 & F2 & F3 & F4). pose proof (FP y Vy ltac:(lia)) as F0.
      rewrite <- EPu, <- F2. apply w_call with (ch1 := ch1); try congruence.
      + rewrite F2, F4. apply IH1; auto; try lia; try apply incl_refl; cbn [a_c]; intros v Vv R; (apply FP || apply FO); auto; lia.
      + rewrite F4, F2, EPu, ETu. assert (incl adj (G u)) by (intros e I; apply Hin; right; auto). apply IH2; auto; cbn [a_c]; try lia; intros v Vv R; apply FO; auto; lia.
  Qed.

  Definition vis (w : W) (v : Z) : Prop := 0 <= v < n /\ 0 <= wP w v.
  Definition dinv (s : ds) (w : W) : Prop :=
    rep (d_pre s) n (wP w) /\ rep (d_low s) n (wL w) /\ rep (d_par s) n (wA w) /\ 0 <= d_ord s /\
    (forall v, vis w v -> wP w v < d_ord s) /\ (forall v v', vis w v -> vis w v' -> wP w v = wP w v' -> v = v') /\
    exists vs, NoDup vs /\ zlen vs = d_ord s /\ forall v, In v vs <-> vis w v.
  Definition same5 (w w' : W) (v : Z) : Prop := wP w' v = wP w v /\ wA w' v = wA w v /\ wT w' v = wT w v /\ wO w' v = wO w v.
  (* x: the vertex whose low may change *)
  Definition fr (x : option Z) (o : Z) (w w' : W) : Prop :=
    (forall v, vis w v -> same5 w w' v /\ (x <> Some v -> wL w' v = wL w v)) /\
    (forall v, vx v -> wP w v < 0 -> (wP w' v < 0 /\ wA w' v = wA w v) \/ o <= wP w' v).
  Lemma vis_bound s w u : dinv s w -> vx u -> wP w u < 0 -> d_ord s < n.
  Proof.
    intros (_ & _ & _ & O0 & _ & _ & vs & N & L & V) Hu Nu.
    assert (B : (length (u :: vs) <= length (zrange n))%nat).
    { apply NoDup_incl_length; [constructor; auto; rewrite V; intros (_ & ?); lia|]. intros x [<-|I]; apply In_zrange; auto. apply V in I. apply I. }
    pose proof (zlen_zrange n ltac:(lia)) as Z0. unfold zlen in *. cbn [length] in B. lia.
  Qed.
  Lemma fr_refl x o w : fr x o w w.
  Proof. split; [intros v V; split; [repeat split; auto|auto]|intros v V H; left; auto]. Qed.
  Lemma fr_vis x o w w' v : fr x o w w' -> vis w v -> vis w' v.
  Proof. intros (F & _) V. destruct (F v V) as ((E & _) & _). destruct V. split; auto. lia. Qed.
  Lemma fr_trans x o o' w w1 w2 : 0 <= o <= o' -> fr x o w w1 -> fr x o' w1 w2 -> fr x o w w2.
  Proof.
    intros Ho F1 F2. split.
    - intros v V. pose proof (fr_vis _ _ _ _ _ F1 V) as V1. destruct F1 as (F1 & _), F2 as (F2 & _). destruct (F1 v V) as ((A1 & A2 & A3 & A4) & A5). destruct (F2 v V1) as ((B1 & B2 & B3 & B4) & B5).
      split; [repeat split; congruence|]. intro X. rewrite B5, A5; auto.
    - intros v Vv Hv. destruct F1 as (_ & F1), F2 as (F2' & F2). destruct (F1 v Vv Hv) as [(A1 & A2)|A1].
      + destruct (F2 v Vv A1) as [(B1 & B2)|B1]; [left; split; auto; congruence|right; lia].
      + destruct (F2' v) as ((E & _) & _); [split; auto; lia|]. right. lia.
  Qed.
  (* writing the low of u *)
  Definition wlow (w : W) (u x : Z) : W := mkW (wP w) (wA w) (fupd (wL w) u x) (wT w) (wO w).
  Lemma dinv_low s w u x : dinv s w -> vx u -> dinv (set_low s (zupd (d_low s) u x)) (wlow w u x).
  Proof.
    intros (R1 & R2 & R3 & R4) Hu. split; [exact R1|]. split; [apply rep_upd; auto|]. split; [exact R3|]. exact R4.
  Qed.
  Lemma fr_low o w u x : fr (Some u) o w (wlow w u x).
  Proof.
    split; [|intros v V H; left; auto]. intros v V. split; [repeat split; auto|]. intro N. cbn [wL wlow]. unfold fupd. destruct (Z.eqb_spec v u) as [->|]; auto. congruence.
  Qed.
  Lemma fupd_same {X} (f : Z -> X) i x : fupd f i x i = x. Proof. unfold fupd. now rewrite Z.eqb_refl. Qed.
  Lemma fupd_diff {X} (f : Z -> X) i x j : j <> i -> fupd f i x j = f j. Proof. intro H. unfold fupd. destruct (Z.eqb_spec j i); congruence. Qed.

  Definition dfs_post (u : Z) (s : ds) (w : W) (s' : ds) (w' : W) : Prop :=
    exists ia ch bs ars, dinv s' w' /\ wP w' u = d_ord s /\ wO w' u = d_ord s' /\ wA w' u = wA w u /\ wT w' u = wT w u /\
      walk G w' u (G u) (d_ord s + 1, d_ord s, false, 0) (d_ord s', wL w' u, ia, ch) bs ars /\
      d_br s' = d_br s ++ bs /\ d_art s' = d_art s ++ ars ++ (if ia || ((wT w u <? 0) && (1 <? ch)) then [u] else []) /\ fr None (d_ord s) w w' /\ d_ord s < d_ord s'.
  Definition dfs_spec (fuel : nat) : Prop := forall u s w, dinv s w -> vx u -> wP w u < 0 -> n - d_ord s <= Z.of_nat fuel ->
    (forall y, In (y, wT w u) (G u) -> vis w y) -> exists s' w', ll_dfs fuel g u (wT w u) s = Ok s' /\ dfs_post u s w s' w'.

  Lemma loop_ok fuel u : dfs_spec fuel -> vx u -> forall adj s w ia ch, incl adj (G u) -> dinv s w -> vis w u ->
    (forall y, In (y, wT w u) adj -> vis w y) -> n - d_ord s <= Z.of_nat fuel ->
    exists s' w' ia' ch' bs ars, for_each adj (ll_body (ll_dfs fuel g) u (wT w u)) (s, ia, ch) = Ok (s', ia', ch') /\ dinv s' w' /\
      walk G w' u adj (d_ord s, wL w u, ia, ch) (d_ord s', wL w' u, ia', ch') bs ars /\ d_br s' = d_br s ++ bs /\ d_art s' = d_art s ++ ars /\ fr (Some u) (d_ord s) w w' /\ d_ord s <= d_ord s'.
  Proof.
    intros DS Hu. induction adj as [|(y, id) adj IH]; intros s w ia ch Hin I Vu HP Hf.
    - cbn [for_each]. exists s, w, ia, ch, [], []. rewrite !app_nil_r. split; [auto|]. split; [auto|]. split; [constructor|]. split; [auto|]. split; [auto|]. split; [apply fr_refl|lia].
    - cbn [for_each]. pose proof I as (R1 & R2 & R3 & O0 & B & J & CV). assert (Iy : In (y, id) (G u)) by (apply Hin; left; auto).
      destruct (HG1 u y id Hu Iy) as (Vy & Hid). assert (Hin' : incl adj (G u)) by (intros e Q; apply Hin; right; auto).
      unfold ll_body at 1. destruct (Z.eqb_spec id (wT w u)) as [Eid|Nid].
      { cbn [bind]. destruct (IH s w ia ch Hin' I Vu (fun z Q => HP z (or_intror Q)) Hf) as (s' & w' & ia' & ch' & bs & ars & E1 & E2 & E3 & E4 & E5 & E6 & E7).
        exists s', w', ia', ch', bs, ars. split; [exact E1|]. split; [auto|]. split; [|auto 10]. pose proof E6 as (F & _). destruct (F u Vu) as ((_ & _ & F3 & _) & _). rewrite Eid, <- F3.
        apply w_prev; auto. pose proof (HP y (or_introl (f_equal (pair y) Eid))) as V. destruct (F y V) as ((F1 & _) & _). rewrite F1. pose proof (B y V). destruct V. lia. }
      rewrite (rep_get _ _ _ y R1 Vy). cbn [bind]. destruct (Z.ltb_spec (wP w y) 0) as [Ly|Ly].
      + (* call *)
        assert (Nuy : u <> y) by (intros ->; destruct Vu; lia).
        rewrite (rep_set _ _ _ y u R3 Vy). cbn [bind].
        set (w1 := mkW (wP w) (fupd (wA w) y u) (wL w) (fupd (wT w) y id) (wO w)). set (s1 := set_par s (zupd (d_par s) y u)).
        assert (I1 : dinv s1 w1). { split; [exact R1|]. split; [exact R2|]. split; [apply rep_upd; auto|]. auto. }
        destruct (DS y s1 w1) as (s2 & w2 & E2 & ia1 & ch1 & bs1 & ars1 & I2 & Py & Oy & Ay & Ty & Wy & Br & Ar & F12 & O12); auto.
        { cbn [wT w1]. rewrite fupd_same. intros z Iz. rewrite (HG2 u y z id); auto. }
        cbn [wT w1] in E2, Ty, Ar. rewrite fupd_same in E2, Ty, Ar. cbn [wA w1] in Ay. rewrite fupd_same in Ay. rewrite E2. cbn [bind].
        change (d_ord s1) with (d_ord s) in *. change (d_br s1) with (d_br s) in *. change (d_art s1) with (d_art s) in *.
        replace (id <? 0) with false in Ar by lia. cbn [andb] in Ar. rewrite orb_false_r in Ar.
        assert (F02 : fr None (d_ord s) w w2).
        { destruct F12 as (Fa & Fb). split.
          - intros v V. destruct (Fa v V) as ((A1 & A2 & A3 & A4) & A5). cbn [wP wA wL wT wO w1] in *. assert (v <> y) by (intros ->; destruct V; lia). rewrite fupd_diff in A2, A3 by auto. split; [repeat split; auto|auto].
          - intros v Vv Hv. destruct (Fb v Vv Hv) as [(A1 & A2)|A1]; [|right; auto]. left. split; auto. cbn [wA w1] in A2. assert (v <> y) by (intros ->; lia). rewrite fupd_diff in A2 by auto. auto. }
        pose proof I2 as (Q1 & Q2 & Q3 & _). pose proof (fr_vis _ _ _ _ _ F02 Vu) as Vu2. destruct F02 as (Fa02 & Fb02) eqn:EF. clear EF. destruct (Fa02 u Vu) as ((Pu & Au & Tu & Ou) & Lu). specialize (Lu ltac:(discriminate)).
        rewrite (rep_get _ _ _ u Q2 Hu), (rep_get _ _ _ y Q2 Vy). cbn [bind]. rewrite (rep_set _ _ _ u _ Q2 Hu). cbn [bind].
        set (m := Z.min (wL w2 u) (wL w2 y)). set (s3 := set_low s2 (zupd (d_low s2) u m)). set (w3 := wlow w2 u m).
        assert (I3 : dinv s3 w3) by (apply dinv_low; auto). pose proof I3 as (R31 & R32 & _).
        rewrite (rep_get _ _ _ u R31 Hu). cbn [bind]. rewrite (rep_get _ _ _ y R32 Vy). cbn [bind]. cbn [wL w3 wlow]. rewrite fupd_diff by auto. cbn [wP w3 wlow].
        set (s4 := if (wP w2 u <=? wL w2 y) && negb (wP w2 u =? wL w2 y) then push_br s3 id else s3).
        set (ia4 := if wP w2 u <=? wL w2 y then negb (wT w u <? 0) else ia).
        assert (E4 : (if wP w2 u <=? wL w2 y then Ok (if negb (wP w2 u =? wL w2 y) then push_br s3 id else s3, negb (wT w u <? 0), ch + 1) else Ok (s3, ia, ch + 1)) = Ok (s4, ia4, ch + 1)).
        { unfold s4, ia4. destruct (wP w2 u <=? wL w2 y); cbn [andb]; reflexivity. }
        rewrite E4. cbn [bind]. clear E4.
        assert (I4 : dinv s4 w3) by (unfold s4; destruct (_ && _); auto).
        assert (O4 : d_ord s4 = d_ord s2) by (unfold s4; destruct (_ && _); auto). assert (A4 : d_art s4 = d_art s2) by (unfold s4; destruct (_ && _); auto).
        assert (B4 : d_br s4 = d_br s2 ++ (if wP w2 u <? wL w2 y then [id] else [])).
        { unfold s4. destruct (Z.ltb_spec (wP w2 u) (wL w2 y)), (Z.leb_spec (wP w2 u) (wL w2 y)), (Z.eqb_spec (wP w2 u) (wL w2 y)); try lia; cbn [andb negb]; auto; cbn; rewrite ?app_nil_r; auto. }
        assert (T3 : wT w3 u = wT w u) by (cbn [wT w3 wlow]; auto).
        destruct (IH s4 w3 ia4 (ch + 1) Hin' I4 Vu2) as (s' & w' & ia' & ch' & bs & ars & E1 & I' & W' & Br' & Ar' & F' & O').
        { rewrite T3. intros z Iz. pose proof (HP z (or_intror Iz)) as Vz. destruct (Fa02 z Vz) as ((Pz & _) & _). destruct Vz. split; auto. cbn [wP w3 wlow]. lia. }
        { lia. }
        rewrite T3 in E1. rewrite O4 in *. 
        assert (F24 : fr (Some u) (d_ord s2) w2 w').
        { apply fr_trans with (o' := d_ord s2) (w1 := w3); [lia|apply fr_low|exact F']. }
        pose proof F24 as (Fa24 & _). 
        assert (V2y : vis w2 y) by (split; auto; lia).
        destruct (Fa24 y V2y) as ((Gp & Ga & Gt & Go) & Gl). specialize (Gl ltac:(congruence)). destruct (Fa24 u Vu2) as ((Gpu & _ & Gtu & _) & _).
        exists s', w', ia', ch', (bs1 ++ (if wP w2 u <? wL w2 y then [id] else []) ++ bs), (ars1 ++ (if ia1 then [y] else []) ++ ars).
        split; [exact E1|]. split; [auto|]. split.
        { rewrite <- Gpu, <- Gl. apply w_call with (ch1 := ch1).
          - congruence.
          - congruence.
          - congruence.
          - congruence.
          - rewrite Go, Oy, Gl. apply (walk_frame w2); auto.
            + apply incl_refl.
            + cbn [a_c]. intros v Vv Rv. destruct (Fa24 v ltac:(split; auto; lia)) as ((X & _) & _). auto.
            + cbn [a_c]. intros v Vv Rv. destruct (Fa24 v ltac:(split; auto; lia)) as ((X1 & X2 & X3 & X4) & X5). split; [auto|]. split; [|auto]. apply X5. intro X. injection X as ->.
              pose proof (B v Vu). lia.
            + cbn [a_c]. lia.
          - rewrite Go, Oy, Gl, Gpu, Gtu, Tu. unfold ia4 in W'. cbn [wL w3 wlow] in W'. rewrite fupd_same in W'. unfold m in W'. rewrite Lu in W'. exact W'. }
        split; [rewrite Br', B4, Br, <- !app_assoc; auto|]. split; [rewrite Ar', A4, Ar, <- !app_assoc; auto|]. split; [|lia].
        apply fr_trans with (o' := d_ord s2) (w1 := w2); [lia| |exact F24]. split; [|exact Fb02]. intros v V. destruct (Fa02 v V) as (X1 & X2). split; auto. intros _. apply X2. discriminate.
      + (* visited *)
        rewrite (rep_get _ _ _ u R2 Hu). cbn [bind]. rewrite (rep_set _ _ _ u _ R2 Hu). cbn [bind].
        set (m := Z.min (wL w u) (wP w y)). set (w1 := wlow w u m).
        destruct (IH (set_low s (zupd (d_low s) u m)) w1 ia ch Hin') as (s' & w' & ia' & ch' & bs & ars & E1 & I' & W' & Br' & Ar' & F' & O'); auto.
        { apply dinv_low; auto. }
        { intros z Q. apply HP. right; auto. }
        change (wT w1 u) with (wT w u) in E1. change (d_ord (set_low s (zupd (d_low s) u m))) with (d_ord s) in *.
        assert (F0 : fr (Some u) (d_ord s) w w').
        { apply fr_trans with (o' := d_ord s) (w1 := w1); [lia|apply fr_low|exact F']. }
        pose proof F0 as (Fa & _). destruct (Fa u Vu) as ((_ & _ & Tu & _) & _). destruct (Fa y ltac:(split; auto)) as ((Py & _) & _).
        exists s', w', ia', ch', bs, ars. split; [exact E1|]. split; [auto|]. split; [|auto 10]. apply w_skip; [congruence|rewrite Py; pose proof (B y ltac:(split; auto)); lia|].
        cbn [wL w1 wlow] in W'. rewrite fupd_same in W'. rewrite Py. exact W'.
  Qed.

  Lemma dfs_ok : forall fuel, dfs_spec fuel.
  Proof.
    induction fuel as [|fuel IH]; intros u s w I Hu Nu Hf HP.
    { pose proof (vis_bound s w u I Hu Nu). lia. }
    pose proof I as (R1 & R2 & R3 & O0 & B & J & vs & N & L & V). cbn [ll_dfs].
    rewrite (rep_set _ _ _ u _ R1 Hu), (rep_set _ _ _ u _ R2 Hu). cbn [bind]. rewrite (rep_get _ _ _ u Hg Hu). cbn [bind].
    set (o := d_ord s) in *. set (w1 := mkW (fupd (wP w) u o) (wA w) (fupd (wL w) u o) (wT w) (wO w)). set (s1 := mkD _ _ _ _ _ _).
    assert (Nv : ~ vis w u) by (intros (_ & ?); lia).
    assert (Vs : forall v, vis w1 v <-> v = u \/ vis w v).
    { intro v. unfold vis. cbn [wP w1]. destruct (Z.eq_dec v u) as [->|Q]; [rewrite fupd_same; split; auto; intros _; split; auto; lia|rewrite fupd_diff by auto; tauto]. }
    assert (I1 : dinv s1 w1).
    { split; [apply rep_upd; auto|]. split; [apply rep_upd; auto|]. split; [exact R3|]. split; [cbn; lia|]. split.
      - intros v Q. apply Vs in Q. cbn [d_ord s1 wP w1]. destruct (Z.eq_dec v u) as [->|X]; [rewrite fupd_same; lia|]. rewrite fupd_diff by auto. destruct Q as [Q|Q]; [contradiction|]. pose proof (B v Q). lia.
      - split.
        + intros v v' Q Q' X. apply Vs in Q, Q'. cbn [wP w1] in X.
          destruct (Z.eq_dec v u) as [->|Y], (Z.eq_dec v' u) as [->|Y']; auto.
          * rewrite fupd_same, fupd_diff in X by auto. destruct Q' as [Q'|Q']; [contradiction|]. pose proof (B v' Q'). lia.
          * rewrite fupd_same, fupd_diff in X by auto. destruct Q as [Q|Q]; [contradiction|]. pose proof (B v Q). lia.
          * rewrite !fupd_diff in X by auto. apply J; auto; [destruct Q|destruct Q']; auto; contradiction.
        + exists (u :: vs). split; [constructor; auto; rewrite V; auto|]. split; [rewrite zlen_cons, L; reflexivity|]. intro v. rewrite Vs, <- V. cbn. intuition. }
    assert (F1 : fr None o w w1).
    { split.
      - intros v Q. assert (v <> u) by (intros ->; auto). unfold same5. cbn [wP wA wL wT wO w1]. rewrite !fupd_diff by auto. auto.
      - intros v Vv Hv. cbn [wP wA w1]. destruct (Z.eq_dec v u) as [->|X]; [rewrite fupd_same; right; lia|]. rewrite fupd_diff by auto. left; auto. }
    destruct (loop_ok fuel u IH Hu (G u) s1 w1 false 0) as (s2 & w2 & ia & ch & bs & ars & E2 & I2 & W2 & Br & Ar & F2 & O2); auto.
    { apply incl_refl. }
    { apply Vs. auto. }
    { intros y Iy. apply Vs. right. apply HP. exact Iy. }
    { cbn [d_ord s1]. fold o. lia. }
    change (wT w1 u) with (wT w u) in E2. change (d_ord s1) with (o + 1) in *. change (d_br s1) with (d_br s) in *. change (d_art s1) with (d_art s) in *.
    assert (L1 : wL w1 u = o) by (cbn [wL w1]; apply fupd_same). rewrite L1 in W2.
    cbn iota in E2. rewrite E2. cbn [bind]. eexists. exists (mkW (wP w2) (wA w2) (wL w2) (wT w2) (fupd (wO w2) u (d_ord s2))). split; [reflexivity|].
    match goal with |- dfs_post _ _ _ ?a ?b => set (s3 := a); set (w3 := b) end.
    assert (O3 : d_ord s3 = d_ord s2) by (unfold s3; destruct (_ || _); auto).
    assert (B3 : d_br s3 = d_br s2) by (unfold s3; destruct (_ || _); auto).
    assert (A3 : d_art s3 = d_art s2 ++ (if ia || (wT w u <? 0) && (1 <? ch) then [u] else [])) by (unfold s3; destruct (_ || _); rewrite ?app_nil_r; auto).
    assert (I3 : dinv s3 w3) by (unfold s3; destruct (_ || _); exact I2).
    assert (V1 : vis w1 u) by (apply Vs; auto). pose proof F2 as (Fa & Fb). destruct (Fa u V1) as ((Pu & Au & Tu & _) & _).
    exists ia, ch, bs, ars. split; [exact I3|]. rewrite O3, B3, A3. fold o. split; [cbn [wP w3]; rewrite Pu; cbn [wP w1]; apply fupd_same|]. split; [cbn [wO w3]; apply fupd_same|].
    split; [cbn [wA w3]; rewrite Au; auto|]. split; [cbn [wT w3]; rewrite Tu; auto|]. split.
    { apply (walk_frame w2); auto.
      - apply incl_refl.
      - cbn [a_c]. intros v Vv Rv. cbn [wA wL wT wO w3]. split; [auto|]. split; [auto|]. split; [auto|]. apply fupd_diff. intros ->. rewrite Pu in Rv. cbn [wP w1] in Rv. rewrite fupd_same in Rv. lia.
      - cbn [a_c]. lia. }
    split; [auto|]. split; [rewrite Ar, <- app_assoc; auto|]. split; [|lia]. split.
    - intros v Q. pose proof F1 as (Fa1 & _). destruct (Fa1 v Q) as ((A1 & A2 & A4 & A5) & A6). assert (Q1 : vis w1 v) by (apply Vs; auto).
      destruct (Fa v Q1) as ((C1 & C2 & C3 & C4) & C5). assert (v <> u) by (intros ->; auto). split.
      + unfold same5. cbn [wP wA wT wO w3]. rewrite fupd_diff by auto. repeat split; congruence.
      + intros _. cbn [wL w3]. rewrite C5 by congruence. apply A6. discriminate.
    - intros v Vv Hv. cbn [wP wA w3]. destruct (Z.eq_dec v u) as [->|X]; [right; rewrite Pu; cbn [wP w1]; rewrite fupd_same; lia|].
      destruct (Fb v Vv) as [Q|Q]; [cbn [wP w1]; rewrite fupd_diff by auto; auto|left; exact Q|right; lia].
  Qed.
End D.
