(* EulerTour: the depth-first walk *)
From Verif Require Import Base BaseLemmas ListZ ListMore Graph_spec Tree_spec BFS_proof Tree_proof Tree_proof2 Tree_proof3 Tree_proof4 HLD_proof LowLink_proof4 LevAnc_proof LevAnc_proof2 Centroid_proof SegTree_model ETour_model.

Fixpoint tour (p : Z) (t : rose) : list Z := match t with Rose u cs => u :: flat_map (tour u) cs ++ [p] end.
Lemma rose_rect' (P : rose -> Prop) : (forall u cs, (forall c, In c cs -> P c) -> P (Rose u cs)) -> forall t, P t.
Proof.
  intros H. fix IH 1. intros [u cs]. apply H. induction cs as [|c cs IHc]; [intros c []|]. intros d [<-|Hd]; [apply IH|now apply IHc].
Qed.
Lemma tour_in t : forall p x, In x (tour p t) -> x = p \/ In x (nodes t).
Proof.
  induction t as [u cs IH] using rose_rect'. intros p x I. cbn [tour nodes] in *. destruct I as [<-|I]; [right; now left|]. apply in_app_iff in I as [I|[<-|[]]]; [|now left]. apply in_flat_map in I as (c & Ic & I). destruct (IH c Ic u x I) as [->|J]; right; [now left|right]. apply in_flat_map. eauto.
Qed.
Lemma tours_in u cs x : In x (flat_map (tour u) cs) -> x = u \/ In x (cnodes cs).
Proof. intros I. apply in_flat_map in I as (c & Ic & I). destruct (tour_in c u x I) as [->|J]; [now left|right]. apply in_flat_map. eauto. Qed.
Lemma tour_len t : forall p, zlen (tour p t) = 2 * zlen (nodes t).
Proof.
  induction t as [u cs IH] using rose_rect'. intros p. cbn [tour nodes]. rewrite !zlen_cons, zlen_app. change (zlen [p]) with 1.
  assert (H : zlen (flat_map (tour u) cs) = 2 * zlen (cnodes cs)); [|lia]. clear - IH. induction cs as [|c cs IHc]; [reflexivity|]. cbn [flat_map]. rewrite !zlen_app, IHc, IH by (cbn; auto; intros; apply IH; now right). lia.
Qed.
Lemma tours_len u cs : zlen (flat_map (tour u) cs) = 2 * zlen (cnodes cs).
Proof. induction cs as [|c cs IHc]; [reflexivity|]. cbn [flat_map]. rewrite !zlen_app, IHc, tour_len. lia. Qed.

Section Tour.
  Variables (g : list (list Z)) (pf dep rt : Z -> Z).
  Hypothesis R : rooted g pf.
  Hypothesis D : dep_ok g pf dep rt.
  Notation n := (zlen g).
  Definition pn (u : Z) : Z := if pf u =? -1 then n else pf u.
  Variable m : Z.
  (* w is first met at position i of T and left at position j *)
  Definition at_tour (T : list Z) (w i j : Z) : Prop := exists c pre post, fits g pf c /\ root c = w /\ T = pre ++ tour (pn w) c ++ post /\ i = zlen pre /\ j = i + zlen (tour (pn w) c) - 1 /\
    forall x, In x pre \/ In x post -> ~ In x (nodes c).
  Lemma at_lift a T b w i j : at_tour T w i j -> (forall x, In x a \/ In x b -> vertex g x -> ~ ancestor pf w x) -> at_tour (a ++ T ++ b) w (zlen a + i) (zlen a + j).
  Proof.
    intros (c & pre & post & Fc & Rc & E & -> & -> & N) H. exists c, (a ++ pre), (post ++ b). split; auto. split; auto. split; [rewrite E, <- !app_assoc; reflexivity|]. rewrite zlen_app. split; auto. split; [lia|].
    intros x Hx Ic. assert (X : In x a \/ In x b \/ In x pre \/ In x post) by (rewrite !in_app_iff in Hx; tauto). destruct X as [X|[X|X]]; [| |now apply (N x X)]; apply (fits_anc g pf c Fc) in Ic as (Vx & Ax); rewrite Rc in Ax; apply (H x); auto.
  Qed.
  Definition leaves (Q seg : list Z) : Prop := zlen seg = 2 * m /\ (forall i, 0 <= i < zlen Q -> vget seg (m + i) = vget Q i) /\ forall i, zlen Q <= i < m -> vget seg (m + i) = Ok n.
  Lemma leaves_push Q seg x : leaves Q seg -> zlen Q < m -> exists seg', vset seg (m + zlen Q) x = Ok seg' /\ leaves (Q ++ [x]) seg'.
  Proof.
    intros (L & A & B) H. pose proof (zlen_nonneg Q). rewrite vset_ok by lia. eexists. split; [reflexivity|]. unfold leaves. rewrite zlen_zupd, zlen_app. change (zlen [x]) with 1. split; auto. split; intros i Hi.
    - destruct (Z.eq_dec i (zlen Q)) as [->|N]; [rewrite vget_zupd_same by lia; symmetry; now apply vget_mid|]. rewrite vget_zupd_diff by lia. rewrite vget_app1 by lia. apply A. lia.
    - rewrite vget_zupd_diff by lia. apply B. lia.
  Qed.
  Definition found (V L Dp : Z -> Z) (q : Z) (T : list Z) (w : Z) : Prop := Dp w = dep w /\ exists i j, at_tour T w i j /\ V w = q + i /\ L w = q + j.
  Definition egoal (t : rose) : Prop := forall fuel Q V L Dp seg, (length (nodes t) <= fuel)%nat -> leaves Q seg -> zlen Q + 2 * zlen (nodes t) <= m -> Dp (root t) = dep (root t) ->
    exists V' L' Dp' seg', et_dfs fuel g m (root t) (pn (root t)) (vec n V, vec n L, vec (n + 1) Dp, seg, zlen Q) = Ok (vec n V', vec n L', vec (n + 1) Dp', seg', zlen (Q ++ tour (pn (root t)) t)) /\
      leaves (Q ++ tour (pn (root t)) t) seg' /\ (forall w, ~ In w (nodes t) -> V' w = V w /\ L' w = L w /\ Dp' w = Dp w) /\ forall w, In w (nodes t) -> found V' L' Dp' (zlen Q) (tour (pn (root t)) t) w.
  Lemma found_frame V L Dp V' L' Dp' q T w : V' w = V w -> L' w = L w -> Dp' w = Dp w -> found V L Dp q T w -> found V' L' Dp' q T w.
  Proof. intros A B C (E & i & j & H & F & G). split; [congruence|]. exists i, j. split; auto. split; congruence. Qed.
  Lemma found_lift V L Dp q a T b w : found V L Dp (q + zlen a) T w -> (forall x, In x a \/ In x b -> vertex g x -> ~ ancestor pf w x) -> found V L Dp q (a ++ T ++ b) w.
  Proof. intros (E & i & j & H & F & G) N. split; auto. exists (zlen a + i), (zlen a + j). split; [now apply at_lift|]. lia. Qed.
  Lemma kids_tour fuel u : vertex g u -> forall adj cs Q V L Dp seg, map root cs = filter (not_ (pn u)) adj -> (forall c, In c cs -> pf (root c) = u) -> (forall c, In c cs -> fits g pf c) -> (forall c, In c cs -> egoal c) ->
    (length (cnodes cs) <= fuel)%nat -> NoDup (u :: cnodes cs) -> leaves Q seg -> zlen Q + 2 * zlen (cnodes cs) <= m -> Dp u = dep u ->
    exists V' L' Dp' seg', for_each adj (fun v (s : et_st) => if v =? pn u then Ok s else
        let '(visit, leave, dep, seg, k) := s in
        let* du := vget dep u in
        let* dep := vset dep v (du + 1) in
        et_dfs fuel g m v u (visit, leave, dep, seg, k)) (vec n V, vec n L, vec (n + 1) Dp, seg, zlen Q) = Ok (vec n V', vec n L', vec (n + 1) Dp', seg', zlen (Q ++ flat_map (tour u) cs)) /\
      leaves (Q ++ flat_map (tour u) cs) seg' /\ (forall w, ~ In w (cnodes cs) -> V' w = V w /\ L' w = L w /\ Dp' w = Dp w) /\ forall w, In w (cnodes cs) -> found V' L' Dp' (zlen Q) (flat_map (tour u) cs) w.
  Proof.
    intros Hu. induction adj as [|x adj IH]; intros cs Q V L Dp seg M Pc F G Fu Nd Lv Rm Du.
    - destruct cs; [|discriminate]. cbn [flat_map for_each]. rewrite app_nil_r. exists V, L, Dp, seg. split; auto. split; auto. split; auto. intros w [].
    - cbn [filter] in M. cbn [for_each]. destruct (Z.eqb_spec x (pn u)) as [E|N]; cbn [negb] in M; cbn [bind]; [now apply IH|].
      destruct cs as [|c cs]; [discriminate|]. cbn [map] in M. injection M as Ex M. cbn [flat_map] in *. rewrite app_length in Fu. rewrite zlen_app in Rm. inversion Nd as [|? ? Nu Nc]; subst x0 l.
      assert (Pc' := Pc c (or_introl eq_refl)). assert (Fc := F c (or_introl eq_refl)). assert (Vc : vertex g x) by (rewrite <- Ex; apply (fits_anc g pf c Fc), root_In). pose proof (zlen_nonneg (cnodes cs)). unfold vertex in *.
      rewrite vget_vec by lia. cbn [bind]. rewrite vset_vec by lia. cbn [bind]. rewrite Du.
      assert (Dx : dep x = dep u + 1). { rewrite <- Ex in Vc |- *. rewrite (dep_par g pf dep rt D (root c) Vc); rewrite Pc'; auto. lia. }
      assert (Px : pn x = u). { unfold pn. rewrite <- Ex, Pc'. destruct (Z.eqb_spec u (-1)); [lia|auto]. }
      destruct (G c (or_introl eq_refl) fuel Q V L (fput Dp x (dep u + 1)) seg) as (V1 & L1 & D1 & s1 & E1 & Lv1 & Fr1 & Fo1); auto; [lia|lia|rewrite Ex, fput_same; lia|].
      rewrite Ex, Px in E1, Lv1, Fo1. rewrite E1. cbn [bind].
      assert (Iu : ~ In u (nodes c)) by (intros X; apply Nu, in_app_iff; auto).
      destruct (IH cs (Q ++ tour u c) V1 L1 D1 s1) as (V2 & L2 & D2 & s2 & E2 & Lv2 & Fr2 & Fo2); auto.
      + intros; apply Pc; now right.
      + intros; apply F; now right.
      + intros; apply G; now right.
      + lia.
      + constructor; [intros I; apply Nu, in_app_iff; auto|]. now apply NoDup_app_r in Nc.
      + rewrite zlen_app, tour_len. lia.
      + destruct (Fr1 u Iu) as (_ & _ & ->). rewrite fput_diff; auto. intros ->. apply Iu. rewrite <- Ex. apply root_In.
      + exists V2, L2, D2, s2. rewrite E2, <- app_assoc in *. split; auto. split; auto. split.
        * intros w Hw. rewrite in_app_iff in Hw. destruct (Fr2 w) as (A2 & B2 & C2); [tauto|]. destruct (Fr1 w) as (A1 & B1 & C1); [tauto|]. rewrite fput_diff in C1 by (intros ->; apply Hw; left; rewrite <- Ex; apply root_In). repeat split; congruence.
        * (* entries of the tours of other children are not below w *)
          assert (Out : forall d ds w, fits g pf d -> pf (root d) = u -> In w (nodes d) -> (forall x, In x ds -> In x (nodes d) -> False) -> forall y, y = u \/ In y ds -> vertex g y -> ~ ancestor pf w y).
          { intros d ds w Fd Pd Iw Dj y [->|Iy] Vy Ay.
            - destruct (fits_anc g pf d Fd w Iw) as (Vw & Aw). pose proof (anc_dep g pf dep rt R D _ _ Ay Vy). pose proof (anc_dep g pf dep rt R D _ _ Aw Vw). assert (Vd : vertex g (root d)) by (apply (fits_anc g pf d Fd), root_In). pose proof (dep_par g pf dep rt D (root d) Vd ltac:(rewrite Pd; lia)). rewrite Pd in H2. lia.
            - apply (Dj y Iy). apply (fits_desc g pf dep rt R D d Fd). split; auto. eapply anc_trans; [|exact Ay]. now apply (fits_anc g pf d Fd). }
          intros w Hw. apply in_app_iff in Hw as [Hw|Hw].
          -- assert (Nw : ~ In w (cnodes cs)) by (intros X; apply (NoDup_app_disj _ _ w Nc); auto). destruct (Fr2 w Nw) as (A2 & B2 & C2). apply (found_frame V1 L1 D1); auto. apply (found_lift V1 L1 D1 (zlen Q) [] (tour u c) (flat_map (tour u) cs) w); [change (zlen (@nil Z)) with 0; rewrite Z.add_0_r; auto|].
             intros y [[]|Iy]. apply tours_in in Iy. apply (Out c (cnodes cs) w Fc Pc' Hw); auto. intros z Iz Ic. apply (NoDup_app_disj _ _ z Nc); auto.
          -- specialize (Fo2 w Hw). rewrite zlen_app in Fo2. rewrite <- (app_nil_r (flat_map (tour u) cs)). apply found_lift; auto. intros y [Iy|[]]. apply tour_in in Iy. apply in_flat_map in Hw as (d & Id & Hw).
             apply (Out d (nodes c) w); auto; [apply F; now right|apply Pc; now right|]. intros z Iz Ic. apply (NoDup_app_disj _ _ z Nc); auto. apply in_flat_map. eauto.
  Qed.
  Lemma row_same u adj : vertex g u -> vget g u = Ok adj -> filter (not_ (pn u)) adj = filter (not_ (pf u)) adj.
  Proof.
    intros Hu Ea. unfold pn. destruct (Z.eqb_spec (pf u) (-1)) as [E|]; auto. rewrite E. destruct (row_ok g pf R u Hu) as (adj' & E' & _ & I). rewrite Ea in E'. injection E' as <-.
    apply filter_ext_in. intros v Hv. apply I in Hv as (Vv & _). unfold vertex in Vv. destruct (Z.eqb_spec v n), (Z.eqb_spec v (-1)); auto; lia.
  Qed.
  Lemma tour_walk t : fits g pf t -> egoal t.
  Proof.
    induction 1 as [u cs adj Hu Ea M P0 F IH]. intros fuel Q V L Dp seg Lf Lv Rm Du. cbn [nodes root] in *. destruct fuel as [|fuel]; [cbn in Lf; lia|]. cbn [length] in Lf. rewrite zlen_cons in Rm. pose proof (zlen_nonneg (cnodes cs)) as Zc. pose proof (zlen_nonneg Q) as Zq.
    assert (Ft : fits g pf (Rose u cs)) by (econstructor; eauto). pose proof (fits_nodup g pf dep rt R D _ Ft) as Nd. cbn [nodes] in Nd. inversion Nd as [|? ? Nu Nc]; subst x l. pose proof Hu as Hu'. unfold vertex in Hu'.
    cbn [et_dfs]. rewrite vset_vec by lia. cbn [bind]. destruct (leaves_push Q seg u Lv ltac:(lia)) as (s0 & E0 & Lv0). rewrite E0. cbn [bind]. rewrite Ea. cbn [bind].
    assert (Z1 : zlen (Q ++ [u]) = zlen Q + 1) by (rewrite zlen_app; reflexivity).
    destruct (kids_tour fuel u Hu adj cs (Q ++ [u]) (fput V u (zlen Q)) L Dp s0) as (V1 & L1 & D1 & s1 & E1 & Lv1 & Fr1 & Fo1); auto; [rewrite row_same; auto|lia|lia|].
    rewrite Z1 in E1. match type of E1 with ?a = _ => match goal with |- context [for_each adj ?f ?st0] => change (for_each adj f st0) with a end end. rewrite E1. cbn [bind]. clear E1. rewrite vset_vec by lia. cbn [bind]. set (Q1 := (Q ++ [u]) ++ flat_map (tour u) cs) in *.
    assert (ZQ : zlen Q1 = zlen Q + 1 + 2 * zlen (cnodes cs)) by (unfold Q1; rewrite zlen_app, Z1, tours_len; lia).
    destruct (leaves_push Q1 s1 (pn u) Lv1 ltac:(lia)) as (s2 & E2 & Lv2). rewrite E2. cbn [bind].
    assert (EQ : Q1 ++ [pn u] = Q ++ tour (pn u) (Rose u cs)) by (unfold Q1; cbn [tour]; rewrite <- !app_assoc; reflexivity).
    exists V1, (fput L1 u (zlen Q1)), D1, s2. rewrite <- EQ. split; [rewrite zlen_app; reflexivity|]. split; auto. destruct (Fr1 u Nu) as (A & B & C). split.
    - intros w Hw. destruct (Fr1 w) as (X & Y & Z0); [intros I; apply Hw; now right|]. rewrite fput_diff in X by (intros ->; apply Hw; now left). rewrite fput_diff by (intros ->; apply Hw; now left). auto.
    - intros w [<-|Hw].
      + split; [congruence|]. exists 0, (zlen (tour (pn u) (Rose u cs)) - 1). split; [|rewrite A, !fput_same, tour_len; cbn [nodes]; rewrite zlen_cons; lia].
        exists (Rose u cs), [], []. split; auto. split; auto. split; [now rewrite app_nil_r|]. split; auto. split; [lia|]. intros x [[]|[]].
      + apply (found_frame V1 L1 D1); auto; [rewrite fput_diff; auto; intros ->; contradiction|]. specialize (Fo1 w Hw). rewrite Z1 in Fo1. cbn [tour]. change (u :: flat_map (tour u) cs ++ [pn u]) with ([u] ++ flat_map (tour u) cs ++ [pn u]). apply found_lift; auto.
        destruct (fits_anc g pf (Rose u cs) Ft w (or_intror Hw)) as (Vw & Aw). cbn [root] in Aw. pose proof (anc_dep g pf dep rt R D _ _ Aw Vw) as Dw.
        assert (Dw2 : dep u < dep w). { destruct (Z.eq_dec (dep u) (dep w)) as [X|X]; [|lia]. pose proof (anc_dep_eq g pf dep rt R D _ _ Aw Vw X). subst w. contradiction. }
        intros x [[<-|[]]|[<-|[]]] Vx Ax; pose proof (anc_dep g pf dep rt R D _ _ Ax Vx); [lia|].
        unfold pn in *. destruct (Z.eqb_spec (pf u) (-1)) as [X|X]; [unfold vertex in Vx; lia|]. pose proof (dep_par g pf dep rt D u Hu X). lia.
  Qed.
End Tour.
