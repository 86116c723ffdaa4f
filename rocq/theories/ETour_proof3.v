(* EulerTour: construction and queries *)
From Verif Require Import Base BaseLemmas ListZ ListMore Graph_spec Tree_spec BFS_proof Tree_proof Tree_proof2 Tree_proof3 Tree_proof4 Tree_proof5 HLD_proof LowLink_proof4 LevAnc_proof LevAnc_proof2 Centroid_proof Centroid_proof2 SegTree_model SegTree_proof ETour_model ETour_proof ETour_proof2.

Section Queries.
  Variables (g : list (list Z)) (pf dep rt : Z -> Z).
  Hypothesis R : rooted g pf.
  Hypothesis D : dep_ok g pf dep rt.
  Notation n := (zlen g).
  Notation pn := (pn g pf).
  Notation at_tour := (at_tour g pf).
  Lemma pn_out c : fits g pf c -> ~ In (pn (root c)) (nodes c).
  Proof.
    intros F I. pose proof (fits_anc g pf c F _ I) as (V & A). assert (Vr : vertex g (root c)) by (apply (fits_anc g pf c F), root_In). unfold ETour_proof2.pn in *. destruct (Z.eqb_spec (pf (root c)) (-1)) as [E|E]; [unfold vertex in V; lia|].
    pose proof (anc_dep g pf dep rt R D _ _ A V). pose proof (dep_par g pf dep rt D _ Vr E). lia.
  Qed.
  Lemma at_pos T w i j : at_tour T w i j -> vget T i = Ok w /\ vget T j = Ok (pn w) /\ 0 <= i < j /\ j < zlen T /\ forall k x, vget T k = Ok x -> (vertex g x /\ ancestor pf w x <-> i <= k < j).
  Proof.
    intros (c & pre & post & F & Rc & E & -> & -> & N). destruct c as [u cs]. cbn [root] in Rc. subst u. pose proof (tour_len (Rose w cs) (pn w)) as TL. cbn [nodes] in TL. rewrite zlen_cons in TL. pose proof (zlen_nonneg (cnodes cs)). pose proof (zlen_nonneg pre). pose proof (zlen_nonneg post).
    pose proof (pn_out _ F) as Po. cbn [root] in Po. set (tw := tour (pn w) (Rose w cs)) in *. assert (Et : tw = (w :: flat_map (tour w) cs) ++ [pn w]) by reflexivity.
    assert (Zt : zlen (w :: flat_map (tour w) cs) = zlen tw - 1) by (rewrite Et, zlen_app; change (zlen [pn w]) with 1; lia).
    split; [rewrite E, Et; cbn [app]; now apply vget_mid|]. split; [rewrite E; remember (zlen pre + zlen tw - 1) as q eqn:Eq; rewrite Et, <- !app_assoc, app_assoc; apply vget_mid; rewrite zlen_app; lia|]. split; [lia|]. split; [rewrite E, !zlen_app; lia|].
    intros k x Hk. pose proof (vget_range _ _ _ Hk) as Rk. rewrite E, !zlen_app in Rk. rewrite <- (fits_desc g pf dep rt R D _ F x : In x (nodes (Rose w cs)) <-> vertex g x /\ ancestor pf w x). split.
    - intros I. destruct (Z.lt_ge_cases k (zlen pre)) as [L|L]; [exfalso; rewrite E, vget_app1 in Hk by lia; apply (N x); auto; left; eapply vget_In; eauto|]. split; auto.
      destruct (Z.lt_ge_cases k (zlen pre + zlen tw - 1)) as [L2|L2]; auto. exfalso. destruct (Z.eq_dec k (zlen pre + zlen tw - 1)) as [->|Ne].
      + rewrite E in Hk. remember (zlen pre + zlen tw - 1) as q eqn:Eq. rewrite Et, <- !app_assoc, app_assoc in Hk. change ([pn w] ++ post) with (pn w :: post) in Hk. rewrite vget_mid in Hk by (rewrite zlen_app; lia). injection Hk as <-. contradiction.
      + rewrite E, !vget_app2 in Hk by lia. apply (N x); auto. right. eapply vget_In; eauto.
    - intros (L & L2). rewrite E, vget_app2, vget_app1, Et, vget_app1 in Hk by lia. apply vget_In in Hk. destruct Hk as [<-|Hk]; [now left|]. apply tours_in in Hk as [->|Hk]; [now left|now right].
  Qed.
  Variables (T : list Z) (V L : Z -> Z).
  Hypothesis Pl : forall w, vertex g w -> at_tour T w (V w) (L w).
  Lemma lca_range u v a : vertex g u -> vertex g v -> is_lca pf u v a -> V u <= V v ->
    (exists i, V u <= i <= V v /\ vget T i = Ok a) /\ forall i x, V u <= i <= V v -> vget T i = Ok x -> vertex g x /\ ancestor pf a x.
  Proof.
    intros Hu Hv (Au & Av & Lo) Le. pose proof (anc_vertex g pf R a u Au Hu) as Ha. destruct (at_pos T a _ _ (Pl a Ha)) as (Ta & _ & _ & _ & Pa). destruct (at_pos T u _ _ (Pl u Hu)) as (Tu & _). destruct (at_pos T v _ _ (Pl v Hv)) as (Tv & _).
    pose proof (proj1 (Pa _ _ Tu) (conj Hu Au)) as Ru. pose proof (proj1 (Pa _ _ Tv) (conj Hv Av)) as Rv. split; [|intros i x Hi Ex; apply (Pa _ _ Ex); lia].
    destruct (Z.eq_dec u a) as [->|Nu]; [exists (V a); split; [lia|auto]|].
    (* the child of a above u *)
    destruct Au as (k & C). assert (X : exists d, pf d = a /\ vertex g d /\ ancestor pf d u).
    { clear - C Hu R Nu. induction C as [w|k w b N C IH]; [congruence|]. destruct (Z.eq_dec (pf w) b) as [E|E]; [exists w; split; auto; split; auto; apply anc_refl|]. destruct (IH (par_vertex g pf R w Hu N) E) as (d & Pd & Vd & Ad). exists d. split; auto. split; auto. eapply anc_trans; [exact Ad|]. now apply anc_par. }
    destruct X as (d & Pd & Vd & Ad). destruct (at_pos T d _ _ (Pl d Vd)) as (_ & Td & _ & _ & Qd). pose proof (proj1 (Qd _ _ Tu) (conj Hu Ad)) as Rd.
    assert (Nv : ~ ancestor pf d v). { intros Bv. pose proof (anc_dep g pf dep rt R D _ _ (Lo d Ad Bv) Ha). pose proof (dep_par g pf dep rt D d Vd ltac:(rewrite Pd; unfold vertex in Ha; lia)). rewrite Pd in H0. lia. }
    exists (L d). split; [|rewrite Td; unfold ETour_proof2.pn; rewrite Pd; destruct (Z.eqb_spec a (-1)); [unfold vertex in Ha; lia|auto]].
    destruct (Z.lt_ge_cases (V v) (L d)) as [Lt|Ge]; [exfalso; apply Nv, (Qd _ _ Tv); lia|lia].
  Qed.
End Queries.

Lemma euler_tour_ok g r : tree g -> vertex g r -> zlen g <= 2 ^ 28 -> exists a par, et_new g r = Ok a /\ rooted g par /\ (forall v, vertex g v -> par v = -1 <-> v = r) /\
  (forall u, vertex g u -> exists d, et_depth a u = Ok d /\ depth par u d) /\
  (forall u, vertex g u -> et_parent a u = Ok (par u)) /\
  (forall u v, vertex g u -> vertex g v -> exists c, et_lca a u v = Ok c /\ is_lca par u v c) /\
  (forall u v, vertex g u -> vertex g v -> exists d, et_dist a u v = Ok d /\ best (hop g) u v d) /\
  (forall u, vertex g u -> exists i j, et_visit_time a u = Ok i /\ et_leave_time a u = Ok j /\ 0 <= i < j /\ j < 2 * zlen g /\
     forall w k, vertex g w -> et_visit_time a w = Ok k -> (ancestor par u w <-> i <= k < j)).
Proof.
  intros Tr Vr Sz. destruct (tree_rooted g r Tr Vr) as (par & dep & rt & t & R & D & F & Rt & P0 & Un & Al). pose proof (zlen_nonneg g) as Zn. set (n := zlen g) in *. pose proof Vr as Vr'. unfold vertex in Vr'. fold n in Vr'.
  unfold et_new. fold n. destruct (ceil_pow2_ok (2 * n)) as (h & Hh & Em & Hm). rewrite Em. cbn [bind]. set (m := 2 ^ h) in *.
  assert (Pm : 0 < m) by (apply Z.pow_pos_nonneg; lia). rewrite !vrep_vec by lia. rewrite vset_vec by lia. cbn [bind]. rewrite vset_vec by lia. cbn [bind]. set (D0 := fput (fput (fun _ => 0) r 0) n int_max).
  assert (Pn : pn g par (root t) = n) by (unfold pn; rewrite Rt, P0; reflexivity). assert (Ln : zlen (nodes t) = n) by exact (L_len g par dep rt t R D F Al).
  destruct (tour_walk g par dep rt R D m t F (length g) [] (fun _ => 0) (fun _ => 0) D0 (vrep (2 * m) n)) as (V & L & Dp & seg & Ew & Lv & Fr & Fo).
  - apply (fits_size g par dep rt R D t F).
  - split; [apply zlen_vrep; lia|]. split; [intros i Hi; unfold zlen in Hi; cbn in Hi; lia|]. intros i Hi. change (zlen (@nil Z)) with 0 in Hi. apply vget_vrep. lia.
  - change (zlen (@nil Z)) with 0. lia.
  - rewrite Rt. unfold D0. rewrite fput_diff by lia. rewrite fput_same. symmetry. now apply (dep_root g par dep rt D).
  - rewrite Pn, Rt in Ew. change (zlen (@nil Z)) with 0 in Ew. fold n in Ew. rewrite (vrep_vec (2 * m) n) in Ew by lia. rewrite Ew. cbn [bind]. clear Ew. cbn [app] in Lv. rewrite Pn in Lv, Fo. set (T := tour n t) in *.
    assert (LT : zlen T = 2 * n) by (unfold T; rewrite tour_len; lia).
    assert (Dn : Dp n = int_max). { destruct (Fr n) as (_ & _ & ->); [intros I; apply Al in I; unfold vertex in I; fold n in I; lia|]. unfold D0. apply fput_same. }
    assert (Dv : forall v, vertex g v -> Dp v = dep v) by (intros v Hv; apply (Fo v); now apply Al).
    assert (Pl : forall w, vertex g w -> at_tour g par T w (V w) (L w)). { intros w Hw. destruct (Fo w (proj2 (Al w) Hw)) as (_ & i & j & A & E1 & E2). change (zlen (@nil Z)) with 0 in E1, E2. rewrite E1, E2. now rewrite !Z.add_0_l. }
    set (tl := fun i => match vget T i with Ok x => x | _ => n end). set (okv := fun x => 0 <= x <= n).
    assert (Tin : forall i x, vget T i = Ok x -> okv x). { intros i x E. apply vget_In in E. apply tour_in in E as [->|E]; [unfold okv; lia|]. apply Al in E. unfold vertex in E. fold n in E. unfold okv. lia. }
    destruct Lv as (Lseg & La & Lb).
    assert (Hd : forall x, okv x -> vget (vec (n + 1) Dp) x = Ok (Dp x)) by (intros x Hx; unfold okv in Hx; apply vget_vec; lia).
    assert (Hl : forall i, 0 <= i < m -> okv (tl i)). { intros i Hi. unfold tl. destruct (vget T i) eqn:E; try (unfold okv; lia). eapply Tin; eauto. }
    assert (Dlt : forall v, vertex g v -> Dp v < int_max). { intros v Hv. rewrite Dv by auto. pose proof (dep_small g par dep rt R D v Hv). fold n in H. unfold int_max. change (2 ^ 28) with 268435456 in Sz. lia. }
    assert (He : okv n /\ forall x, okv x -> Dp x <= Dp n). { split; [unfold okv; lia|]. intros x Hx. destruct (Z.eq_dec x n) as [->|N]; [lia|]. rewrite Dn. assert (vertex g x) by (unfold vertex, okv in *; fold n; lia). specialize (Dlt x H). lia. }
    assert (Leaf : forall i, 0 <= i < m -> vget seg (m + i) = Ok (tl i)).
    { intros i Hi. unfold tl. destruct (Z.lt_ge_cases i (zlen T)) as [Lt|Ge]; [rewrite La by lia; destruct (vget_Ok T i ltac:(lia)) as (x & ->); auto|]. rewrite Lb by lia. destruct (vget T i) eqn:E; auto. apply vget_range in E. lia. }
    destruct (build_ok m h tl Dp okv (vec (n + 1) Dp) n Hh eq_refl Hd Hl seg Lseg Leaf) as (seg' & Es & Ls' & Leaf' & Nodes).
    rewrite Es. cbn [bind]. set (a := ET n m (vec n V) (vec n L) (vec (n + 1) Dp) seg').
    assert (VV : forall u, vertex g u -> vget (vec n V) u = Ok (V u)) by (intros u Hu; apply vget_vec; exact Hu). assert (VL : forall u, vertex g u -> vget (vec n L) u = Ok (L u)) by (intros u Hu; apply vget_vec; exact Hu).
    assert (Loop : forall u v c, vertex g u -> vertex g v -> is_lca par u v c -> V u <= V v -> et_loop a (m + V u) (m + V v + 1) = Ok c).
    { intros u v c Hu Hv Lc Le. destruct (at_pos g par dep rt R D T u _ _ (Pl u Hu)) as (_ & _ & Bu & _). destruct (at_pos g par dep rt R D T v _ _ (Pl v Hv)) as (_ & _ & Bv & Bv2 & _). rewrite LT in Bv2.
      destruct (query_ok m h tl Dp okv (vec (n + 1) Dp) n Hh eq_refl Hd Hl He a (conj eq_refl (conj eq_refl eq_refl)) Nodes (V u) (V v + 1) ltac:(lia) ltac:(lia)) as (x & Ex & Ox & Lx & Mx). rewrite <- Z.add_assoc, Ex. f_equal.
      destruct (lca_range g par dep rt R D T V L Pl u v c Hu Hv Lc Le) as ((i & Hi & Ei) & All). assert (Vc : vertex g c) by (apply (anc_vertex g par R c u); auto; apply Lc).
      pose proof (Lx i ltac:(lia) ltac:(lia)) as X. unfold tl in X. rewrite Ei in X. destruct Mx as [->|(k & Hk & Hk2 & Ek)]; [specialize (Dlt c Vc); lia|].
      destruct (vget_Ok T k ltac:(lia)) as (y & Ey). unfold tl in Ek. rewrite Ey in Ek. subst y. destruct (All k x ltac:(lia) Ey) as (Vx & Ax). symmetry. apply (anc_dep_eq g par dep rt R D); auto. rewrite !Dv in X by auto. pose proof (anc_dep g par dep rt R D _ _ Ax Vx). lia. }
    assert (Lca : forall u v c, vertex g u -> vertex g v -> is_lca par u v c -> et_lca a u v = Ok c).
    { intros u v c Hu Hv Lc. unfold et_lca. cbn [et_visit et_m a]. rewrite !VV by auto. cbn [bind]. rewrite Z.gtb_ltb. destruct (Z.ltb_spec (V v) (V u)); [|now apply Loop]. apply Loop; auto; [now apply lca_sym|lia]. }
    assert (Cn : forall u v, vertex g u -> vertex g v -> connected g u v) by apply Tr.
    exists a, par. split; auto. split; auto. split; [intros v Hv; split; [now apply Un|now intros ->]|]. split; [|split; [|split; [|split]]].
    + intros u Hu. exists (dep u). split; [|now apply (depth_dep g par dep rt D)]. unfold et_depth. cbn [et_dep a]. rewrite vget_vec by (unfold vertex in Hu; fold n in Hu; lia). f_equal. now apply Dv.
    + intros u Hu. unfold et_parent. cbn [et_leave et_seg et_m et_n a]. rewrite VL by auto. cbn [bind]. destruct (at_pos g par dep rt R D T u _ _ (Pl u Hu)) as (_ & Tp & B1 & B2 & _). rewrite LT in B2. rewrite Leaf' by lia. cbn [bind]. unfold tl. rewrite Tp. unfold pn. fold n.
      destruct (Z.eqb_spec (par u) (-1)) as [E|E]; [rewrite Z.eqb_refl; congruence|]. pose proof (par_vertex g par R u Hu E) as Vp. unfold vertex in Vp. fold n in Vp. destruct (Z.eqb_spec (par u) n); [lia|auto].
    + intros u v Hu Hv. destruct (lca_exists g par dep rt R D u v Hu Hv (Cn u v Hu Hv)) as (c & Lc). exists c. auto.
    + intros u v Hu Hv. destruct (lca_exists g par dep rt R D u v Hu Hv (Cn u v Hu Hv)) as (c & Lc). destruct (proj1 Lc) as (i & Ci). destruct (proj1 (proj2 Lc)) as (j & Cj). pose proof (anc_vertex g par R c u (proj1 Lc) Hu) as Hc.
      assert (DV : forall v, vertex g v -> vget (et_dep a) v = Ok (dep v)) by (intros w Hw; cbn [et_dep a]; rewrite vget_vec by (unfold vertex in Hw; fold n in Hw; lia); f_equal; now apply Dv).
      exists (i + j). split.
      * unfold et_dist. rewrite !DV by auto. cbn [bind]. rewrite (Lca u v c) by auto. cbn [bind]. rewrite DV by auto. cbn [bind]. f_equal. pose proof (dep_climb g par dep rt R D _ _ _ Ci Hu). pose proof (dep_climb g par dep rt R D _ _ _ Cj Hv). lia.
      * split; [eexists; apply (treepath_ok g par dep rt R D u v c i j); auto|]. intros d (p & Rp). apply (dist_best g par dep rt R D u v p d Rp Hu c); auto.
    + intros u Hu. exists (V u), (L u). unfold et_visit_time, et_leave_time. cbn [et_visit et_leave a]. destruct (at_pos g par dep rt R D T u _ _ (Pl u Hu)) as (_ & _ & B1 & B2 & Q). rewrite LT in B2. split; [now apply VV|]. split; [now apply VL|]. split; [lia|]. split; [lia|].
      intros w k Hw Ek. rewrite VV in Ek by auto. injection Ek as <-. destruct (at_pos g par dep rt R D T w _ _ (Pl w Hw)) as (Tw & _). rewrite <- (Q _ _ Tw). tauto.
Qed.
