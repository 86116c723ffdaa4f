(* Proofs about LowLink_model: construction and queries. *)
From Verif Require Import Base BaseLemmas ListZ Seq ListMore SpSeg_proof UnionFind_proof Kruskal_proof Perm_proof LowLink_spec LowLink_model LowLink_proof LowLink_proof2 LowLink_proof3.

Lemma for_snoc {S} (body : Z -> S -> res S) i s : 0 <= i -> for_ 0 (i + 1) body s = let* s' := for_ 0 i body s in body i s'.
Proof. intro Hi. unfold for_. replace (Z.to_nat (i + 1 - 0)) with (Z.to_nat (i - 0) + 1)%nat by lia. rewrite for_up_snoc. replace (0 + Z.of_nat (Z.to_nat (i - 0))) with i by lia. reflexivity. Qed.
Lemma filter_snoc {X} (f : X -> bool) l x : filter f (l ++ [x]) = filter f l ++ (if f x then [x] else []).
Proof. rewrite filter_app. cbn [filter]. reflexivity. Qed.

(* adjacency lists of the edges E *)
Record adjacency (n : Z) (E : list (Z * Z)) (G : Z -> list (Z * Z)) : Prop := {
  ad_in : forall x y id, 0 <= x < n -> (In (y, id) (G x) <-> vget E id = Ok (x, y) \/ vget E id = Ok (y, x));
  ad_nd : forall x, 0 <= x < n -> NoDup (map snd (filter (fun e => negb (fst e =? x)) (G x)))
}.
Definition edged (n : Z) (E : list (Z * Z)) (s : ll) : Prop :=
  l_n s = n /\ l_edges s = E /\ graph_on n E /\ exists G, rep (l_g s) n G /\ adjacency n E G.
Lemma edged_new n : 0 <= n -> edged n [] (ll_new n).
Proof.
  intro Hn. split; [auto|]. split; [auto|]. split; [intros a b []|]. exists (fun _ => []). split; [apply rep_vrep; auto|]. split.
  - intros x y id _. split; [intros []|]. intros [H|H]; apply vget_range in H; change (zlen (@nil (Z * Z))) with 0 in H; lia.
  - intros. constructor.
Qed.
Lemma vget_snoc {X} (E : list X) e id x : vget (E ++ [e]) id = Ok x <-> vget E id = Ok x \/ (id = zlen E /\ x = e).
Proof.
  split.
  - intro H. pose proof (vget_range _ _ _ H) as R. rewrite zlen_app in R. change (zlen [e]) with 1 in R. destruct (Z.eq_dec id (zlen E)) as [->|N].
    + right. split; auto. rewrite vget_app2, Z.sub_diag in H by lia. injection H. auto.
    + left. rewrite vget_app1 in H by lia. auto.
  - intros [H|(-> & ->)]; [rewrite vget_app1; [auto|apply vget_range in H; lia]|]. rewrite vget_app2, Z.sub_diag by lia. reflexivity.
Qed.
Lemma add_ok n E s u v : edged n E s -> 0 <= u < n -> 0 <= v < n ->
  exists s', ll_add s u v = Ok (zlen E, s') /\ edged n (E ++ [(u, v)]) s' /\ l_ds s' = l_ds s /\ l_conn s' = l_conn s /\ l_built s' = false.
Proof.
  intros (En & Ee & HE & G & R & [A1 A2]) Hu Hv. unfold ll_add. cbv zeta. rewrite Ee. rewrite (rep_get _ _ _ u R Hu). cbn [bind]. rewrite (rep_set _ _ _ u _ R Hu). cbn [bind].
  pose proof (rep_upd _ _ _ u (G u ++ [(v, zlen E)]) R Hu) as R1. rewrite (rep_get _ _ _ v R1 Hv). cbn [bind]. rewrite (rep_set _ _ _ v _ R1 Hv). cbn [bind].
  set (G1 := fupd G u (G u ++ [(v, zlen E)])) in *. pose proof (rep_upd _ _ _ v (G1 v ++ [(u, zlen E)]) R1 Hv) as R2. set (G2 := fupd G1 v (G1 v ++ [(u, zlen E)])) in *.
  eexists. split; [reflexivity|]. cbn [l_ds l_conn l_built]. split; [|auto]. unfold edged. cbn [l_n l_edges l_g]. split; [auto|]. split; [reflexivity|].
  split; [intros a b I; apply in_app_or in I; destruct I as [I|[I|[]]]; [apply HE; auto|injection I as <- <-; auto]|]. exists G2. split; [exact R2|].
  assert (FORM : forall x, G2 x = G x ++ (if x =? u then [(v, zlen E)] else []) ++ (if x =? v then [(u, zlen E)] else [])).
  { intro x. unfold G2, G1. destruct (Z.eqb_spec x v) as [->|Nv].
    - rewrite fupd_same. destruct (Z.eqb_spec v u) as [->|Nu]; [rewrite fupd_same|rewrite fupd_diff by auto]; rewrite <- ?app_assoc; reflexivity.
    - rewrite fupd_diff by auto. destruct (Z.eqb_spec x u) as [->|Nu]; [rewrite fupd_same|rewrite fupd_diff by auto]; rewrite ?app_nil_r; reflexivity. }
  split.
  - intros x y id Hx. rewrite FORM, !in_app_iff, A1, !vget_snoc by auto. split.
    + intros [[H|H]|[H|H]]; [auto|auto| |].
      * destruct (Z.eqb_spec x u) as [->|]; [|destruct H]. destruct H as [H|[]]. injection H as <- <-. auto.
      * destruct (Z.eqb_spec x v) as [->|]; [|destruct H]. destruct H as [H|[]]. injection H as <- <-. auto.
    + intros [[H|(-> & H)]|[H|(-> & H)]]; [auto| |auto|]; injection H as -> ->; right; [left; rewrite Z.eqb_refl; left; auto|right; rewrite Z.eqb_refl; left; auto].
  - intros x Hx. rewrite FORM, filter_app, map_app. apply NoDup_app3. split; [apply A2; auto|]. split.
    + destruct (Z.eqb_spec x u) as [->|Nu], (Z.eqb_spec u v) as [->|Nv]; cbn [app filter fst]; repeat (rewrite ?Z.eqb_refl; cbn [negb filter map app]);
        try (destruct (Z.eqb_spec x v); cbn [app filter fst]); repeat (destruct (_ =? _); cbn [negb filter map app]); repeat constructor; auto.
    + intros id I1 I2. apply in_map_iff in I1. destruct I1 as ((y & i1) & <- & I1). apply filter_In in I1. destruct I1 as (I1 & _). apply A1 in I1; auto. cbn [snd] in I2.
      assert (i1 < zlen E) by (destruct I1 as [I1|I1]; apply vget_range in I1; lia). apply in_map_iff in I2. destruct I2 as ((y2 & i2) & Q & I2). cbn [snd] in Q. apply filter_In in I2. destruct I2 as (I2 & _). apply in_app_or in I2.
      assert (i2 = zlen E); [|lia]. destruct I2 as [I2|I2]; [destruct (x =? u); [destruct I2 as [I2|[]]|destruct I2]|destruct (x =? v); [destruct I2 as [I2|[]]|destruct I2]]; congruence.
Qed.

(* what build establishes *)
Record cert (n : Z) (E : list (Z * Z)) (s : ll) (G : Z -> list (Z * Z)) (w : W) (rs : list Z) : Prop := {
  c_n : l_n s = n; c_E : l_edges s = E; c_on : graph_on n E; c_built : l_built s = true; c_conn : l_conn s = zlen rs;
  c_g : rep (l_g s) n G; c_adj : adjacency n E G;
  c_pre : rep (d_pre (l_ds s)) n (wP w); c_low : rep (d_low (l_ds s)) n (wL w); c_par : rep (d_par (l_ds s)) n (wA w);
  c_bnd : forall y, 0 <= y < n -> wP w y < n;
  c_inj : forall v v', 0 <= v < n -> 0 <= v' < n -> 0 <= wP w v -> wP w v = wP w v' -> v = v';
  c_pl : forall y, 0 <= y < n -> 0 <= wP w y /\ placed n G w y;
  c_rnd : NoDup rs; c_rin : forall r, In r rs <-> 0 <= r < n /\ wA w r = -1;
  c_bnd_br : NoDup (d_br (l_ds s)); c_br : forall id, In id (d_br (l_ds s)) <-> exists z, 0 <= z < n /\ wA w z <> -1 /\ wT w z = id /\ wP w (wA w z) < wL w z;
  c_and : NoDup (d_art (l_ds s)); c_ar : forall x, In x (d_art (l_ds s)) <-> is_art n w x;
  c_tr : exists bs ars, trees G w n (d_ord (l_ds s)) bs ars rs
}.
Lemma build_ok n E s : 0 <= n -> edged n E s -> l_ds s = l_ds (ll_new n) -> l_conn s = 0 -> exists s' G w rs, ll_build s = Ok s' /\ cert n E s' G w rs.
Proof.
  intros Hn (En & Ee & HE & G & R & AD) Ed Ec. unfold ll_build. rewrite Ed, Ec, En. cbv zeta. cbn [l_ds ll_new d_pre d_low d_par d_br d_art].
  pose proof (G1 n E G HE (ad_in _ _ _ AD)) as HG1. pose proof (G2 n E G HE (ad_in _ _ _ AD)) as HG2.
  destruct (build_loop n (l_g s) G R HG1 HG2 Hn) as (d & w & rs & EB & I & TR). rewrite EB. cbn [bind]. pose proof I as (R1 & R2 & R3 & O0 & B & J & CV).
  assert (inj : forall v v', 0 <= v < n -> 0 <= v' < n -> 0 <= wP w v -> wP w v = wP w v' -> v = v').
  { intros v v' Vv Vv' P0 Q. apply J; auto; split; auto; lia. }
  destruct (trees_all n G HG1 HG2 w inj _ _ _ _ _ TR ltac:(lia)) as (_ & _ & T3 & T4 & T5 & T6 & _).
  assert (PL : forall y, 0 <= y < n -> 0 <= wP w y /\ placed n G w y). { intros y Vy. specialize (T3 y Vy ltac:(lia)). split; [lia|]. apply T4; auto. }
  pose proof (T_inj n E G HE (ad_in _ _ _ AD) w inj PL) as TJ.
  destruct (trees_lists n G HG1 HG2 w inj PL TJ _ _ _ _ _ TR ltac:(lia)) as (L1 & L2 & L3 & L4).
  eexists. exists G, w, rs. split; [reflexivity|]. split; cbn [l_n l_edges l_g l_ds l_built l_conn]; auto.
  - intros y Vy. specialize (T3 y Vy ltac:(lia)). destruct CV as (vs & V1 & V2 & V3). assert (d_ord d <= n); [|lia]. rewrite <- V2.
    assert (length vs <= length (zrange n))%nat by (apply NoDup_incl_length; auto; intros v Iv; apply V3 in Iv; apply In_zrange; destruct Iv; auto).
    unfold zlen. pose proof (zlen_zrange n). unfold zlen in H0. lia.
  - intro r. rewrite T6. split; [tauto|]. intros (X1 & X2). split; [auto|]. split; [apply T3; auto; lia|auto].
  - intro id. rewrite L1. split; intros (z & Z1 & Z2); exists z; [tauto|]. split; [auto|]. split; [apply T3; auto; lia|auto].
  - intro x. rewrite L3. split; [tauto|]. intro X. split; [auto|]. destruct X as (Vx & _). apply T3; auto. lia.
  - eauto.
Qed.
Lemma adds_ok n es : 0 <= n -> graph_on n es -> exists s, for_each es (fun e s => let* (_, s) := ll_add s (fst e) (snd e) in Ok s) (ll_new n) = Ok s /\ edged n es s /\ l_ds s = l_ds (ll_new n) /\ l_conn s = 0.
Proof.
  intros Hn Hes. destruct (for_each_inv (fun done s => edged n done s /\ l_ds s = l_ds (ll_new n) /\ l_conn s = 0) es (fun e s => let* (_, s) := ll_add s (fst e) (snd e) in Ok s) (ll_new n)) as (s & X & I).
  - split; [apply edged_new; auto|auto].
  - intros done (u, v) tl s Es (I1 & I2 & I3). cbn [fst snd]. destruct (Hes u v) as (Hu & Hv); [rewrite Es; apply in_or_app; right; left; auto|].
    destruct (add_ok n done s u v I1 Hu Hv) as (s' & X & Y1 & Y2 & Y3 & _). rewrite X. cbn [bind]. eexists. split; [reflexivity|]. split; [auto|]. split; congruence.
  - exists s. auto.
Qed.
Lemma make_ok n es : 0 <= n -> graph_on n es -> exists s G w rs, ll_make n es = Ok s /\ cert n es s G w rs.
Proof.
  intros Hn Hes. destruct (adds_ok n es Hn Hes) as (s & X & I1 & I2 & I3). unfold ll_make. rewrite X. cbn [bind]. apply build_ok; auto.
Qed.

Section Q.
  Variable n : Z. Variable E : list (Z * Z). Variable s : ll. Variable G : Z -> list (Z * Z). Variable w : W. Variable rs : list Z.
  Hypothesis C : cert n E s G w rs.
  Notation vx v := (0 <= v < n).
  Notation P := (wP w). Notation A := (wA w). Notation L := (wL w). Notation T := (wT w). Notation Q := (wO w).
  Let HE := c_on _ _ _ _ _ _ C.
  Let HG := ad_in _ _ _ (c_adj _ _ _ _ _ _ C).
  Let inj := c_inj _ _ _ _ _ _ C.
  Let PL := c_pl _ _ _ _ _ _ C.
  Let RI : forall r, In r rs <-> vx r /\ A r = -1 := c_rin _ _ _ _ _ _ C.
  Let g1 := G1 n E G HE HG.
  Let g2 := G2 n E G HE HG.
  Lemma bridges_ok : ll_bridge_ids s = Ok (d_br (l_ds s)) /\ NoDup (d_br (l_ds s)) /\ forall id, In id (d_br (l_ds s)) <-> bridge E id.
  Proof.
    unfold ll_bridge_ids. rewrite (c_built _ _ _ _ _ _ C). split; [reflexivity|]. split; [apply C|]. intro id. rewrite (c_br _ _ _ _ _ _ C). symmetry. apply (bridge_iff n E G HE HG w inj PL).
  Qed.
  Lemma arts_ok : ll_articulation_points s = Ok (d_art (l_ds s)) /\ NoDup (d_art (l_ds s)) /\ forall u, In u (d_art (l_ds s)) <-> articulation n E u.
  Proof.
    unfold ll_articulation_points. rewrite (c_built _ _ _ _ _ _ C). split; [reflexivity|]. split; [apply C|]. intro u. rewrite (c_ar _ _ _ _ _ _ C). symmetry. apply (articulation_iff n E G HE HG w inj PL rs RI).
  Qed.
  Lemma conn_ok : ll_conn s = Ok (zlen rs) /\ components (fun v => vx v) E (zlen rs).
  Proof. unfold ll_conn. rewrite (c_built _ _ _ _ _ _ C), (c_conn _ _ _ _ _ _ C). split; [reflexivity|]. apply (comps n E G HE HG w inj PL rs); apply C. Qed.
  Lemma joins_G u v id : joins E id u v -> vx u /\ vx v /\ In (v, id) (G u) /\ In (u, id) (G v).
  Proof.
    intros (Hi & H). assert (X : vget E id = Ok (u, v) \/ vget E id = Ok (v, u)) by (destruct H as [H|H]; [left|right]; unfold vget; destruct (Z.ltb_spec id 0); try lia; rewrite H; reflexivity).
    assert (vx u /\ vx v) as (Vu & Vv) by (destruct X as [X|X]; apply vget_In in X; apply HE in X; tauto). split; [auto|]. split; [auto|]. split; apply HG; tauto.
  Qed.
  Lemma is_bridge_ok u v id : joins E id u v -> exists b, ll_is_bridge s u v = Ok b /\ (b = true <-> bridge E id) /\
    ll_conn_without_edge s u v = Ok (zlen rs + (if b then 1 else 0)) /\ components (fun v => vx v) (without_edge E id) (zlen rs + (if b then 1 else 0)).
  Proof.
    intro J. destruct (joins_G u v id J) as (Vu & Vv & I1 & I2).
    unfold ll_conn_without_edge, ll_is_bridge. rewrite (c_built _ _ _ _ _ _ C), (c_conn _ _ _ _ _ _ C). cbn [assert_ bind].
    rewrite (rep_get _ _ _ u (c_pre _ _ _ _ _ _ C) Vu), (rep_get _ _ _ v (c_pre _ _ _ _ _ _ C) Vv). cbn [bind].
    assert (RN : NoDup rs) by apply C.
    destruct (Z.ltb_spec (P v) (P u)) as [Lp|Lp].
    - rewrite (rep_get _ _ _ v (c_pre _ _ _ _ _ _ C) Vv), (rep_get _ _ _ u (c_low _ _ _ _ _ _ C) Vu). cbn [bind]. eexists. split; [reflexivity|]. split; [|split; [reflexivity|]].
      + rewrite Z.ltb_lt. apply (edge_bridge n E G HE HG w inj PL rs RI); auto. lia.
      + apply (comps_edge n E G HE HG w inj PL rs RN RI); auto. lia.
    - rewrite (rep_get _ _ _ u (c_pre _ _ _ _ _ _ C) Vu), (rep_get _ _ _ v (c_low _ _ _ _ _ _ C) Vv). cbn [bind]. eexists. split; [reflexivity|]. split; [|split; [reflexivity|]].
      + rewrite Z.ltb_lt. apply (edge_bridge n E G HE HG w inj PL rs RI); auto.
      + apply (comps_edge n E G HE HG w inj PL rs RN RI); auto.
  Qed.
  Definition unseen (l : list bool) : Prop := forall b, In b l -> b = false.
  Lemma unseen_rep l : unseen l <-> rep l (zlen l) (fun _ => false).
  Proof.
    split.
    - intro U. split; [auto|]. intros i Hi. destruct (vget_Ok l i Hi) as (b & Hb). rewrite Hb. f_equal. apply U. apply (vget_In _ _ _ Hb).
    - intros R b Ib. apply In_vget in Ib. destruct Ib as (i & Hi & Hb). rewrite (rep_get _ _ _ i R Hi) in Hb. congruence.
  Qed.
  Lemma without_vertex_ok u seen : vx u -> unseen seen -> exists k seen', ll_conn_without_vertex s seen u = Ok (k, seen') /\ unseen seen' /\
    components (fun v => vx v /\ v <> u) (without_vertex E u) k /\ (zlen rs < k <-> articulation n E u).
  Proof.
    intros Vu U. unfold ll_conn_without_vertex. rewrite (c_built _ _ _ _ _ _ C), (c_conn _ _ _ _ _ _ C), (c_n _ _ _ _ _ _ C). cbn [assert_ bind].
    match goal with |- context [if zlen seen <? n then ?a else ?b] => set (sn := if zlen seen <? n then a else b) end.
    assert (S0 : unseen sn /\ n <= zlen sn).
    { unfold sn. destruct (Z.ltb_spec (zlen seen) n); [|auto]. pose proof (zlen_nonneg seen). split; [|rewrite zlen_app, zlen_vrep; lia].
      intros b I. apply in_app_or in I. destruct I as [I|I]; [auto|]. apply In_vget in I. destruct I as (i & Hi & Hb). rewrite zlen_vrep in Hi by lia. rewrite vget_vrep in Hb by lia. congruence. }
    destruct S0 as (S0 & Sl). set (m := zlen sn) in *. apply unseen_rep in S0. fold m in S0. rewrite (rep_get _ _ _ u (c_g _ _ _ _ _ _ C) Vu). cbn [bind]. clearbody sn. clear U.
    assert (m_ok : m = zlen sn) by reflexivity. clearbody m.
    destruct (for_each_inv (fun (done : list (Z * Z)) (st : list bool * bool * Z) => let '(sn', root, r) := st in
        exists f cs, rep sn' m f /\ (forall v, vx v -> (f v = true <-> In v (map fst done) /\ A v = u)) /\ (forall v, ~ vx v -> f v = false) /\ (root = true <-> forall v, In v (map fst done) -> P u <= P v) /\
          NoDup cs /\ (forall z, In z cs <-> In z (map fst done) /\ A z = u /\ P u <= L z) /\ r = zlen cs) (G u) (ll_cw_body s u) (sn, true, 0)) as (((sn1 & root) & r) & E1 & f & cs & F1 & F2 & F2' & F3 & F4 & F5 & F6).
    { exists (fun _ => false), []. split; [auto|]. split; [intros v _; split; [discriminate|intros ([] & _)]|]. split; [auto|]. split; [split; [intros _ v []|auto]|]. split; [constructor|]. split; [intro z; split; [intros []|intros ([] & _)]|reflexivity]. }
    { intros done (v, id) tl ((sn1 & root) & r) Eg (f & cs & F1 & F2 & F2' & F3 & F4 & F5 & F6). assert (Iv : In (v, id) (G u)) by (rewrite Eg; apply in_or_app; right; left; auto).
      assert (ID : forall x, In x (map fst (done ++ [(v, id)])) <-> In x (map fst done) \/ x = v) by (intro x; rewrite map_app, in_app_iff; cbn [map In fst]; intuition congruence).
      destruct (g1 u v id Vu Iv) as (Vv & _). unfold ll_cw_body. rewrite (rep_get _ _ _ v (c_pre _ _ _ _ _ _ C) Vv), (rep_get _ _ _ u (c_pre _ _ _ _ _ _ C) Vu). cbn [bind].
      assert (AP : A v = u -> P u < P v). { intro X. pose proof (in_interval n G g1 g2 w inj PL v u Vv Vu X). lia. }
      destruct (Z.ltb_spec (P v) (P u)) as [Lp|Lp].
      { eexists. split; [reflexivity|]. exists f, cs. split; [auto|]. split; [|split; [auto|split; [|split; [auto|split; [|auto]]]]].
        - intros x Vx. rewrite F2, ID by auto. split; [tauto|]. intros ([X|X] & Y); [auto|]. subst x. specialize (AP Y). lia.
        - split; [discriminate|]. intro X. specialize (X v (proj2 (ID v) (or_intror eq_refl))). lia.
        - intro z. rewrite F5, ID. split; [tauto|]. intros ([X|X] & Y & Y'); [auto|]. subst z. specialize (AP Y). lia. }
      assert (F3' : root = true <-> (forall x, In x (map fst (done ++ [(v, id)])) -> P u <= P x)).
      { rewrite F3. split; intros X x Ix; [apply ID in Ix; destruct Ix as [Ix| ->]; auto|apply X, ID; auto]. }
      rewrite (rep_get _ _ _ v (c_par _ _ _ _ _ _ C) Vv). cbn [bind]. destruct (Z.eqb_spec (A v) u) as [Av|Av].
      - rewrite (rep_get _ _ _ v F1) by lia. cbn [bind]. destruct (f v) eqn:Fv.
        + eexists. split; [reflexivity|]. exists f, cs. apply F2 in Fv; auto. destruct Fv as (Fv & _). split; [auto|]. split; [|split; [auto|split; [auto|split; [auto|split; [|auto]]]]].
          * intros x Vx. rewrite F2, ID by auto. split; [tauto|]. intros ([X|X] & Y); [auto|]. subst x. auto.
          * intro z. rewrite F5, ID. split; [tauto|]. intros ([X|X] & Y); [auto|]. subst z. auto.
        + rewrite (rep_set _ _ _ v _ F1) by lia. cbn [bind]. rewrite (rep_get _ _ _ v (c_low _ _ _ _ _ _ C) Vv). cbn [bind]. assert (Nv : ~ In v (map fst done)). { intro X. enough (f v = true) by congruence. apply F2; auto. }
          eexists. split; [reflexivity|]. exists (fupd f v true), (if P u <=? L v then v :: cs else cs). split; [apply rep_upd; auto; lia|]. split; [|split; [|split; [auto|split; [|split]]]].
          * intros x Vx. rewrite ID. destruct (Z.eq_dec x v) as [->|Nx]; [rewrite fupd_same; tauto|rewrite fupd_diff by auto]. rewrite F2 by auto. tauto.
          * intros x Nx. rewrite fupd_diff; [auto|]. intros ->. auto.
          * destruct (P u <=? L v); [constructor; auto; rewrite F5; tauto|auto].
          * intro z. rewrite ID. destruct (Z.leb_spec (P u) (L v)); cbn [In]; rewrite F5.
            -- split; [intros [<-|X]; [auto|tauto]|]. intros ([X|X] & Y); [auto|left; auto].
            -- split; [tauto|]. intros ([X|X] & Y & Y'); [auto|]. subst z. lia.
          * destruct (P u <=? L v); [rewrite zlen_cons|]; lia.
      - eexists. split; [reflexivity|]. exists f, cs. split; [auto|]. split; [|split; [auto|split; [auto|split; [auto|split; [|auto]]]]].
        + intros x Vx. rewrite F2, ID by auto. split; [tauto|]. intros ([X|X] & Y); [auto|]. subst x. congruence.
        + intro z. rewrite F5, ID. split; [tauto|]. intros ([X|X] & Y & Y'); [auto|]. subst z. congruence. }
    rewrite E1. cbn [bind].
    destruct (for_each_inv (fun (done : list (Z * Z)) sn' => exists f', rep sn' m f' /\ forall v, f' v = if existsb (Z.eqb v) (map fst done) then false else f v) (G u) (fun e seen => vset seen (fst e) false) sn1) as (sn2 & E2 & f' & R2 & F').
    { exists f. split; [auto|]. intro v. reflexivity. }
    { intros done (v, id) tl sn' Eg (f' & R' & F'). assert (Iv : In (v, id) (G u)) by (rewrite Eg; apply in_or_app; right; left; auto). destruct (g1 u v id Vu Iv) as (Vv & _). cbn [fst].
      rewrite (rep_set _ _ _ v _ R') by lia. eexists. split; [reflexivity|]. exists (fupd f' v false). split; [apply rep_upd; auto; lia|]. intro x. rewrite map_app, existsb_app. cbn [map existsb fst]. rewrite Bool.orb_false_r.
      destruct (Z.eqb_spec x v) as [->|Nx]; [rewrite fupd_same, Bool.orb_true_r; reflexivity|rewrite fupd_diff, Bool.orb_false_r by auto; apply F']. }
    rewrite E2. cbn [bind]. eexists. eexists. split; [reflexivity|].
    assert (CH : forall z, vx z -> A z = u -> In z (map fst (G u))).
    { intros z Vz Az. destruct (par n E G HE HG w inj PL z Vz ltac:(lia)) as (_ & _ & I & _). rewrite Az in I. apply in_map_iff. exists (z, T z). auto. }
    assert (RT : root = (A u =? -1)).
    { apply Bool.eq_iff_eq_true. rewrite F3, Z.eqb_eq. split.
      - intro X. destruct (Z.eq_dec (A u) (-1)); [auto|exfalso]. destruct (par n E G HE HG w inj PL u Vu n0) as (VA & _ & I & PA & _). apply (G_sym n E G HE HG) in I; auto.
        specialize (X (A u)). enough (P u <= P (A u)) by lia. apply X. apply in_map_iff. exists (A u, T u). auto.
      - intros Au v Iv. apply in_map_iff in Iv. destruct Iv as ((v1 & id) & X & Iv). cbn [fst] in X. subst v1. destruct (root_closed n E G HE HG w inj PL u u v id Vu Au (sub_self n E G HE HG w inj PL u Vu) Iv) as (_ & X). lia. }
    assert (CS : forall z, In z cs <-> vx z /\ A z = u /\ P u <= L z).
    { intro z. rewrite F5. split.
      - intros (X & Y). split; [|auto]. apply in_map_iff in X. destruct X as ((z1 & id) & X & Iz). cbn [fst] in X. subst z1. apply (g1 u z id Vu Iz).
      - intros (X & Y & Y'). split; [apply CH; auto|auto]. }
    assert (RN : NoDup rs) by apply C.
    pose proof (comps_vertex n E G HE HG w inj PL rs RN RI u cs Vu F4 CS) as CM. split; [|split].
    - apply unseen_rep. assert (zlen sn2 = m) as -> by apply R2. apply (rep_ext _ _ _ _ R2). intros v Vv. rewrite F'. destruct (existsb (Z.eqb v) (map fst (G u))) eqn:X; [auto|].
      destruct (Z_le_gt_dec 0 v) as [V1|V1]; [destruct (Z_lt_ge_dec v n) as [V2|V2]|]; try (apply F2'; lia). destruct (f v) eqn:Fv; [|auto]. exfalso. apply F2 in Fv; [|lia]. destruct Fv as (Y & _).
      enough (existsb (Z.eqb v) (map fst (G u)) = true) by congruence. apply existsb_exists. exists v. split; [auto|apply Z.eqb_refl].
    - subst r. rewrite RT. replace (zlen rs - 1 + zlen cs + (if A u =? -1 then 0 else 1)) with (zlen rs - (if A u =? -1 then 1 else 0) + zlen cs); [auto|]. destruct (A u =? -1); lia.
    - subst r. rewrite RT, (articulation_iff n E G HE HG w inj PL rs RI). unfold is_art. destruct (Z.eqb_spec (A u) (-1)) as [Au|Au].
      + split.
        * intro X. split; [auto|]. left. split; [auto|]. destruct cs as [|z [|z' cs]]; [change (zlen (@nil Z)) with 0 in X; lia|change (zlen [z]) with 1 in X; lia|]. inversion F4; subst. exists z, z'. split; [intros ->; apply H1; left; auto|].
          destruct (proj1 (CS z) ltac:(left; auto)) as (? & ? & _). destruct (proj1 (CS z') ltac:(right; left; auto)) as (? & ? & _). auto.
        * intros (_ & [(_ & z & z' & X1 & X2 & X3 & X4 & X5)|(X & _)]); [|congruence]. assert (incl [z; z'] cs) as X by (intros q [<-|[<-|[]]]; apply CS; (split; [auto|]); (split; [auto|]); apply (root_child_cut n E G HE HG w inj PL rs RI); auto).
          apply NoDup_incl_length in X; [|repeat constructor; cbn; intuition congruence]. assert (2 <= zlen cs) by (unfold zlen; cbn [length] in X; lia). lia.
      + split.
        * intro X. split; [auto|]. right. split; [auto|]. destruct cs as [|z cs]; [change (zlen (@nil Z)) with 0 in X; lia|]. exists z. apply CS. left; auto.
        * intros (_ & [(X & _)|(_ & z & Z1)]); [congruence|]. apply CS in Z1. destruct cs as [|z' cs]; [destruct Z1|]. rewrite zlen_cons. pose proof (zlen_nonneg cs). lia.
  Qed.
  Lemma is_art_ok u seen : vx u -> unseen seen -> exists b seen', ll_is_articulation s seen u = Ok (b, seen') /\ unseen seen' /\ (b = true <-> articulation n E u).
  Proof.
    intros Vu U. destruct (without_vertex_ok u seen Vu U) as (k & seen' & X & U' & _ & AI). unfold ll_is_articulation. rewrite X, (proj1 conn_ok), (c_built _ _ _ _ _ _ C). cbn [assert_ bind].
    eexists. eexists. split; [reflexivity|]. split; [auto|]. rewrite Z.ltb_lt. auto.
  Qed.
End Q.
