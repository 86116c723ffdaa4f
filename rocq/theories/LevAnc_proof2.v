(* LevelAncestor: the buckets and the query *)
From Verif Require Import Base BaseLemmas ListZ ListMore Graph_spec Tree_spec BFS_proof Tree_proof Tree_proof2 Tree_proof3 Tree_proof4 Tree_proof5 HLD_proof HLD_proof3 LowLink_proof4 LevAnc_model LevAnc_proof.

Lemma filter_len_app {A} (f : A -> bool) a b : zlen (filter f (a ++ b)) = zlen (filter f a) + zlen (filter f b). Proof. now rewrite filter_app, zlen_app. Qed.
Lemma sub_rose g par t : fits g par t -> forall w, In w (nodes t) -> exists c pre post, fits g par c /\ root c = w /\ nodes t = pre ++ nodes c ++ post.
Proof.
  induction 1 as [u cs adj Hu Ea M P F IH]. intros w Hw. cbn [nodes] in Hw. destruct Hw as [<-|Hw].
  - exists (Rose u cs), [], []. split; [econstructor; eauto|]. split; auto. now rewrite app_nil_r.
  - apply in_flat_map in Hw as (c & Ic & Hw). destruct (IH c Ic w Hw) as (d & pre & post & Fd & Rd & E). apply in_split in Ic as (c1 & c2 & ->).
    exists d, (u :: cnodes c1 ++ pre), (post ++ cnodes c2). split; auto. split; auto. cbn [nodes app]. rewrite flat_map_app. cbn [flat_map]. rewrite E. rewrite <- !app_assoc. reflexivity.
Qed.
Lemma dep_small g par dep rt : rooted g par -> dep_ok g par dep rt -> forall v, vertex g v -> dep v < zlen g.
Proof.
  intros R D v Hv. destruct (D v Hv) as (C & E & P & Vr & _ & _). set (r := rt v) in *. rewrite <- (Z2Nat.id (dep v)) in C by lia. set (k := Z.to_nat (dep v)) in *.
  assert (Nd : NoDup (r :: ups par k v)).
  { constructor; [|eapply ups_nodup; eauto]. intros I. destruct (ups_In par k v r I r C) as (j & Hj & Cj). pose proof (dep_climb g par dep rt R D _ _ _ Cj Hv). pose proof (dep_climb g par dep rt R D _ _ _ C Hv). lia. }
  assert (X : zlen (r :: ups par k v) <= Z.max 0 (zlen g)).
  { apply NoDup_range_length; auto. intros x [<-|Hx]; [exact Vr|]. destruct (ups_In par k v x Hx r C) as (j & _ & Cj). eapply climb_vertex; eauto. }
  assert (Lu : forall k v, length (ups par k v) = k) by (clear; induction k; intros; cbn [ups length]; auto). rewrite zlen_cons in X. unfold zlen at 1 in X. rewrite Lu in X. unfold k in X. pose proof (zlen_nonneg g). lia.
Qed.

Section Buckets.
  Variables (n : Z) (dep : Z -> Z) (L : list Z).
  Notation at_ := (at_ dep).
  Definition below (d : Z) : Z := zlen (filter (fun v => dep v <? d) L).
  Lemma below_S d : below (d + 1) = below d + at_ d L.
  Proof.
    unfold below, LevAnc_proof.at_. induction L as [|v l IH]; [reflexivity|]. cbn [filter]. destruct (Z.ltb_spec (dep v) d), (Z.ltb_spec (dep v) (d + 1)), (Z.eqb_spec (dep v) d); try lia; rewrite ?zlen_cons; lia.
  Qed.
  Lemma at_nonneg d l : 0 <= at_ d l. Proof. apply zlen_nonneg. Qed.
  Lemma below_mono d e : d <= e -> below d <= below e.
  Proof.
    unfold below. intros H. induction L as [|v l IH]; [cbn [filter]; lia|]. cbn [filter]. destruct (Z.ltb_spec (dep v) d), (Z.ltb_spec (dep v) e); try lia; rewrite ?zlen_cons; lia.
  Qed.
  Lemma below_top d : below d <= zlen L.
  Proof. unfold below. induction L as [|v l IH]; [unfold zlen; cbn; lia|]. cbn [filter]. destruct (dep v <? d); rewrite ?zlen_cons in *; lia. Qed.
  Hypothesis range : forall v, In v L -> 0 <= dep v < n.
  Lemma below_0 : below 0 = 0.
  Proof.
    unfold below. assert (H : forall l, (forall v, In v l -> 0 <= dep v < n) -> filter (fun v => dep v <? 0) l = []).
    { induction l as [|v l IH]; intros H; auto. cbn [filter]. destruct (Z.ltb_spec (dep v) 0); [specialize (H v (or_introl eq_refl)); lia|]. apply IH. intros; apply H; now right. }
    rewrite H; auto.
  Qed.
  Lemma prefix_ok cnt : 0 <= n -> zlen cnt = n + 1 -> vget cnt 0 = Ok 0 -> (forall d, 0 <= d < n -> vget cnt (d + 1) = Ok (at_ d L)) ->
    exists cnt', for_ 0 n (fun i cnt => let* a := vget cnt (i + 1) in let* b := vget cnt i in vset cnt (i + 1) (a + b)) cnt = Ok cnt' /\ zlen cnt' = n + 1 /\ forall d, 0 <= d <= n -> vget cnt' d = Ok (below d).
  Proof.
    intros Hn Ln E0 E1.
    destruct (for_inv (fun i c => zlen c = n + 1 /\ (forall d, 0 <= d <= i -> vget c d = Ok (below d)) /\ forall d, i <= d < n -> vget c (d + 1) = Ok (at_ d L)) 0 n (fun i cnt => let* a := vget cnt (i + 1) in let* b := vget cnt i in vset cnt (i + 1) (a + b)) cnt) as (c & E & L' & B & _); auto.
    - split; auto. split; auto. intros d Hd. replace d with 0 by lia. now rewrite below_0.
    - intros i c Hi (Lc & B & A). rewrite A, B by lia. cbn [bind]. rewrite vset_ok by lia. eexists. split; [reflexivity|]. rewrite zlen_zupd. split; auto. split.
      + intros d Hd. destruct (Z.eq_dec d (i + 1)) as [->|Nd]; [rewrite vget_zupd_same, below_S by lia; f_equal; lia|]. rewrite vget_zupd_diff by lia. apply B. lia.
      + intros d Hd. rewrite vget_zupd_diff by lia. apply A. lia.
    - exists c. auto.
  Qed.
  Variables (tau : Z -> Z) (dp vt cnt : list Z).
  Hypothesis Ln : zlen L = n.
  Hypothesis Edp : forall v, In v L -> vget dp v = Ok (dep v).
  Hypothesis Evt : forall v, In v L -> vget vt v = Ok (tau v).
  Hypothesis Lc : zlen cnt = n + 1.
  Hypothesis Ec : forall d, 0 <= d <= n -> vget cnt d = Ok (below d).
  Definition filled (P : list Z) (bkt : list Z) : Prop := forall d r x, 0 <= d < n -> vget (filter (fun v => dep v =? d) P) r = Ok x -> vget bkt (below d + r) = Ok (tau x).
  Lemma at_le d P Q : L = P ++ Q -> 0 <= d -> below d + at_ d P <= below (d + 1).
  Proof. intros E Hd. rewrite below_S. unfold LevAnc_proof.at_. rewrite E. rewrite filter_len_app. pose proof (zlen_nonneg (filter (fun v => dep v =? d) Q)). lia. Qed.
  Lemma bucket_ok : exists index bkt, for_each L (fun v (s : list Z * list Z) => let '(index, bkt) := s in
      let* d := vget dp v in
      let* k := vget index d in
      let* t := vget vt v in
      let* bkt := vset bkt k t in
      let* index := vset index d (k + 1) in
      Ok (index, bkt)) (cnt, vrep n 0) = Ok (index, bkt) /\ zlen bkt = n /\ filled L bkt.
  Proof.
    assert (Hn : 0 <= n) by (rewrite <- Ln; apply zlen_nonneg).
    destruct (for_each_inv (fun P (s : list Z * list Z) => let '(ix, bk) := s in zlen ix = n + 1 /\ zlen bk = n /\ (forall d, 0 <= d < n -> vget ix d = Ok (below d + at_ d P)) /\ filled P bk) L (fun v (s : list Z * list Z) => let '(index, bkt) := s in
      let* d := vget dp v in
      let* k := vget index d in
      let* t := vget vt v in
      let* bkt := vset bkt k t in
      let* index := vset index d (k + 1) in
      Ok (index, bkt)) (cnt, vrep n 0)) as ((ix & bk) & E & L1 & L2 & _ & Fl).
    - split; auto. split; [apply zlen_vrep; lia|]. split.
      + intros d Hd. rewrite Ec by lia. f_equal. unfold LevAnc_proof.at_. cbn [filter]. change (zlen (@nil Z)) with 0. lia.
      + intros d r x Hd H. cbn [filter] in H. apply vget_range in H. unfold zlen in H. cbn in H. lia.
    - intros P v Q (ix & bk) EL (L1 & L2 & Ix & Fl). assert (Iv : In v L) by (rewrite EL; apply in_app_iff; right; now left). pose proof (range v Iv) as Rv.
      rewrite Edp by auto. cbn [bind]. rewrite Ix by lia. cbn [bind]. rewrite Evt by auto. cbn [bind].
      assert (EL' : L = (P ++ [v]) ++ Q) by (rewrite <- app_assoc; exact EL). pose proof (at_le (dep v) (P ++ [v]) Q EL' ltac:(lia)) as Le. unfold LevAnc_proof.at_ in Le. rewrite filter_len_app in Le. cbn [filter] in Le. rewrite Z.eqb_refl in Le. change (zlen [v]) with 1 in Le. fold (at_ (dep v) P) in Le.
      pose proof (below_top (dep v + 1)) as Tp. pose proof (at_nonneg (dep v) P) as Np. assert (N0 : 0 <= below (dep v)) by apply zlen_nonneg.
      rewrite vset_ok by lia. cbn [bind]. rewrite vset_ok by lia. cbn [bind]. eexists. split; [reflexivity|]. cbn beta iota. rewrite !zlen_zupd. split; auto. split; auto. split.
      + intros d Hd. unfold LevAnc_proof.at_. rewrite filter_snoc, zlen_app. fold (at_ d P). destruct (Z.eqb_spec (dep v) d) as [<-|Nd].
        * rewrite vget_zupd_same by lia. f_equal. unfold LevAnc_proof.at_. change (zlen [v]) with 1. lia.
        * rewrite vget_zupd_diff, Ix by lia. f_equal. unfold LevAnc_proof.at_. change (zlen (@nil Z)) with 0. lia.
      + intros d r x Hd H. rewrite filter_snoc in H. destruct (Z.eqb_spec (dep v) d) as [<-|Nd].
        * apply vget_snoc in H as [H|(-> & ->)].
          -- pose proof (vget_range _ _ _ H) as Rr. fold (at_ (dep v) P) in Rr. rewrite vget_zupd_diff by lia. now apply Fl.
          -- fold (at_ (dep v) P). rewrite vget_zupd_same by lia. reflexivity.
        * rewrite app_nil_r in H. pose proof (vget_range _ _ _ H) as Rr. fold (at_ d P) in Rr. pose proof (at_le d P (v :: Q) EL ltac:(lia)) as Ld.
          destruct (Z.lt_total d (dep v)) as [Lt|[Lt|Lt]]; [|congruence|].
          -- pose proof (below_mono (d + 1) (dep v) ltac:(lia)). rewrite vget_zupd_diff by lia. now apply Fl.
          -- pose proof (below_mono (dep v + 1) d ltac:(lia)). rewrite vget_zupd_diff by lia. now apply Fl.
    - exists ix, bk. auto.
  Qed.
End Buckets.

(* the upper bound in a block whose first a entries are at most x and whose others are more *)
Lemma ub_ok v l r a x : 0 <= l -> 0 <= a <= r - l -> (forall i, 0 <= i < r - l -> exists y, vget v (l + i) = Ok y /\ (y <= x <-> i < a)) -> ub_range v l r x = Ok (l + a).
Proof.
  intros Hl Ha H. unfold ub_range.
  destruct (for_inv (fun p acc => acc = l + Z.min (p - l) a) l r (fun p acc => let* y := vget v p in if y <=? x then (if acc =? p then Ok (acc + 1) else UB) else Ok acc) l) as (s & E & I).
  - lia.
  - lia.
  - intros p acc Hp ->. destruct (H (p - l) ltac:(lia)) as (y & Ey & Iy). replace (l + (p - l)) with p in Ey by lia. rewrite Ey. cbn [bind].
    destruct (Z.leb_spec y x) as [Le|Gt].
    + assert (p - l < a) by (apply Iy; auto). destruct (Z.eqb_spec (l + Z.min (p - l) a) p); [|lia]. eexists. split; [reflexivity|]. lia.
    + assert (~ p - l < a) by (intros X; apply Iy in X; lia). eexists. split; [reflexivity|]. lia.
  - rewrite E, I. f_equal. lia.
Qed.

Section Query.
  Variables (g : list (list Z)) (par dep rt : Z -> Z) (t : rose).
  Hypothesis R : rooted g par.
  Hypothesis D : dep_ok g par dep rt.
  Hypothesis F : fits g par t.
  Hypothesis Al : forall v, In v (nodes t) <-> vertex g v.
  Notation n := (zlen g).
  Notation L := (nodes t).
  Definition la_of (a : la) : Prop :=
    (forall i v, vget L i = Ok v -> vget (la_vt a) v = Ok i /\ vget (la_vti a) i = Ok v /\ vget (la_dep a) v = Ok (dep v)) /\
    (forall d, 0 <= d <= n -> vget (la_cnt a) d = Ok (below dep L d)) /\
    (forall d r x i, 0 <= d < n -> vget (filter (fun v => dep v =? d) L) r = Ok x -> vget L i = Ok x -> vget (la_bkt a) (below dep L d + r) = Ok i).
  Lemma L_len : zlen L = n.
  Proof.
    apply Z.le_antisymm.
    - pose proof (fits_size g par dep rt R D t F). unfold zlen. lia.
    - assert (X : (length (zrange n) <= length L)%nat). { apply NoDup_incl_length; [apply NoDup_zrange|]. intros v Hv. apply Al. apply In_zrange in Hv. exact Hv. } pose proof (zlen_zrange n). pose proof (zlen_nonneg g). unfold zlen in *. lia.
  Qed.
  Lemma la_new_ok : par (root t) = -1 -> exists a, la_new g (root t) = Ok a /\ la_of a.
  Proof.
    intros Pr. pose proof L_len as LL. pose proof (fits_nodup g par dep rt R D t F) as Nd. pose proof (zlen_nonneg g) as Zn.
    assert (Vr : vertex g (root t)) by (apply Al, root_In).
    unfold la_new. destruct (la_dfs_ok g par dep rt D (dep_small g par dep rt R D) t F (length g) [] (vrep n 0, vrep n 0, vrep n 0, vrep (n + 1) 0, 0)) as (s & Es & Ns).
    - apply (fits_size g par dep rt R D t F).
    - unfold numbered. rewrite !zlen_vrep by lia. split; [auto|]. split; [auto|]. split; [auto|]. split; [auto|]. split; [auto|]. split; [|split].
      + intros i v H. apply vget_range in H. unfold zlen in H. cbn in H. lia.
      + apply vget_vrep. lia.
      + intros d Hd. rewrite vget_vrep by lia. reflexivity.
    - cbn [dp_of]. unfold vertex in Vr. rewrite vget_vrep by lia. f_equal. symmetry. now apply (dep_root g par dep rt D).
    - exact Nd.
    - intros v Hv. now apply Al.
    - rewrite Pr in Es. rewrite Es. cbn [bind]. cbn [app] in Ns. destruct s as [[[[vt vti] dp] cnt] time]. destruct Ns as (L1 & L2 & L3 & L4 & _ & Ip & C0 & C1).
      destruct (prefix_ok n dep L) with (cnt := cnt) as (cnt' & Ec & Lc & Hc); auto.
      { intros v Hv. apply Al in Hv. split; [now apply (dep_nonneg g par dep rt D)|now apply (dep_small g par dep rt)]. }
      rewrite Ec. cbn [bind].
      assert (Ev : vti = L). { apply vget_ext; [lia|]. intros i Hi. destruct (vget_Ok L i ltac:(lia)) as (v & Hv). rewrite Hv. now apply Ip. }
      subst vti.
      assert (Ti : exists tau, forall i v, vget L i = Ok v -> tau v = i).
      { exists (fun v => match vget vt v with Ok i => i | _ => 0 end). intros i v H. destruct (Ip _ _ H) as (-> & _). reflexivity. }
      destruct Ti as (tau & Ht).
      destruct (bucket_ok n dep L) with (tau := tau) (dp := dp) (vt := vt) (cnt := cnt') as (ix & bk & Eb & Lb & Fl); auto.
      { intros v Hv. apply Al in Hv. split; [now apply (dep_nonneg g par dep rt D)|now apply (dep_small g par dep rt)]. }
      { intros v Hv. destruct (In_vget _ _ Hv) as (i & _ & Hi). apply (Ip _ _ Hi). }
      { intros v Hv. destruct (In_vget _ _ Hv) as (i & _ & Hi). rewrite (Ht _ _ Hi). apply (Ip _ _ Hi). }
      rewrite Eb. cbn [bind]. eexists. split; [reflexivity|]. split; [exact Ip|]. split; [exact Hc|]. cbn [la_bkt]. intros d r x i Hd Hx Hi. rewrite (Fl d r x Hd Hx). f_equal. now apply Ht.
  Qed.
  Lemma climb_exists v k : vertex g v -> 0 <= k <= dep v -> exists a, climb par k v a.
  Proof.
    intros Hv Hk. destruct (D v Hv) as (C & _). remember (rt v) as r eqn:Er. clear Er. revert k Hk. induction C as [v|m v a N C IH]; intros k Hk.
    - exists v. replace k with 0 by lia. constructor.
    - destruct (Z.eq_dec k 0) as [->|Nk]; [exists v; constructor|]. pose proof (climb_nonneg _ _ _ _ C).
      destruct (IH (par_vertex g par R v Hv N) (k - 1) ltac:(lia)) as (b & Cb). exists b. replace k with (k - 1 + 1) by lia. now constructor.
  Qed.
  Lemma la_query_ok a u k : la_of a -> vertex g u -> (0 <= k <= dep u /\ exists b, la_query a u k = Ok b /\ climb par k u b) \/ (~ 0 <= k <= dep u /\ la_query a u k = Ok (-1)).
  Proof.
    intros (Hv & Hc & Hb) Hu. pose proof (proj2 (Al u) Hu) as Iu. destruct (In_vget _ _ Iu) as (iu & _ & Eiu). destruct (Hv _ _ Eiu) as (Evt & _ & Edp).
    unfold la_query. destruct (Z.ltb_spec k 0) as [K0|K0]; [right; split; auto; lia|]. rewrite Edp. cbn [bind]. rewrite Z.gtb_ltb. destruct (Z.ltb_spec (dep u) k) as [K1|K1]; [right; split; auto; lia|].
    left. split; [lia|]. destruct (climb_exists u k Hu ltac:(lia)) as (b & Cb). exists b. split; [|exact Cb].
    pose proof (climb_vertex g par R _ _ _ Cb Hu) as Vb. pose proof (dep_climb g par dep rt R D _ _ _ Cb Hu) as Db. pose proof (dep_small g par dep rt R D u Hu) as Su. pose proof (dep_nonneg g par dep rt D b Vb) as Pb.
    replace (dep u - k) with (dep b) by lia. rewrite !Hc by lia. cbn [bind]. rewrite Evt. cbn [bind].
    (* the subtree of b *)
    destruct (sub_rose g par t F b (proj2 (Al b) Vb)) as (c & pre & post & Fc & Rc & EL).
    assert (Iuc : In u (nodes c)). { apply (fits_desc g par dep rt R D c Fc). split; auto. rewrite Rc. now exists k. }
    assert (Sp : exists X Y, nodes c = X ++ u :: Y) by now apply in_split. destruct Sp as (X & Y & EX).
    assert (Hz : exists Z0, X ++ [u] = b :: Z0 /\ forall w, In w Z0 -> dep w <> dep b).
    { pose proof (fits_nodup g par dep rt R D c Fc) as Ndc. destruct c as [b' cs]. cbn [root] in Rc. subst b'. cbn [nodes] in EX, Ndc.
      assert (Tl : forall w, In w (cnodes cs) -> dep w <> dep b).
      { intros w Hw E. destruct (fits_anc g par (Rose b cs) Fc w) as (Vw & Aw); [cbn [nodes]; now right|]. cbn [root] in Aw. pose proof (anc_dep_eq g par dep rt R D _ _ Aw Vw ltac:(lia)). subst w. inversion Ndc; contradiction. }
      destruct X as [|x X]; cbn [app] in EX |- *; injection EX as E1 E2.
      - exists []. split; [congruence|intros w []].
      - exists (X ++ [u]). split; [congruence|]. intros w Hw. apply Tl. rewrite E2. rewrite in_app_iff in Hw |- *. cbn [In] in *. tauto. }
    destruct Hz as (Z0 & EZ & DZ).
    set (L1 := (pre ++ X) ++ [u]). set (f := fun v => dep v =? dep b).
    assert (EL1 : L = L1 ++ (Y ++ post)). { unfold L1. rewrite EL, EX. rewrite <- !app_assoc. reflexivity. }
    assert (Eu : iu = zlen (pre ++ X)).
    { pose proof (fits_nodup g par dep rt R D t F) as Nd. assert (E2 : vget L (zlen (pre ++ X)) = Ok u). { rewrite EL1. unfold L1. rewrite <- (app_assoc (pre ++ X) [u]). cbn [app]. apply vget_mid; reflexivity. }
      destruct (Hv _ _ E2) as (E3 & _). congruence. }
    assert (Ef : filter f L1 = filter f pre ++ [b]).
    { unfold L1. rewrite <- app_assoc, EZ, filter_app. cbn [filter]. unfold f at 2. rewrite Z.eqb_refl. f_equal. f_equal.
      clear - DZ. induction Z0 as [|w l IH]; auto. cbn [filter]. unfold f at 1. destruct (Z.eqb_spec (dep w) (dep b)) as [E|E]; [destruct (DZ w (or_introl eq_refl) E)|]. apply IH. intros; apply DZ; now right. }
    assert (EfL : filter f L = filter f L1 ++ filter f (Y ++ post)) by (rewrite EL1; apply filter_app).
    set (A := zlen (filter f L1)). assert (HA : A = zlen (filter f pre) + 1) by (unfold A; rewrite Ef, zlen_app; reflexivity). pose proof (zlen_nonneg (filter f pre)) as Zp.
    assert (HS : below dep L (dep b + 1) - below dep L (dep b) = zlen (filter f L)) by (rewrite below_S; unfold at_, f; lia).
    assert (HAL : A <= zlen (filter f L)) by (rewrite EfL, zlen_app; fold A; pose proof (zlen_nonneg (filter f (Y ++ post))); lia).
    rewrite (ub_ok _ _ _ A); [|apply zlen_nonneg|lia|].
    - cbn [bind]. assert (Gb : vget (filter f L) (A - 1) = Ok b) by (rewrite EfL, Ef, <- app_assoc; cbn [app]; apply vget_mid; lia).
      destruct (In_vget _ _ (proj2 (Al b) Vb)) as (ib & _ & Eib). replace (below dep L (dep b) + A - 1) with (below dep L (dep b) + (A - 1)) by lia. rewrite (Hb (dep b) (A - 1) b ib ltac:(lia) Gb Eib). cbn [bind]. apply (Hv _ _ Eib).
    - intros i Hi. rewrite HS in Hi. destruct (vget_Ok (filter f L) i Hi) as (x & Ex). assert (Ix : In x L) by (apply vget_In in Ex; apply filter_In in Ex; apply Ex).
      destruct (In_vget _ _ Ix) as (ix & _ & Eix). exists ix. split; [apply (Hb _ _ x); auto; lia|].
      assert (Hn : In x L1 <-> ix <= iu).
      { split.
        - intros I. destruct (In_vget _ _ I) as (j & Hj & Ej). assert (Ej' : vget L j = Ok x) by (rewrite EL1, vget_app1 by lia; exact Ej). destruct (Hv _ _ Ej') as (E3 & _). destruct (Hv _ _ Eix) as (E4 & _). assert (j = ix) by congruence.
          unfold L1 in Hj. rewrite zlen_app in Hj. change (zlen [u]) with 1 in Hj. lia.
        - intros H. rewrite EL1, vget_app1 in Eix by (pose proof (vget_range _ _ _ Eix); unfold L1; rewrite zlen_app; change (zlen [u]) with 1; lia). eapply vget_In; eauto. }
      rewrite <- Hn. rewrite EfL in Ex. split; intros H.
      + destruct (Z.lt_ge_cases i A) as [Lt|Ge]; auto. exfalso. unfold A in Ge. rewrite vget_app2 in Ex by lia. apply vget_In in Ex. apply filter_In in Ex as (Ix2 & _). pose proof (fits_nodup g par dep rt R D t F) as Nd. rewrite EL1 in Nd. apply (NoDup_app_disj _ _ x Nd); auto.
      + unfold A in H. rewrite vget_app1 in Ex by lia. apply vget_In in Ex. apply filter_In in Ex. apply Ex.
  Qed.
  Lemma la_interval a u : la_of a -> vertex g u -> exists i s, vget (la_vt a) u = Ok i /\ 0 <= i /\ i + s <= n /\ forall w j, vertex g w -> vget (la_vt a) w = Ok j -> (ancestor par u w <-> i <= j < i + s).
  Proof.
    intros (Hv & _) Hu. destruct (sub_rose g par t F u (proj2 (Al u) Hu)) as (c & pre & post & Fc & Rc & EL).
    assert (Eu : vget L (zlen pre) = Ok u). { rewrite EL. destruct c as [x cs]. cbn [root nodes app] in *. subst x. apply vget_mid; reflexivity. }
    exists (zlen pre), (zlen (nodes c)). split; [apply (Hv _ _ Eu)|]. split; [apply zlen_nonneg|]. split; [rewrite <- L_len, EL, !zlen_app; pose proof (zlen_nonneg post); lia|].
    intros w j Hw Ej. destruct (In_vget _ _ (proj2 (Al w) Hw)) as (j' & _ & Ej'). destruct (Hv _ _ Ej') as (E & _). assert (j' = j) by congruence. subst j'. clear E.
    assert (X : ancestor par u w <-> In w (nodes c)). { rewrite (fits_desc g par dep rt R D c Fc), Rc. tauto. } rewrite X. split.
    - intros I. destruct (In_vget _ _ I) as (m & Hm & Em). assert (E2 : vget L (zlen pre + m) = Ok w) by (rewrite EL, vget_app2 by lia; replace (zlen pre + m - zlen pre) with m by lia; rewrite vget_app1 by lia; exact Em).
      destruct (Hv _ _ E2) as (E3 & _). assert (j = zlen pre + m) by congruence. lia.
    - intros Hj. rewrite EL, vget_app2, vget_app1 in Ej' by lia. eapply vget_In; eauto.
  Qed.
End Query.

Lemma level_ancestor_ok g r : tree g -> vertex g r -> exists a par, la_new g r = Ok a /\ rooted g par /\ (forall v, vertex g v -> par v = -1 <-> v = r) /\
  (forall u, vertex g u -> exists d, la_depth a u = Ok d /\ depth par u d) /\
  (forall u k, vertex g u -> exists b, la_query a u k = Ok b /\ (climb par k u b \/ b = -1 /\ forall c, ~ climb par k u c)) /\
  (forall u, vertex g u -> exists i s, la_visit_time a u = Ok i /\ la_kth_visited a i = Ok u /\ 0 <= i /\ i + s <= zlen g /\ forall w j, vertex g w -> la_visit_time a w = Ok j -> (ancestor par u w <-> i <= j < i + s)).
Proof.
  intros T Vr. destruct (tree_rooted g r T Vr) as (par & dep & rt & t & R & D & F & Rt & P0 & Un & Al).
  destruct (la_new_ok g par dep rt t R D F Al) as (a & Ea & La); [congruence|]. rewrite Rt in Ea. exists a, par. split; [exact Ea|]. split; [exact R|]. split; [intros v Hv; split; [now apply Un|now intros ->]|]. split; [|split].
  - intros u Hu. destruct (In_vget _ _ (proj2 (Al u) Hu)) as (i & _ & Ei). destruct La as (Hv & _). exists (dep u). split; [apply (Hv _ _ Ei)|]. now apply (depth_dep g par dep rt D).
  - intros u k Hu. destruct (la_query_ok g par dep rt t R D F Al a u k La Hu) as [(_ & b & E & C)|(N & E)]; [eauto|]. exists (-1). split; auto. right. split; auto. intros c C. apply N.
    pose proof (climb_nonneg _ _ _ _ C). pose proof (dep_climb g par dep rt R D _ _ _ C Hu). pose proof (dep_nonneg g par dep rt D c (climb_vertex g par R _ _ _ C Hu)). lia.
  - intros u Hu. destruct (la_interval g par dep rt t R D F Al a u La Hu) as (i & s & E & I0 & I1 & H). exists i, s. split; [exact E|]. split; [|auto].
    destruct La as (Hv & _). destruct (In_vget _ _ (proj2 (Al u) Hu)) as (j & _ & Ej). destruct (Hv _ _ Ej) as (E2 & E3 & _). assert (i = j) by congruence. subst j. exact E3.
Qed.
