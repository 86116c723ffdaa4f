(* find_centroids: the balanced vertices are the centroids, and there are one or two *)
From Verif Require Import Base BaseLemmas ListZ ListMore Graph_spec Tree_spec BFS_proof Tree_proof Tree_proof2 Tree_proof3 Tree_proof4 HLD_proof LevAnc_proof LevAnc_proof2 Centroid_spec Centroid_model Centroid_proof.
From Coq Require Import Permutation.

Lemma fsn {A} (g : list A) k r : vget g (Z.of_nat k) = Ok r -> firstn (S k) g = firstn k g ++ [r].
Proof. revert k. induction g as [|x g IH]; intros k E; [apply vget_range in E; unfold zlen in E; cbn in E; lia|]. destruct k as [|k]; [now injection E as ->|]. rewrite vget_consS in E by lia. replace (Z.of_nat (S k) - 1) with (Z.of_nat k) in E by lia. change (x :: firstn (S k) g = x :: (firstn k g ++ [r])). f_equal. now apply IH. Qed.
Lemma NoDup_incl_zlen (a b : list Z) : NoDup a -> incl a b -> zlen a <= zlen b. Proof. intros N I. pose proof (NoDup_incl_length N I). unfold zlen. lia. Qed.
Lemma NoDup_vertices (g : list (list Z)) l : NoDup l -> (forall w, In w l -> vertex g w) -> zlen l <= zlen g.
Proof. intros N V. pose proof (NoDup_range_length l (zlen g) N (fun w H => V w H)). pose proof (zlen_nonneg g). lia. Qed.
Section Cent.
  Variables (g : list (list Z)) (pf dep rt : Z -> Z).
  Hypothesis R : rooted g pf.
  Hypothesis D : dep_ok g pf dep rt.
  Notation n := (zlen g).
  Notation size t := (zlen (nodes t)).
  Notation cent := (cent g).
  Notation balanced := (balanced g).
  Lemma fits_unique t1 : fits g pf t1 -> forall t2, fits g pf t2 -> root t1 = root t2 -> t1 = t2.
  Proof.
    induction 1 as [u cs adj Hu Ea M P F IH]. intros t2 F2 E. destruct F2 as [u2 cs2 adj2 Hu2 Ea2 M2 P2 F2]. cbn [root] in E. subst u2. rewrite Ea in Ea2. injection Ea2 as <-. f_equal. rewrite <- M in M2. clear - M2 F2 IH.
    revert cs2 M2 F2. induction cs as [|c cs IHc]; intros [|d ds] M2 F2; try discriminate; auto. cbn [map] in M2. injection M2 as E1 E2. f_equal.
    - apply IH; [now left|apply F2; now left|auto].
    - apply IHc; auto; intros; [apply IH; auto; now right|apply F2; now right].
  Qed.
  Lemma cent_incl t : fits g pf t -> incl (cent t) (nodes t).
  Proof.
    induction 1 as [u cs adj Hu Ea M P F IH]. intros v Hv. cbn [Centroid_proof.cent nodes] in *. apply in_app_iff in Hv as [Hv|Hv].
    - right. apply in_flat_map in Hv as (c & Ic & Hv). apply in_flat_map. exists c. split; auto. now apply IH.
    - left. destruct (balanced (Rose u cs)); [destruct Hv as [->|[]]; auto|destruct Hv].
  Qed.
  Lemma cent_In t : fits g pf t -> forall c, fits g pf c -> In (root c) (nodes t) -> (In (root c) (cent t) <-> balanced c = true).
  Proof.
    induction 1 as [u cs adj Hu Ea M P F IH]. intros c Fc Ic. assert (Ft : fits g pf (Rose u cs)) by (econstructor; eauto). pose proof (fits_nodup g pf dep rt R D _ Ft) as Nd. cbn [nodes] in Nd, Ic. inversion Nd as [|? ? Nu Nc]; subst x l. cbn [Centroid_proof.cent]. rewrite in_app_iff.
    destruct (Z.eq_dec u (root c)) as [E|N].
    - assert (c = Rose u cs) by (apply fits_unique; auto). subst c. split.
      + intros [I|I]; [|destruct (balanced (Rose u cs)); auto; destruct I]. exfalso. apply Nu. rewrite E. apply in_flat_map in I as (d & Id & I). apply in_flat_map. exists d. split; auto. apply (cent_incl d); auto.
      + intros ->. right. now left.
    - destruct Ic as [Ic|Ic]; [contradiction|]. apply in_flat_map in Ic as (d & Id & Ic). rewrite <- (IH d Id c Fc Ic). split.
      + intros [I|I]; [|destruct (balanced (Rose u cs)); [destruct I as [I|[]]; contradiction|destruct I]]. apply in_flat_map in I as (e & Ie & I).
        (* the same child *)
        apply in_split in Id as (c1 & c2 & ->). assert (e = d \/ In e (c1 ++ c2)) as [->|X] by (apply in_app_iff in Ie as [Ie|[Ie|Ie]]; auto; right; apply in_app_iff; auto); auto.
        exfalso. rewrite flat_map_app in Nc. cbn [flat_map] in Nc. assert (Ie' : In (root c) (nodes e)) by (apply (cent_incl e); auto). apply in_app_iff in X as [X|X].
        * apply (NoDup_app_disj _ _ (root c) Nc); [apply in_flat_map; eauto|apply in_app_iff; auto].
        * apply NoDup_app_r in Nc. apply (NoDup_app_disj _ _ (root c) Nc); auto. apply in_flat_map; eauto.
      + intros I. left. apply in_flat_map. eauto.
  Qed.
  Lemma cent_NoDup t : fits g pf t -> NoDup (cent t).
  Proof.
    induction 1 as [u cs adj Hu Ea M P F IH]. assert (Ft : fits g pf (Rose u cs)) by (econstructor; eauto). pose proof (fits_nodup g pf dep rt R D _ Ft) as Nd. cbn [nodes] in Nd. inversion Nd as [|? ? Nu Nc]; subst x l. cbn [Centroid_proof.cent].
    assert (Inc : forall v, In v (flat_map cent cs) -> In v (cnodes cs)). { intros v I. apply in_flat_map in I as (d & Id & I). apply in_flat_map. exists d. split; auto. apply (cent_incl d); auto. }
    apply NoDup_app.
    - clear - F IH Nc. induction cs as [|c cs IHc]; [constructor|]. cbn [flat_map] in *. apply NoDup_app; [apply IH; now left|apply IHc; [intros; apply F; now right|intros; apply IH; now right|now apply NoDup_app_r in Nc]|].
      intros v I1 I2. apply in_flat_map in I2 as (d & Id & I2). apply (NoDup_app_disj _ _ v Nc); [apply (cent_incl c); auto; apply F; now left|]. apply in_flat_map. exists d. split; auto. apply (cent_incl d); auto. apply F; now right.
    - destruct (balanced (Rose u cs)); repeat constructor; auto.
    - intros v I1 I2. destruct (balanced (Rose u cs)); [|destruct I2]. destruct I2 as [<-|[]]. apply Nu, Inc, I1.
  Qed.
  Lemma cent_exists t : fits g pf t -> 2 * size t >= n -> cent t <> [].
  Proof.
    induction 1 as [u cs adj Hu Ea M P F IH]. intros Sz E. cbn [Centroid_proof.cent] in E. apply app_eq_nil in E as (E1 & E2). destruct (balanced (Rose u cs)) eqn:B; [discriminate|]. unfold Centroid_proof.balanced in B. cbn [kids] in B.
    rewrite Z.geb_leb in B. destruct (Z.leb_spec n (2 * size (Rose u cs))); [|lia]. rewrite andb_true_r in B.
    assert (X : exists c, In c cs /\ n < 2 * size c). { clear - B. induction cs as [|c cs IHc]; [discriminate|]. cbn [forallb] in B. destruct (Z.leb_spec (2 * size c) n); [|exists c; split; [now left|lia]]. destruct IHc as (d & Id & Hd); [exact B|]. exists d. split; auto. now right. }
    destruct X as (c & Ic & Hc). apply (IH c Ic); [lia|]. apply in_split in Ic as (c1 & c2 & ->). rewrite flat_map_app in E1. cbn [flat_map] in E1. apply app_eq_nil in E1 as (_ & E1). now apply app_eq_nil in E1 as (? & _).
  Qed.
  (* inside a subtree *)
  Lemma par_in c a : fits g pf c -> In a (nodes c) -> a <> root c -> pf a <> -1 /\ In (pf a) (nodes c).
  Proof.
    intros F I N. apply (fits_desc g pf dep rt R D c F) in I as (Va & k & C). apply climb_inv in C as [(_ & E)|(_ & Np & C)]; [congruence|]. split; auto. apply (fits_desc g pf dep rt R D c F). split; [now apply (par_vertex g pf R)|]. eexists; eauto.
  Qed.
  Lemma stay_in c v x w p k : fits g pf c -> pf (root c) = v -> route (hop g) x w p k -> ~ In v p -> In x (nodes c) -> In w (nodes c).
  Proof.
    intros F Pv H. induction H as [s|s a t p k e (He & _) Rt IH]; intros Nv I; auto. apply IH; [intros X; apply Nv; now right|]. pose proof (edge_vertex g _ _ He) as Vs.
    apply (edge_par g pf R s a Vs) in He as (Va & [E|E]); [eapply (fits_child g pf dep rt R D c F); eauto|].
    destruct (Z.eq_dec s (root c)) as [->|N]; [|subst a; now apply par_in]. exfalso. apply Nv. right. rewrite <- Pv, E. clear - Rt. destruct Rt; now left.
  Qed.
  Lemma stay_out c x w p k : fits g pf c -> route (hop g) x w p k -> ~ In (root c) p -> ~ In x (nodes c) -> ~ In w (nodes c).
  Proof.
    intros F H. induction H as [s|s a t p k e (He & _) Rt IH]; intros Nv I; auto. apply IH; [intros X; apply Nv; now right|]. intros Ia. apply I. pose proof (edge_vertex g _ _ He) as Vs.
    apply (edge_par g pf R s a Vs) in He as (Va & [E|E]); [|eapply (fits_child g pf dep rt R D c F); eauto].
    subst s. apply par_in; auto. intros X. apply Nv. right. rewrite <- X. clear - Rt. destruct Rt; now left.
  Qed.
  Lemma down_route k w r : climb pf k w r -> vertex g w -> exists p e, route (hop g) r w p e /\ forall x, In x p -> ancestor pf x w.
  Proof.
    induction 1 as [w|k w r N C IH]; intros Hw; [exists [w], 0; split; [constructor|intros x [<-|[]]; apply anc_refl]|].
    pose proof (par_vertex g pf R w Hw N) as Vp. destruct (IH Vp) as (p & e & Rp & Ap). exists (p ++ [w]), (e + 1). split.
    - eapply route_snoc; eauto. split; auto. apply (edge_par g pf R); auto.
    - intros x Hx. apply in_app_iff in Hx as [Hx|[<-|[]]]; [|apply anc_refl]. eapply anc_trans; [apply Ap, Hx|]. now apply anc_par.
  Qed.
  Variable t : rose.
  Hypothesis F : fits g pf t.
  Hypothesis Al : forall v, In v (nodes t) <-> vertex g v.
  Hypothesis Pr : pf (root t) = -1.
  Lemma all_size : size t = n. Proof. exact (L_len g pf dep rt t R D F Al). Qed.
  Lemma kid_of c d : fits g pf c -> In d (kids c) -> fits g pf d /\ pf (root d) = root c /\ (forall w, In w (nodes d) -> In w (nodes c)) /\ ~ In (root c) (nodes d).
  Proof.
    intros Fc Id. pose proof (fits_nodup g pf dep rt R D c Fc) as Nd. inversion Fc as [u cs adj Hu Ea M P F' Ec]. subst c. cbn [kids root nodes] in *. inversion Nd as [|? ? Nu Nc]; subst x l. split; auto. split; auto. split.
    - intros w Hw. right. apply in_flat_map. eauto.
    - intros X. apply Nu, in_flat_map. eauto.
  Qed.
  Lemma in_kid c w : fits g pf c -> In w (nodes c) -> w <> root c -> exists d, In d (kids c) /\ In w (nodes d).
  Proof. destruct c as [u cs]. intros _ I N. cbn [nodes root kids] in *. destruct I as [I|I]; [congruence|]. now apply in_flat_map in I. Qed.
  Lemma balanced_centroid c : fits g pf c -> balanced c = true -> centroid g (root c).
  Proof.
    intros Fc B. unfold Centroid_proof.balanced in B. apply andb_true_iff in B as (B1 & B2). rewrite forallb_forall in B1. rewrite Z.geb_leb in B2. apply Z.leb_le in B2.
    assert (Vv : vertex g (root c)) by (apply (fits_anc g pf c Fc), root_In). split; auto. intros x l Vx Nl J.
    destruct l as [|w0 l0]; [change (zlen (@nil Z)) with 0; pose proof (zlen_nonneg g); lia|]. set (l := w0 :: l0) in *.
    assert (Nx : x <> root c). { destruct (J w0 (or_introl eq_refl)) as (p & k & Rp & Np). intros ->. apply Np. destruct Rp; now left. }
    destruct (in_dec Z.eq_dec x (nodes c)) as [I|I].
    - destruct (in_kid c x Fc I Nx) as (d & Id & Ix). destruct (kid_of c d Fc Id) as (Fd & Pd & _ & _). specialize (B1 d Id). apply Z.leb_le in B1.
      enough (zlen l <= size d) by lia. apply NoDup_incl_zlen; auto. intros w Hw. destruct (J w Hw) as (p & k & Rp & Np). eapply stay_in; eauto.
    - enough (zlen (l ++ nodes c) <= n) by (rewrite zlen_app in H; lia). apply NoDup_vertices.
      + apply NoDup_app; auto; [apply (fits_nodup g pf dep rt R D c Fc)|]. intros w Hw Ic. destruct (J w Hw) as (p & k & Rp & Np). revert Ic. eapply stay_out; eauto.
      + intros w Hw. apply in_app_iff in Hw as [Hw|Hw]; [|now apply (fits_anc g pf c Fc)]. destruct (J w Hw) as (p & k & Rp & Np). clear - Rp Vx R. induction Rp as [s|s a t p k e (He & _) Rt IH]; auto. apply IH. apply (edge_par g pf R s a Vx) in He. apply He.
  Qed.
  Lemma centroid_balanced c : fits g pf c -> centroid g (root c) -> balanced c = true.
  Proof.
    intros Fc (Vv & H). unfold Centroid_proof.balanced. apply andb_true_iff. split.
    - apply forallb_forall. intros d Id. apply Z.leb_le. destruct (kid_of c d Fc Id) as (Fd & Pd & _ & Nd). apply (H (root d)); [apply (fits_anc g pf d Fd), root_In|apply (fits_nodup g pf dep rt R D d Fd)|].
      intros w Hw. destruct (gp_ok g pf dep rt R D d Fd (length (nodes d)) w [] (le_n _)) as [(_ & q & k & _ & Rq & _ & Iq)|(N & _)]; [|contradiction]. exists q, k. split; auto.
    - rewrite Z.geb_leb. apply Z.leb_le. set (f := fun w => if in_dec Z.eq_dec w (nodes c) then false else true). set (l := filter f (nodes t)).
      assert (Ndt := fits_nodup g pf dep rt R D t F). assert (Ndc := fits_nodup g pf dep rt R D c Fc). assert (Vc : incl (nodes c) (nodes t)) by (intros w Hw; apply Al; now apply (fits_anc g pf c Fc)).
      assert (Ll : n <= zlen l + size c).
      { rewrite <- all_size. rewrite <- zlen_app. apply NoDup_incl_zlen; auto. intros w Hw. apply in_app_iff. destruct (in_dec Z.eq_dec w (nodes c)) as [I|I]; auto. left. apply filter_In. split; auto. unfold f. destruct (in_dec Z.eq_dec w (nodes c)); auto. }
      assert (2 * zlen l <= n); [|lia]. apply (H (root t)); [apply Al, root_In|now apply NoDup_filter|].
      intros w Hw. apply filter_In in Hw as (Iw & Fw). assert (Nw : ~ In w (nodes c)) by (unfold f in Fw; destruct (in_dec Z.eq_dec w (nodes c)); auto; discriminate). pose proof (proj1 (Al w) Iw) as Vw.
      apply (fits_desc g pf dep rt R D t F) in Iw as (_ & k & C). destruct (down_route k w (root t) C Vw) as (p & e & Rp & Ap). exists p, e. split; auto. intros X. apply Nw. apply (fits_desc g pf dep rt R D c Fc). split; auto.
  Qed.
  Lemma centroid_iff v : In v (cent t) <-> centroid g v.
  Proof.
    split.
    - intros I. pose proof (cent_incl t F v I) as It. destruct (sub_rose g pf t F v It) as (c & _ & _ & Fc & <- & _). apply balanced_centroid; auto. apply (cent_In t F c Fc It); auto.
    - intros Cv. pose proof (proj2 (Al v) (proj1 Cv)) as It. destruct (sub_rose g pf t F v It) as (c & _ & _ & Fc & <- & _). apply (cent_In t F c Fc It). now apply centroid_balanced.
  Qed.
  Lemma pair_below c d : fits g pf c -> fits g pf d -> balanced c = true -> balanced d = true -> root c <> root d -> In (root d) (nodes c) -> pf (root d) = root c.
  Proof.
    intros Fc Fd Bc Bd N I. destruct (in_kid c _ Fc I ltac:(congruence)) as (e & Ie & Id). destruct (kid_of c e Fc Ie) as (Fe & Pe & _ & _).
    unfold Centroid_proof.balanced in Bc, Bd. apply andb_true_iff in Bc as (Bc & _). rewrite forallb_forall in Bc. specialize (Bc e Ie). apply Z.leb_le in Bc. apply andb_true_iff in Bd as (_ & Bd). rewrite Z.geb_leb in Bd. apply Z.leb_le in Bd.
    assert (Inc : incl (nodes d) (nodes e)). { intros w Hw. apply (fits_desc g pf dep rt R D d Fd) in Hw as (Vw & Aw). apply (fits_desc g pf dep rt R D e Fe). split; auto. eapply anc_trans; [|exact Aw]. now apply (fits_anc g pf e Fe). }
    destruct (in_dec Z.eq_dec (root e) (nodes d)) as [X|X].
    - assert (root e = root d); [|congruence]. apply (anc_antisym g pf dep rt R D); [apply (fits_anc g pf e Fe), root_In|now apply (fits_anc g pf e Fe)|now apply (fits_anc g pf d Fd)].
    - exfalso. assert (zlen (root e :: nodes d) <= size e); [|rewrite zlen_cons in H; lia]. apply NoDup_incl_zlen; [constructor; auto; apply (fits_nodup g pf dep rt R D d Fd)|]. intros w [<-|Hw]; [apply root_In|auto].
  Qed.
  Lemma pair_adj c d : fits g pf c -> fits g pf d -> balanced c = true -> balanced d = true -> root c <> root d -> pf (root d) = root c \/ pf (root c) = root d.
  Proof.
    intros Fc Fd Bc Bd N. destruct (in_dec Z.eq_dec (root d) (nodes c)) as [I|I]; [left; now apply pair_below|]. destruct (in_dec Z.eq_dec (root c) (nodes d)) as [J|J]; [right; apply pair_below; auto|].
    exfalso. assert (Sc : n <= 2 * size c) by (unfold Centroid_proof.balanced in Bc; apply andb_true_iff in Bc as (_ & Bc); rewrite Z.geb_leb in Bc; now apply Z.leb_le in Bc). assert (Sd : n <= 2 * size d) by (unfold Centroid_proof.balanced in Bd; apply andb_true_iff in Bd as (_ & Bd); rewrite Z.geb_leb in Bd; now apply Z.leb_le in Bd).
    assert (Vc : vertex g (root c)) by (apply (fits_anc g pf c Fc), root_In). assert (Vd : vertex g (root d)) by (apply (fits_anc g pf d Fd), root_In).
    assert (Nr : forall e, fits g pf e -> ~ In (root e) (nodes e) \/ In (root t) (nodes e) -> root e = root t).
    { intros e Fe [X|X]; [destruct X; apply root_In|]. apply (fits_anc g pf e Fe) in X as (_ & k & C). apply climb_inv in C as [(_ & E)|(_ & Np & _)]; [auto|contradiction]. }
    assert (Rt : forall w, vertex g w -> ancestor pf (root t) w) by (intros w Hw; apply (fits_anc g pf t F); now apply Al).
    enough (zlen (root t :: nodes c ++ nodes d) <= n) by (rewrite zlen_cons, zlen_app in H; lia). apply NoDup_vertices.
    - constructor.
      + intros X. apply in_app_iff in X as [X|X].
        * apply I. apply (fits_desc g pf dep rt R D c Fc). split; auto. rewrite (Nr c Fc (or_intror X)). auto.
        * apply J. apply (fits_desc g pf dep rt R D d Fd). split; auto. rewrite (Nr d Fd (or_intror X)). auto.
      + apply NoDup_app; [apply (fits_nodup g pf dep rt R D c Fc)|apply (fits_nodup g pf dep rt R D d Fd)|]. intros w Wc Wd. apply (fits_anc g pf c Fc) in Wc as (Vw & Ac). apply (fits_anc g pf d Fd) in Wd as (_ & Ad).
        destruct (anc_compare pf w _ _ Ac Ad) as [X|X]; [apply I; apply (fits_desc g pf dep rt R D c Fc)|apply J; apply (fits_desc g pf dep rt R D d Fd)]; auto.
    - intros w [<-|Hw]; [apply Al, root_In|]. apply in_app_iff in Hw as [Hw|Hw]; [now apply (fits_anc g pf c Fc)|now apply (fits_anc g pf d Fd)].
  Qed.
  Lemma cent_count : zlen (cent t) = 1 \/ zlen (cent t) = 2.
  Proof.
    pose proof (cent_exists t F ltac:(rewrite all_size; pose proof (zlen_nonneg g); lia)) as Ne. pose proof (cent_NoDup t F) as Nd.
    assert (Adj : forall u v, In u (cent t) -> In v (cent t) -> u <> v -> dep v = dep u + 1 \/ dep u = dep v + 1).
    { intros u v Iu Iv N. pose proof (cent_incl t F u Iu) as Tu. pose proof (cent_incl t F v Iv) as Tv.
      destruct (sub_rose g pf t F u Tu) as (c & _ & _ & Fc & <- & _). destruct (sub_rose g pf t F v Tv) as (d & _ & _ & Fd & <- & _).
      apply (cent_In t F c Fc Tu) in Iu. apply (cent_In t F d Fd Tv) in Iv. apply Al in Tu, Tv. unfold vertex in Tu, Tv. destruct (pair_adj c d Fc Fd Iu Iv N) as [E|E].
      - left. rewrite (dep_par g pf dep rt D (root d)); auto; [now rewrite E|lia].
      - right. rewrite (dep_par g pf dep rt D (root c)); auto; [now rewrite E|lia]. }
    destruct (cent t) as [|a [|b [|c l]]]; [congruence|now left|now right|]. exfalso. inversion Nd as [|? ? N1 Nd1]; subst. inversion Nd1 as [|? ? N2 _]; subst.
    assert (a <> b) by (intros ->; apply N1; now left). assert (a <> c) by (intros ->; apply N1; right; now left). assert (b <> c) by (intros ->; apply N2; now left).
    pose proof (Adj a b ltac:(cbn; auto) ltac:(cbn; auto) H). pose proof (Adj a c ltac:(cbn; auto) ltac:(cbn; auto) H0). pose proof (Adj b c ltac:(cbn; auto) ltac:(cbn; auto) H1). lia.
  Qed.
End Cent.
Lemma cost_total g l : Permutation l (zrange (zlen g)) -> cost g l = (length (concat g) + length g)%nat.
Proof.
  intros P. assert (E : cost g l = cost g (zrange (zlen g))). { clear - P. induction P; rewrite ?cost_cons; [reflexivity|lia|lia|congruence]. }
  rewrite E. clear. (* along the rows *)
  assert (H : forall k, (k <= length g)%nat -> cost g (zrange (Z.of_nat k)) = (length (concat (firstn k g)) + k)%nat).
  { induction k as [|k IH]; intros Hk; [reflexivity|]. replace (Z.of_nat (S k)) with (Z.of_nat k + 1) by lia. rewrite zrange_S by lia. rewrite cost_app, IH by lia. cbn [cost fold_right].
    destruct (vget_Ok g (Z.of_nat k)) as (r & Er); [unfold zlen; lia|]. rewrite (fsn g k r Er). unfold deg. rewrite Er. rewrite concat_app, app_length. cbn [concat]. rewrite app_nil_r. lia. }
  unfold zlen. rewrite H by lia. now rewrite firstn_all.
Qed.
Lemma find_centroids_ok g : tree g -> exists rs, find_centroids g = Ok rs /\ NoDup rs /\ (zlen rs = 1 \/ zlen rs = 2) /\ forall v, In v rs <-> centroid g v.
Proof.
  intros T. assert (V0 : vertex g 0) by (destruct T as (P & _); unfold vertex; lia). destruct (tree_rooted g 0 T V0) as (pf & dep & rt & t & R & D & F & Rt & P0 & Un & Al). assert (Pr : pf (root t) = -1) by now rewrite Rt.
  pose proof (zlen_nonneg g) as Zn. exists (cent g t). split; [|split; [now apply (cent_NoDup g pf dep rt R D)|split; [now apply (cent_count g pf dep rt R D)|intros v; now apply (centroid_iff g pf dep rt R D)]]].
  unfold find_centroids. rewrite !vrep_vec by lia.
  assert (Pm : Permutation (nodes t) (zrange (zlen g))). { apply NoDup_Permutation; [apply (fits_nodup g pf dep rt R D t F)|apply NoDup_zrange|]. intros v. rewrite Al, In_zrange. reflexivity. }
  replace (S (length (concat g) + length g)) with (cost g (nodes t) + 1)%nat by (rewrite (cost_total g _ Pm); lia).
  destruct (walk g pf dep rt R D t F [] (fun _ => true) (fun _ => 0) (fun _ => -1) (fun _ => 1) 1%nat) as (C & E & P & S & Run & _); auto.
  unfold st in Run. rewrite Rt in Run. rewrite Run. rewrite P0. cbn [app]. assert (X : loop 1 (fc_step g) (CS (-1) (cent g t) (vec (zlen g) C) (vec (zlen g) E) (vec (zlen g) P) (vec (zlen g) S)) = Ok (cent g t)) by reflexivity.
  rewrite X. cbn [bind]. destruct (cent_count g pf dep rt R D t F Al Pr) as [Y|Y]; rewrite Y; reflexivity.
Qed.
