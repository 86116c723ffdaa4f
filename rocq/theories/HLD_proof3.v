(* Heavy-light decomposition: the constructors *)
From Verif Require Import Base BaseLemmas ListZ ListMore Graph_spec Tree_spec BFS_proof Tree_proof Tree_proof2 Tree_proof3 HLD_model HLD_proof HLD_proof2.
From Coq Require Import Sorted Permutation.

Lemma rooted_perm g g' par : zlen g' = zlen g -> (forall w, vertex g w -> Permutation (row g' w) (row g w)) -> rooted g par -> rooted g' par.
Proof.
  intros Z P (R1 & R2 & R3). unfold rooted, vertex in *. rewrite Z. split; [auto|]. split; [|auto]. intros u Hu. destruct (R2 u Hu) as (adj & E & N & I).
  exists (row g' u). split; [apply vget_gv; lia|]. specialize (P u Hu). assert (X : row g u = adj) by now apply gv_vget. rewrite X in P. split.
  - eapply Permutation_NoDup; [symmetry; exact P|auto].
  - intros v. rewrite <- I. split; apply Permutation_in; [|symmetry]; auto.
Qed.

Section New.
  Variables (g0 : list (list Z)) (pf dep rt : Z -> Z) (m : Z).
  Hypothesis R : rooted g0 pf.
  Hypothesis D : dep_ok g0 pf dep rt.
  Hypothesis B : forall v, vertex g0 v -> dep v <= m.
  Notation n := (zlen g0).
  Notation ga := (gv (-1)).
  Lemma comp_nodes g t r : rooted g pf -> dep_ok g pf dep rt -> fits g pf t -> root t = r -> pf r = -1 -> vertex g r -> forall w, In w (nodes t) <-> vertex g w /\ rt w = r.
  Proof.
    intros R' D' F <- Er Hr w. rewrite (fits_desc g pf dep rt R' D' t F). split; intros (Hw & H); split; auto.
    - rewrite (rt_anc g pf dep rt R' D' _ _ H Hw). now apply (rt_root g pf dep rt D').
    - rewrite <- H. apply (anc_rt g pf dep rt D' w Hw).
  Qed.
  Definition I1 (dn : Z -> Prop) (s : dst) : Prop :=
    dlen g0 s /\ (forall w, vertex g0 w -> dn (rt w) -> ready g0 pf dep s w) /\ (forall w, vertex g0 w -> ~ dn (rt w) -> same (dfs_init g0) s w).
  Lemma pass1_step r dn s : vertex g0 r -> pf r = -1 -> ~ dn r -> I1 dn s -> exists s' k, dfs (length g0) r (-1) s = Ok (s', k) /\ I1 (fun x => dn x \/ x = r) s'.
  Proof.
    intros Hr Er Nr (L & Rd & Sm). destruct (grow_exists g0 pf dep rt R D m B r Hr) as (t & Et & Ft). pose proof (comp_nodes g0 t r R D Ft Et Er Hr) as Cn.
    destruct (dfs_goal g0 pf dep rt R D (length g0) t Ft (fits_size g0 pf dep rt R D t Ft) s L) as (s' & Es & L' & Rd' & Sm').
    - intros w Hw. apply Cn in Hw as (Hw & Ew). assert (Nw : ~ dn (rt w)) by congruence. specialize (Sm w Hw Nw). destruct s as [[[g P] Sz] Dp]. apply Sm.
    - rewrite Et. assert (Nw : ~ dn (rt r)) by (rewrite (rt_root g0 pf dep rt D) by auto; auto). specialize (Sm r Hr Nw). destruct s as [[[g P] Sz] Dp]. unfold dpv. cbn [snd]. destruct Sm as (_ & _ & _ & ->).
      unfold vertex in Hr. rewrite gv_vrep by auto. symmetry. now apply (dep_root g0 pf dep rt D).
    - rewrite Et, Er in Es. exists s', (zlen (nodes t)). split; auto. split; [auto|]. split.
      + intros w Hw [H|H].
        * eapply same_ready; [apply Sm'; auto; intros I; apply Cn in I as (_ & I); congruence|]. now apply Rd.
        * apply Rd', Cn. auto.
      + intros w Hw N. eapply same_trans; [apply Sm; auto|apply Sm'; auto]. intros I. apply N. right. now apply Cn in I.
  Qed.
  Lemma I1_ext dn dn' s : (forall x, vertex g0 x -> pf x = -1 -> (dn x <-> dn' x)) -> I1 dn s -> I1 dn' s.
  Proof.
    intros E (L & Rd & Sm). split; [auto|]. split; intros w Hw H; [apply Rd|apply Sm]; auto; rewrite E in *; auto; try (apply (rt_vertex g0 pf dep rt D w Hw)); apply (par_rt g0 pf dep rt D w Hw).
  Qed.
  Lemma I1_init : I1 (fun _ => False) (dfs_init g0).
  Proof.
    split; [unfold dlen, dfs_init; rewrite !zlen_vrep by (unfold zlen; lia); auto|]. split; [tauto|]. intros w Hw _. apply same_refl.
  Qed.

  (* the second pass, over the reordered graph *)
  Section Pass2.
    Variable g : list (list Z).
    Hypothesis Zg : zlen g = n.
    Hypothesis R' : rooted g pf.
    Hypothesis D' : dep_ok g pf dep rt.
    Definition I2 (acc : list Z) (s : hst) : Prop :=
      hlen g s /\ time_ s = zlen acc /\ NoDup acc /\ (forall w, In w acc -> vertex g w /\ (forall x, vertex g x -> rt x = rt w -> In x acc)) /\
      (forall w, In w acc -> placed g pf s 0 (time_ s) w) /\
      (let '(V, L, H, Od, _) := s in forall i, 0 <= i < zlen acc -> ga Od i = ga acc i /\ ga V (ga acc i) = i).
    Lemma pass2_step r acc s : vertex g r -> pf r = -1 -> ~ In r acc -> I2 acc s ->
      exists s' l, hld_rec (length g0) g r (-1) s = Ok s' /\ I2 (acc ++ l) s' /\ (forall w, In w l <-> vertex g w /\ rt w = r).
    Proof.
      intros Hr Er Nr (L & Tm & Nd & Ac & Pl & Seg). destruct (grow_exists g pf dep rt R' D' m) with (v := r) as (t & Et & Ft); auto.
      { intros v Hv. apply B. unfold vertex in *. lia. }
      pose proof (comp_nodes g t r R' D' Ft Et Er Hr) as Cn. pose proof (fits_nodup g pf dep rt R' D' t Ft) as Nt.
      assert (Er' : rt r = r) by (now apply (rt_root g pf dep rt D')).
      assert (Dj : forall w, In w acc -> ~ In w (nodes t)). { intros w Hw Hn. apply Cn in Hn as (_ & E). apply Nr. destruct (Ac w Hw) as (_ & X). apply X; auto. congruence. }
      assert (Na : NoDup (acc ++ nodes t)) by (apply NoDup_app; auto).
      assert (Ln : zlen acc + zlen (nodes t) <= n).
      { assert (X : (length (acc ++ nodes t) <= length (zrange n))%nat).
        { apply NoDup_incl_length; auto. intros w Hw. apply In_zrange. rewrite <- Zg. apply in_app_iff in Hw as [Hw|Hw]; [now apply Ac|now apply Cn]. }
        rewrite app_length in X. pose proof (zlen_zrange n (size_nonneg g0)). unfold zlen in *. lia. }
      pose proof (size_nonneg acc) as Za. pose proof (size_nonneg (nodes t)) as Zt.
      assert (Lg : length g0 = length g) by (unfold zlen in Zg; lia).
      destruct (hld_goal g pf dep rt R' D' (length g0) t Ft ltac:(rewrite Lg; apply (fits_size g pf dep rt R' D' t Ft)) s L) as (s' & Es & L' & Tm' & Hs & Ho & Pl' & Seg').
      { lia. } { lia. } { rewrite Et. intros (X & _). contradiction. }
      rewrite Et, Er in Es. exists s', (nodes t). split; auto. split; [|exact Cn].
      split; [auto|]. split; [rewrite zlen_app; lia|]. split; [auto|]. split; [|split].
      - intros w Hw. apply in_app_iff in Hw as [Hw|Hw].
        + destruct (Ac w Hw) as (V & X). split; auto. intros x Hx Ex. apply in_app_iff. left. auto.
        + apply Cn in Hw as (Vw & Ew). split; auto. intros x Hx Ex. apply in_app_iff. right. apply Cn. split; auto. congruence.
      - intros w Hw. apply in_app_iff in Hw as [Hw|Hw].
        + destruct (Ac w Hw) as (Vw & Xw). 
          apply placed_widen with (lo := 0) (hi := time_ s); try lia. eapply placed_same; [| | |apply Pl; exact Hw].
          * apply Hs; auto.
          * intros Np. apply Hs; [now apply (par_vertex g pf R')|]. apply Dj. apply Xw; [now apply (par_vertex g pf R')|]. symmetry. now apply (rt_par g pf dep rt D').
          * intros k Hk. apply Ho; lia.
        + apply placed_widen with (lo := time_ s) (hi := time_ s'); try lia. now apply Pl'.
      - destruct s' as [[[[V2 L2] H2] O2] t2]. destruct s as [[[[V1 L1] H1] O1] t1]. cbn [time_ snd] in *. intros i Hi. rewrite zlen_app in Hi. destruct (Z.lt_ge_cases i (zlen acc)) as [Li|Li].
        + rewrite ga_app1 by lia. destruct (Seg i ltac:(lia)) as (A & Bq). assert (Iw := ga_In acc i ltac:(lia)). split.
          * rewrite <- A. apply (Ho i); lia.
          * destruct (Hs (ga acc i)) as (-> & _); auto. now apply Ac.
        + rewrite ga_app2 by lia. destruct (Seg' (i - zlen acc) ltac:(lia)) as (A & Bq). rewrite Tm in A, Bq. replace (zlen acc + (i - zlen acc)) with i in A, Bq by lia. auto.
    Qed.
    Lemma I2_init : I2 [] (hst_init n).
    Proof.
      pose proof (size_nonneg g0). split; [unfold hlen, hst_init; rewrite !zlen_vrep by auto; auto|]. split; [reflexivity|]. split; [constructor|]. split; [intros w []|]. split; [intros w []|].
      intros i Hi. unfold zlen in Hi. cbn in Hi. lia.
    Qed.
  End Pass2.
  Definition hfacts (g : list (list Z)) (h : hld) : Prop :=
    h_n h = n /\ zlen (h_visit h) = n /\ zlen (h_leave h) = n /\ zlen (h_head h) = n /\ zlen (h_ord h) = n /\ zlen (h_siz h) = n /\ zlen (h_par h) = n /\ zlen (h_dep h) = n /\ zlen g = n /\ (forall v, vertex g0 v -> Permutation (row g v) (row g0 v)) /\ rooted g pf /\ dep_ok g pf dep rt /\ (forall v, vertex g0 v -> ga (h_par h) v = pf v /\ ga (h_dep h) v = dep v /\ subsize g0 pf v (ga (h_siz h) v)) /\ (forall c w, vertex g0 c -> vertex g0 w -> pf c = w -> exists f, vget (row g w) 0 = Ok f /\ vertex g0 f /\ pf f = w /\ forall a b, subsize g0 pf c a -> subsize g0 pf f b -> a <= b) /\ (forall v, vertex g0 v -> placed g pf (h_visit h, h_leave h, h_head h, h_ord h, n) 0 n v) /\ (forall k, 0 <= k < n -> vertex g0 (ga (h_ord h) k) /\ ga (h_visit h) (ga (h_ord h) k) = k).
  Lemma I1_done dn s : I1 dn s -> (forall w, vertex g0 w -> dn (rt w)) -> let '(g, P, Sz, Dp) := s in
    zlen g = n /\ rooted g pf /\ dep_ok g pf dep rt /\ (forall v, vertex g0 v -> ga P v = pf v).
  Proof.
    destruct s as [[[g P] Sz] Dp]. intros ((Lg & _) & Rd & _) Al.
    assert (RP : rooted g pf). { apply (rooted_perm g0); auto. intros w Hw. destruct (Rd w Hw (Al w Hw)) as (X & _). exact X. }
    split; [auto|]. split; [auto|]. split; [|intros v Hv; apply (Rd v Hv (Al v Hv))]. unfold dep_ok, vertex in *. rewrite Lg. exact D.
  Qed.
  Lemma finish_ok dn s acc t : I1 dn s -> (forall w, vertex g0 w -> dn (rt w)) -> (let '(g, P, Sz, Dp) := s in I2 g acc t) -> (forall w, vertex g0 w -> In w acc) ->
    let '(h, g) := hld_finish n s t in hfacts g h.
  Proof.
    intros HI1 Al HI2 Ha. pose proof (I1_done dn s HI1 Al) as X. destruct s as [[[g P] Sz] Dp]. destruct t as [[[[V L] H] Od] tm]. destruct X as (Zg & R' & D' & Pp).
    destruct HI1 as ((Lg & Lp & Ls & Ld) & Rd & _). destruct HI2 as ((Lv & Ll & Lh & Lo) & Tm & Nd & Ac & Pl & Seg). cbn [time_ snd] in *.
    assert (Za : zlen acc = n).
    { assert (Pm : Permutation acc (zrange n)). { apply NoDup_Permutation; auto; [apply NoDup_zrange|]. intros w. rewrite In_zrange. split; [intros I; apply Ac in I as (I & _); unfold vertex in I; lia|apply Ha]. }
      apply Permutation_length in Pm. pose proof (zlen_zrange n (size_nonneg g0)). unfold zlen in *. lia. }
    cbn [hld_finish]. unfold hfacts. cbn [h_n h_visit h_leave h_head h_ord h_siz h_par h_dep]. rewrite Zg in *.
    repeat (split; [auto; fail|]). split; [intros v Hv; apply (Rd v Hv (Al v Hv))|]. split; [auto|]. split; [auto|].
    split; [intros v Hv; destruct (Rd v Hv (Al v Hv)) as (_ & A1 & A2 & A3 & _); auto|].
    split; [intros c w Hc Hw E; destruct (Rd w Hw (Al w Hw)) as (_ & _ & _ & _ & A4); now apply (A4 c)|].
    split.
    - intros v Hv. assert (tm = n) by lia. subst tm. rewrite H0 in Pl. apply Pl. auto.
    - intros k Hk. destruct (Seg k ltac:(lia)) as (-> & ->). split; auto. destruct (Ac (ga acc k)) as (X & _); [apply ga_In; lia|]. unfold vertex in *. lia.
  Qed.
  Lemma new_ok : (forall v, vertex g0 v -> rt v <= v) -> exists h g, hld_new g0 = Ok (h, g) /\ hfacts g h.
  Proof.
    intros Lst. unfold hld_new. cbv zeta.
    destruct (for_inv (S := dst) (fun i s => I1 (fun x => x < i) s) 0 n (new_dfs (length g0)) (dfs_init g0)) as (s & Es & Is).
    - apply size_nonneg.
    - eapply I1_ext; [|apply I1_init]. unfold vertex. intros x Hx _. lia.
    - intros i s Hi Is. destruct s as [[[g P] Sz] Dp]. pose proof Is as ((Lg & Lp & Ls & Ld) & Rd & Sm). assert (Vi : vertex g0 i) by auto.
      unfold new_dfs. rewrite (vget_gv (-1)) by lia. cbn [bind]. destruct (Z.eq_dec (pf i) (-1)) as [E|N].
      + assert (Ri : rt i = i) by (now apply (rt_root g0 pf dep rt D)). destruct (Sm i Vi ltac:(lia)) as (_ & Ep & _). rewrite gv_vrep in Ep by auto. rewrite Ep. cbn [Z.ltb Z.compare].
        destruct (pass1_step i (fun x => x < i) _ Vi E ltac:(cbv beta; lia) Is) as (s' & k & E' & I'). rewrite E'. cbn [bind]. eexists. split; [reflexivity|]. eapply I1_ext; [|exact I']. intros x _ _. cbv beta. lia.
      + assert (Ri : rt i < i). { pose proof (Lst i Vi). assert (rt i <> i); [|lia]. intros X. apply N. rewrite <- X. apply (par_rt g0 pf dep rt D i Vi). }
        destruct (Rd i Vi Ri) as (_ & Ep & _). rewrite Ep. assert (Vp := par_vertex g0 pf R i Vi N). unfold vertex in Vp. destruct (Z.ltb_spec (pf i) 0); [lia|].
        eexists. split; [reflexivity|]. eapply I1_ext; [|exact Is]. intros x Hx Ex. cbv beta. assert (x <> i) by congruence. lia.
    - rewrite Es. cbn [bind]. assert (Al : forall w, vertex g0 w -> rt w < n) by (intros w Hw; apply (rt_vertex g0 pf dep rt D w Hw)).
      pose proof (I1_done _ s Is Al) as X. destruct s as [[[g P] Sz] Dp]. destruct X as (Zg & R' & D' & Pp). pose proof Is as ((Lg & Lp & Ls & Ld) & _).
      destruct (for_inv (fun i t => exists acc, I2 g acc t /\ forall w, vertex g0 w -> (In w acc <-> rt w < i)) 0 n (fun i t =>
        let* p := vget P i in if p <? 0 then hld_rec (length g0) g i (-1) t else Ok t) (hst_init n)) as (t & Et & (acc & It & Ia)).
      + apply size_nonneg.
      + exists []. split; [apply I2_init; auto|]. intros w Hw. pose proof (rt_vertex g0 pf dep rt D w Hw) as X. unfold vertex in X. split; [intros []|lia].
      + intros i t Hi (acc & It & Ia). assert (Vi : vertex g0 i) by auto. assert (Vi' : vertex g i) by (unfold vertex; lia). rewrite (vget_gv (-1)) by lia. cbn [bind]. rewrite Pp by auto. destruct (Z.eq_dec (pf i) (-1)) as [E|N].
        * rewrite E. cbn [Z.ltb Z.compare]. assert (Ri : rt i = i) by (now apply (rt_root g0 pf dep rt D)).
          destruct (pass2_step g Zg R' D' i acc t Vi' E) as (t' & l & E' & I' & Il); auto; [rewrite Ia by auto; lia|].
          exists t'. split; auto. exists (acc ++ l). split; auto. intros w Hw. rewrite in_app_iff, Ia, Il by auto. unfold vertex in *. rewrite Zg. lia.
        * assert (Vp := par_vertex g0 pf R i Vi N). unfold vertex in Vp. destruct (Z.ltb_spec (pf i) 0); [lia|]. exists t. split; auto. exists acc. split; auto. intros w Hw. rewrite Ia by auto.
          assert (rt w <> i). { intros X. apply N. rewrite <- X. apply (par_rt g0 pf dep rt D w Hw). } lia.
      + rewrite Et. cbn [bind]. pose proof (finish_ok _ _ acc t Is Al It) as X. destruct (hld_finish n (g, P, Sz, Dp) t) as (h, g') eqn:Eh. exists h, g'. split; auto. apply X. intros w Hw. apply Ia; auto.
  Qed.
  Lemma new_roots_ok rs : NoDup rs -> (forall v, vertex g0 v -> (pf v = -1 <-> In v rs)) -> (forall r, In r rs -> vertex g0 r) -> exists h g, hld_new_roots g0 rs = Ok (h, g) /\ hfacts g h.
  Proof.
    intros Nr Hrs Vr. unfold hld_new_roots. cbv zeta.
    destruct (for_each_inv (fun dn s => I1 (fun x => In x dn) s) rs (fun i s => let* (s, _) := dfs (length g0) i (-1) s in Ok s) (dfs_init g0)) as (s & Es & Is).
    - exact I1_init.
    - intros dn r td s Er Is. assert (Ir : In r rs) by (rewrite Er; apply in_app_iff; right; now left). assert (Vi := Vr r Ir). assert (E := proj2 (Hrs r Vi) Ir).
      destruct (pass1_step r (fun x => In x dn) s Vi E) as (s' & k & E' & I'); auto.
      { intros X. rewrite Er in Nr. apply (NoDup_app_disj _ _ r Nr X). now left. }
      rewrite E'. cbn [bind]. eexists. split; [reflexivity|]. eapply I1_ext; [|exact I']. intros x _ _. cbv beta. rewrite in_app_iff. cbn [In]. intuition congruence.
    - rewrite Es. cbn [bind]. assert (Al : forall w, vertex g0 w -> In (rt w) rs) by (intros w Hw; apply Hrs; [apply (rt_vertex g0 pf dep rt D w Hw)|apply (par_rt g0 pf dep rt D w Hw)]).
      pose proof (I1_done _ s Is Al) as X. destruct s as [[[g P] Sz] Dp]. destruct X as (Zg & R' & D' & Pp).
      destruct (for_each_inv (fun dn t => exists acc, I2 g acc t /\ forall w, vertex g0 w -> (In w acc <-> In (rt w) dn)) rs (fun i t => hld_rec (length g0) g i (-1) t) (hst_init n)) as (t & Et & (acc & It & Ia)).
      + exists []. split; [apply I2_init; auto|]. intros w Hw. cbn. tauto.
      + intros dn r td t Er (acc & It & Ia). assert (Ir : In r rs) by (rewrite Er; apply in_app_iff; right; now left). assert (Vi := Vr r Ir). assert (E := proj2 (Hrs r Vi) Ir). assert (Vi' : vertex g r) by (unfold vertex in *; lia).
        assert (Ri : rt r = r) by (now apply (rt_root g0 pf dep rt D)).
        destruct (pass2_step g Zg R' D' r acc t Vi' E) as (t' & l & E' & I' & Il); auto.
        { rewrite Ia, Ri by auto. intros X. rewrite Er in Nr. apply (NoDup_app_disj _ _ r Nr X). now left. }
        exists t'. split; auto. exists (acc ++ l). split; auto. intros w Hw. assert (Hw' : vertex g w) by (unfold vertex in *; lia). rewrite !in_app_iff, Ia, Il by auto. cbn [In]. intuition congruence.
      + rewrite Et. cbn [bind]. pose proof (finish_ok _ _ acc t Is Al It) as X. destruct (hld_finish n (g, P, Sz, Dp) t) as (h, g') eqn:Eh. exists h, g'. split; auto. apply X. intros w Hw. apply Ia; auto.
  Qed.
End New.
