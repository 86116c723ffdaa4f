(* Rooted forests: connectivity, changing the roots *)
From Verif Require Import Base BaseLemmas ListZ ListMore Graph_spec Tree_spec BFS_proof Tree_proof Tree_proof2.
From Coq Require Import Sorted Permutation.

Section Conn.
  Variables (g : list (list Z)) (par dep rt : Z -> Z).
  Hypothesis R : rooted g par.
  Hypothesis D : dep_ok g par dep rt.
  Lemma rooted_graph_ok : graph_ok g.
  Proof. intros u v E. apply (edge_par g par R) in E; [apply E|]. eapply edge_vertex; eauto. Qed.
  Lemma edge_sym u v : edge g u v -> edge g v u.
  Proof.
    intros E. pose proof (edge_vertex g _ _ E) as Hu. apply (edge_par g par R) in E as (Hv & H); auto. apply (edge_par g par R); auto. split; auto. tauto.
  Qed.
  Lemma edge_rt u v : edge g u v -> rt u = rt v.
  Proof.
    intros E. pose proof (edge_vertex g _ _ E) as Hu. apply (edge_par g par R) in E as (Hv & [H|H]); auto; unfold vertex in *.
    - rewrite <- H. symmetry. apply (rt_par g par dep rt D); auto. lia.
    - rewrite <- H. apply (rt_par g par dep rt D); auto. lia.
  Qed.
  Lemma climb_reach k v a : climb par k v a -> vertex g v -> reach (hop g) v a k.
  Proof.
    induction 1 as [v|k v a H C IH]; intros Hv; [apply reach_end|]. assert (Hp := par_vertex g par R v Hv H). destruct (IH Hp) as (p & Rp). exists (v :: p).
    rewrite Z.add_comm. econstructor; eauto. split; auto. apply (edge_par g par R); auto.
  Qed.
  Lemma reach_sym u v c : reach (hop g) u v c -> reach (hop g) v u c.
  Proof.
    intros (p & H). induction H as [s|s w t p c d (E & ->) Rt IH]; [apply reach_end|]. rewrite Z.add_comm. eapply reach_snoc; [exact IH|]. split; auto. now apply edge_sym.
  Qed.
  Lemma reach_trans u v w c d : reach (hop g) u v c -> reach (hop g) v w d -> reach (hop g) u w (c + d).
  Proof.
    intros (p & H) Hd. induction H as [s|s x t p c e E Rt IH]; [exact Hd|]. destruct (IH Hd) as (q & Q). exists (s :: q). rewrite <- Z.add_assoc. econstructor; eauto.
  Qed.
  Lemma conn_sym u v : connected g u v -> connected g v u. Proof. intros (c & H). exists c. now apply reach_sym. Qed.
  Lemma conn_refl u : connected g u u. Proof. exists 0. apply reach_end. Qed.
  Lemma conn_trans u v w : connected g u v -> connected g v w -> connected g u w.
  Proof. intros (c & H) (d & K). exists (c + d). eapply reach_trans; eauto. Qed.
  Lemma conn_rt u v : vertex g u -> vertex g v -> (connected g u v <-> rt u = rt v).
  Proof.
    intros Hu Hv. split.
    - intros (c & p & H). clear Hv. induction H as [s|s x t p c e (E & _) Rt IH]; auto. rewrite (edge_rt s x E). apply IH. apply rooted_graph_ok in E. auto.
    - intros E. eapply conn_trans with (rt u).
      + destruct (D u Hu) as (C & _). eexists. eapply climb_reach; eauto.
      + rewrite E. apply conn_sym. destruct (D v Hv) as (C & _). eexists. eapply climb_reach; eauto.
  Qed.
  Lemma conn_common u v : vertex g u -> vertex g v -> (connected g u v <-> exists a, ancestor par a u /\ ancestor par a v).
  Proof.
    intros Hu Hv. rewrite conn_rt by auto. split.
    - intros E. exists (rt u). split; [eapply anc_rt; eauto|]. rewrite E. eapply anc_rt; eauto.
    - intros (a & A & B). rewrite (rt_anc g par dep rt R D a u A Hu), (rt_anc g par dep rt R D a v B Hv). auto.
  Qed.
End Conn.

(* moving the root to a neighbour *)
Lemma reroot_step g par r c : rooted g par -> vertex g r -> vertex g c -> par r = -1 -> par c = r ->
  rooted g (fun v => if v =? r then c else if v =? c then -1 else par v).
Proof.
  intros (R1 & R2 & R3) Hr Hc Er Ec. unfold rooted, vertex in *. assert (Ncr : c <> r) by (intros ->; lia). split; [|split].
  - intros v Hv. destruct (v =? r); [now right|]. destruct (v =? c); [now left|auto].
  - intros u Hu. destruct (R2 u Hu) as (adj & E & N & I). exists adj. split; [auto|split; [auto|]]. intros v. rewrite I.
    assert (X : 0 <= v < zlen g -> (par v = u \/ par u = v <-> (if v =? r then c else if v =? c then -1 else par v) = u \/ (if u =? r then c else if u =? c then -1 else par u) = v)); [|tauto].
    intros Hv. destruct (Z.eqb_spec v r), (Z.eqb_spec u r), (Z.eqb_spec v c), (Z.eqb_spec u c); subst; lia.
  - intros v Hv. destruct (R3 v Hv) as (k & a & C & E). clear Hv. induction C as [v|k v a H C IH].
    + destruct (Z.eq_dec v r) as [->|N].
      * exists 1, c. split; [|rewrite Z.eqb_refl; destruct (Z.eqb_spec c r); auto; lia]. set (p := fun v => if v =? r then c else if v =? c then -1 else par v). replace c with (p r) by (unfold p; now rewrite Z.eqb_refl).
        apply climb_1. unfold p. rewrite Z.eqb_refl. lia.
      * exists 0, v. split; [constructor|]. rewrite (proj2 (Z.eqb_neq _ _) N). destruct (Z.eqb_spec v c); auto.
    + destruct (Z.eq_dec v c) as [->|N]; [exists 0, c; split; [constructor|]; rewrite Z.eqb_refl; destruct (Z.eqb_spec c r); auto; lia|].
      assert (N2 : v <> r) by congruence. destruct (IH E) as (k' & a' & C' & E'). exists (k' + 1), a'. split; auto. set (p := fun v => if v =? r then c else if v =? c then -1 else par v) in *.
      assert (Ep : p v = par v) by (unfold p; rewrite (proj2 (Z.eqb_neq _ _) N), (proj2 (Z.eqb_neq _ _) N2); auto). constructor; rewrite Ep; auto.
Qed.
Lemma reroot g par : rooted g par -> forall k r a, climb par k r a -> par a = -1 -> vertex g r ->
  exists par', rooted g par' /\ par' r = -1 /\ forall w, ~ connected g r w -> par' w = par w.
Proof.
  intros R k r a C Ea. induction C as [v|k v a H C IH]; intros Hv; [exists par; auto|].
  assert (Hp := par_vertex g par R v Hv H). destruct (IH Ea Hp) as (par1 & R1 & E1 & F1).
  assert (Edge : edge g v (par v)) by (apply (edge_par g par R); auto).
  assert (E2 : par1 v = par v). { apply (edge_par g par1 R1) in Edge as (_ & [X|X]); auto. unfold vertex in *. lia. }
  exists (fun w => if w =? par v then v else if w =? v then -1 else par1 w). split; [|split].
  - now apply reroot_step.
  - rewrite Z.eqb_refl. destruct (Z.eqb_spec v (par v)) as [X|X]; auto. exfalso. destruct (dep_fun g par R) as (dep & rt & D & _). now apply (par_neq g par dep rt D v Hv).
  - intros w Hw. assert (Cv : connected g v (par v)) by (exists 1; replace 1 with (1 + 0) by lia; eexists; econstructor; [split; [exact Edge|auto]|constructor]).
    destruct (Z.eqb_spec w (par v)) as [->|N1]; [contradiction|]. destruct (Z.eqb_spec w v) as [->|N2]; [destruct Hw; apply conn_refl|].
    apply F1. intros X. apply Hw. eapply conn_trans; eauto.
Qed.
Lemma choose_roots g rs : forall par, rooted g par -> (forall r, In r rs -> vertex g r) -> ForallOrdPairs (fun a b => ~ connected g a b) rs ->
  exists par', rooted g par' /\ (forall r, In r rs -> par' r = -1) /\ forall w, (forall r, In r rs -> ~ connected g r w) -> par' w = par w.
Proof.
  induction rs as [|r rs IH]; intros par R Hv Hp; [exists par; split; [auto|split; [intros r []|auto]]|].
  inversion Hp as [|? ? Hf Hp']; subst. destruct (IH par R) as (par1 & R1 & E1 & F1); auto; [intros; apply Hv; now right|].
  destruct (proj2 (proj2 R1) r (Hv r (or_introl eq_refl))) as (k & a & C & Ea).
  destruct (reroot g par1 R1 k r a C Ea (Hv r (or_introl eq_refl))) as (par2 & R2 & E2 & F2). exists par2. split; [auto|split].
  - intros r' [<-|H]; auto. rewrite F2; auto. rewrite Forall_forall in Hf. now apply Hf.
  - intros w Hw. rewrite F2 by (apply Hw; now left). apply F1. intros r' H. apply Hw. now right.
Qed.
Lemma roots_exact g par rs : rooted g par -> one_each g rs -> (forall r, In r rs -> par r = -1) -> forall v, vertex g v -> par v = -1 -> In v rs.
Proof.
  intros R (Hv & _ & Hc) E v Vv Ev. destruct (Hc v Vv) as (r & Hr & C). destruct (dep_fun g par R) as (dep & rt & D & _).
  apply (conn_rt g par dep rt R D) in C; auto. rewrite (rt_root g par dep rt D r), (rt_root g par dep rt D v) in C by auto. congruence.
Qed.
Lemma choose_one_each g rs : forest g -> one_each g rs -> exists par, rooted g par /\ forall v, vertex g v -> (par v = -1 <-> In v rs).
Proof.
  intros (par & R) H. pose proof H as (Hv & Hp & Hc). destruct (choose_roots g rs par R Hv Hp) as (par' & R' & E & _). exists par'. split; auto.
  intros v Vv. split; auto. eapply roots_exact; eauto.
Qed.
(* the least vertex of each component *)
Definition least_roots (g : list (list Z)) (rt : Z -> Z) : list Z := filter (fun v => forallb (fun w => (v <=? w) || negb (rt v =? rt w)) (zrange (zlen g))) (zrange (zlen g)).
Lemma least_roots_In g par dep rt v : rooted g par -> dep_ok g par dep rt -> (In v (least_roots g rt) <-> vertex g v /\ forall w, vertex g w -> connected g v w -> v <= w).
Proof.
  intros R D. unfold least_roots. rewrite filter_In, In_zrange, forallb_forall. split; intros (Hv & H); split; auto; intros w Hw.
  - intros C. apply (conn_rt g par dep rt R D) in C; auto. specialize (H w (proj2 (In_zrange _ _) Hw)). rewrite C, Z.eqb_refl in H. cbn in H. lia.
  - apply In_zrange in Hw. destruct (Z.eqb_spec (rt v) (rt w)) as [E|E]; [|now rewrite orb_true_r]. apply (conn_rt g par dep rt R D) in E; auto. specialize (H w Hw E). cbn. rewrite orb_false_r. lia.
Qed.
Lemma least_one_each g par dep rt : rooted g par -> dep_ok g par dep rt -> one_each g (least_roots g rt).
Proof.
  intros R D. pose proof (fun v => least_roots_In g par dep rt v R D) as I. split; [|split].
  - intros r H. now apply I in H.
  - assert (S : StronglySorted Z.lt (zrange (zlen g))).
    { unfold zrange. generalize 0%nat. induction (Z.to_nat (zlen g)) as [|m IH]; intros s; cbn [seq map]; constructor; auto. apply Forall_forall. intros x Hx. apply in_map_iff in Hx as (y & <- & Hy). apply in_seq in Hy. lia. }
    assert (N : NoDup (least_roots g rt)) by (apply NoDup_filter, NoDup_zrange).
    assert (K : forall l, incl l (least_roots g rt) -> NoDup l -> ForallOrdPairs (fun a b => ~ connected g a b) l).
    { induction l as [|x l IH]; intros Hi Nl; constructor; inversion Nl; subst; [|apply IH; auto; intros y Hy; apply Hi; now right].
      apply Forall_forall. intros y Hy C. apply H1. assert (Hx := proj1 (I x) (Hi x (or_introl eq_refl))). assert (Hy' := proj1 (I y) (Hi y (or_intror Hy))).
      destruct Hx as (Vx & Lx), Hy' as (Vy & Ly). assert (x <= y) by auto. assert (y <= x) by (apply Ly; auto; eapply conn_sym; eauto). replace x with y by lia. auto. }
    apply K; auto. intros x; auto.
  - intros v Hv. assert (H : exists m, vertex g m /\ connected g m v /\ forall w, vertex g w -> connected g m w -> m <= w).
    { assert (W : forall k, (0 <= k) -> forall x, vertex g x -> connected g x v -> x <= k -> exists m, vertex g m /\ connected g m v /\ forall w, vertex g w -> connected g m w -> m <= w).
      { intros k Hk. pattern k. apply Zlt_0_ind; auto. clear k Hk. intros k IH Hk x Hx C L.
        destruct (forallb (fun w => (x <=? w) || negb (rt x =? rt w)) (zrange (zlen g))) eqn:F.
        - exists x. repeat split; try apply Hx; auto. apply (proj1 (I x)). unfold least_roots. rewrite filter_In, In_zrange. auto.
        - assert (exists w, vertex g w /\ w < x /\ rt x = rt w) as (w & Hw & Lw & E).
          { clear - F. assert (G : exists w, In w (zrange (zlen g)) /\ (x <=? w) || negb (rt x =? rt w) = false).
            { induction (zrange (zlen g)) as [|y l IHl]; [discriminate|]. cbn [forallb] in F. apply andb_false_iff in F as [F|F]; [exists y; split; auto; now left|].
              destruct (IHl F) as (w & Hw & E). exists w. split; auto. now right. }
            destruct G as (w & Hw & E). apply In_zrange in Hw. apply orb_false_iff in E as (E1 & E2). apply negb_false_iff, Z.eqb_eq in E2. exists w. repeat split; try apply Hw; auto. lia. }
          apply (IH w ltac:(unfold vertex in *; lia) w Hw); [|lia]. eapply conn_trans; [|exact C]. apply (conn_rt g par dep rt R D); auto. }
      apply (W v ltac:(unfold vertex in Hv; lia) v Hv (conn_refl g v)). lia. }
    destruct H as (m & Hm & C & L). exists m. split; auto. apply I. auto.
Qed.
