(* BFS *)
From Verif Require Import Base BaseLemmas ListZ ListMore Graph_spec BFS_model.
From Coq Require Import Sorted.

(* routes *)
Lemma route_snoc E s t p c : route E s t p c -> forall u d, E t u d -> route E s u (p ++ [u]) (c + d).
Proof.
  induction 1 as [s|s w t p c e H R IH]; intros u d Hu.
  - cbn [app]. replace (0 + d) with (d + 0) by lia. eapply route_step; [exact Hu|constructor].
  - cbn [app]. rewrite <- Z.add_assoc. eapply route_step; [exact H|auto].
Qed.
Lemma reach_end E s : reach E s s 0. Proof. exists [s]. constructor. Qed.
Lemma reach_snoc E s t u c d : reach E s t c -> E t u d -> reach E s u (c + d).
Proof. intros (p & H) Hd. eexists. eapply route_snoc; eauto. Qed.
(* a potential that grows at most by the edge costs *)
Lemma route_potential (E : Z -> Z -> Z -> Prop) (I : Z -> Prop) f s t p c : route E s t p c -> I s -> (forall u v d, I u -> E u v d -> I v /\ f v <= f u + d) -> I t /\ f t <= f s + c.
Proof.
  intros R Hs H. induction R as [s|s u t p c d He R IH]; [split; auto; lia|]. destruct (H _ _ _ Hs He) as (Hu & L). destruct (IH Hu). split; auto. lia.
Qed.

(* values of a vector *)
Definition dv (dist : list Z) (v : Z) : Z := nth (Z.to_nat v) dist (-1).
Lemma vget_dv dist v : 0 <= v < zlen dist -> vget dist v = Ok (dv dist v). Proof. apply vget_nth. Qed.
Lemma dv_zupd dist v x w : 0 <= v < zlen dist -> 0 <= w < zlen dist -> dv (zupd dist v x) w = if v =? w then x else dv dist w.
Proof.
  intros. assert (E : vget (zupd dist v x) w = Ok (dv (zupd dist v x) w)) by (apply vget_dv; rewrite zlen_zupd; lia).
  rewrite vget_zupd in E by auto. destruct (v =? w); [congruence|]. rewrite vget_dv in E by auto. congruence.
Qed.
Lemma dv_vrep n x v : 0 <= v < n -> dv (vrep n x) v = x.
Proof. intros. assert (E : vget (vrep n x) v = Ok (dv (vrep n x) v)) by (apply vget_dv; rewrite zlen_vrep; lia). rewrite vget_vrep in E by lia. congruence. Qed.
Definition unseen (dist : list Z) : nat := length (filter (fun x => x =? -1) dist).
Lemma unseen_zupd dist v x : vget dist v = Ok (-1) -> x <> -1 -> S (unseen (zupd dist v x)) = unseen dist.
Proof.
  intros E Hx. apply vget_split in E as (a & b & -> & <-). unfold zupd. replace (Z.to_nat (zlen a)) with (length a) by (unfold zlen; lia).
  assert (U : upd (a ++ -1 :: b) (length a) x = a ++ x :: b) by (induction a; cbn [app length upd]; congruence). rewrite U.
  unfold unseen. rewrite !filter_app, !app_length. cbn [filter]. rewrite (proj2 (Z.eqb_neq x (-1))) by auto. cbn [Z.eqb length]. rewrite Pos.eqb_refl. cbn [length]. lia.
Qed.
Lemma unseen_le dist : (unseen dist <= length dist)%nat.
Proof. unfold unseen. induction dist as [|x l IH]; cbn [filter length]; [lia|]. destruct (x =? -1); cbn [length]; lia. Qed.

Section Bfs.
  Variables (g : list (list Z)) (src : list Z).
  Hypothesis G : graph_ok g.
  Hypothesis Hsrc : forall s, In s src -> vertex g s.
  Notation n := (zlen g).
  Definition good (dist : list Z) : Prop :=
    zlen dist = n /\ (forall v, vertex g v -> -1 <= dv dist v) /\ (forall s, In s src -> dv dist s = 0) /\
    (forall v, vertex g v -> 0 <= dv dist v -> exists s, In s src /\ reach (hop g) s v (dv dist v)).
  Definition queue_ok (dist dq : list Z) : Prop :=
    (forall v, In v dq -> vertex g v /\ 0 <= dv dist v) /\ StronglySorted (fun x y => dv dist x <= dv dist y) dq.
  Definition closed (dist : list Z) (u : Z) : Prop := forall v, edge g u v -> 0 <= dv dist v <= dv dist u + 1.
  Definition P (s : list Z * list Z) : Prop :=
    let '(dist, dq) := s in
    good dist /\ queue_ok dist dq /\ (forall u, vertex g u -> 0 <= dv dist u -> In u dq \/ closed dist u) /\
    (forall h v, hd_error dq = Some h -> vertex g v -> dv dist v <= dv dist h + 1).
  Lemma sorted_ext (R S : Z -> Z -> Prop) l : (forall x y, In x l -> In y l -> R x y -> S x y) -> StronglySorted R l -> StronglySorted S l.
  Proof.
    intros H. induction 1 as [|a l Hs IH Hf]; constructor.
    - apply IH. intros x y Hx Hy. apply H; now right.
    - rewrite Forall_forall in *. intros x Hx. apply H; [now left|now right|auto].
  Qed.
  Lemma sorted_snoc (R : Z -> Z -> Prop) l x : StronglySorted R l -> (forall y, In y l -> R y x) -> StronglySorted R (l ++ [x]).
  Proof.
    intros H Hx. induction H as [|a l Hs IH Hf]; cbn [app]; [repeat constructor|]. constructor.
    - apply IH. intros y Hy. apply Hx. now right.
    - apply Forall_app. split; auto. constructor; [apply Hx; now left|constructor].
  Qed.
  Definition mid (u d : Z) (done : list Z) (m : nat) (s : list Z * list Z) : Prop :=
    let '(dist, dq) := s in
    good dist /\ queue_ok dist dq /\ (forall w, vertex g w -> w <> u -> 0 <= dv dist w -> In w dq \/ closed dist w) /\
    dv dist u = d /\ (forall x, In x dq -> d <= dv dist x) /\ (forall v, vertex g v -> dv dist v <= d + 1) /\
    (forall v, In v done -> vertex g v /\ 0 <= dv dist v <= d + 1) /\ (length dq + unseen dist = m)%nat.
  Lemma visit_ok u d done v m s : vertex g u -> 0 <= d -> edge g u v -> mid u d done m s ->
    exists s', bfs_visit u v s = Ok s' /\ mid u d (done ++ [v]) m s'.
  Proof.
    destruct s as [dist dq]. intros Hu Hd Ev M. pose proof M as ((Zd & Lo & Src & Rch) & (Qv & Qs) & Cl & Du & Qd & Up & Dn & Ms). pose proof (G _ _ Ev) as Hv.
    unfold bfs_visit. rewrite vget_dv by lia. cbn [bind]. unfold unreachable. destruct (Z.eqb_spec (dv dist v) (-1)) as [Ev1|Nv].
    - rewrite vget_dv by (unfold vertex in Hu; lia). cbn [bind]. rewrite vset_ok by lia. cbn [bind]. eexists. split; [reflexivity|]. rewrite Du.
      assert (Dz : forall w, vertex g w -> dv (zupd dist v (d + 1)) w = if v =? w then d + 1 else dv dist w) by (intros w Hw; unfold vertex in Hw; rewrite dv_zupd by lia; auto).
      assert (Dn' : forall w, vertex g w -> 0 <= dv dist w -> dv (zupd dist v (d + 1)) w = dv dist w).
      { intros w Hw H0. rewrite Dz by auto. destruct (Z.eqb_spec v w) as [->|]; auto. lia. }
      assert (Uv : v <> u) by (intros ->; lia).
      unfold mid. split; [|split; [|split; [|split; [|split; [|split; [|split]]]]]].
      + split; [now rewrite zlen_zupd|]. split; [|split].
        * intros w Hw. rewrite Dz by auto. destruct (v =? w); [lia|auto].
        * intros s Hs. rewrite Dn'; [now apply Src|now apply Hsrc|]. rewrite Src; auto. lia.
        * intros w Hw H0. rewrite Dz in * by auto. destruct (Z.eqb_spec v w) as [<-|]; auto. destruct (Rch u Hu) as (s & Hs & R); [lia|]. exists s. split; auto.
          rewrite <- Du. eapply reach_snoc; eauto. split; auto.
      + split.
        * intros w Hw. apply in_app_iff in Hw as [Hw|[<-|[]]]; [|split; [auto|rewrite Dz, Z.eqb_refl by auto; lia]]. destruct (Qv w Hw) as (A & B). split; auto. rewrite Dn'; auto.
        * apply sorted_snoc.
          -- eapply sorted_ext; [|exact Qs]. intros x y Hx Hy L. destruct (Qv x Hx), (Qv y Hy). now rewrite !Dn'.
          -- intros y Hy. destruct (Qv y Hy) as (A & B). rewrite Dn', Dz, Z.eqb_refl by auto. apply Up. auto.
      + intros w Hw Nw H0. rewrite Dz in H0 by auto. destruct (Z.eqb_spec v w) as [<-|Ne]; [left; apply in_app_iff; right; now left|].
        destruct (Cl w Hw Nw H0) as [A|A]; [left; apply in_app_iff; auto|]. right. intros x Hx. pose proof (A x Hx). pose proof (G _ _ Hx). rewrite !Dn'; auto; lia.
      + rewrite Dn'; auto. lia.
      + intros x Hx. apply in_app_iff in Hx as [Hx|[<-|[]]]; [destruct (Qv x Hx); rewrite Dn' by auto; auto|]. rewrite Dz, Z.eqb_refl by auto. lia.
      + intros w Hw. rewrite Dz by auto. destruct (v =? w); [lia|auto].
      + intros w Hw. apply in_app_iff in Hw as [Hw|[<-|[]]]; [|split; auto; rewrite Dz, Z.eqb_refl by auto; lia]. destruct (Dn w Hw) as (A & B). split; auto. rewrite Dn' by (auto; lia). auto.
      + rewrite app_length. cbn [length]. pose proof (unseen_zupd dist v (d + 1)) as H. rewrite vget_dv, Ev1 in H by lia. specialize (H eq_refl ltac:(lia)). lia.
    - eexists. split; [reflexivity|]. unfold mid. split; [now repeat split|]. split; [split; auto|]. do 4 (split; [now auto|]). split; auto.
      intros w Hw. apply in_app_iff in Hw as [Hw|[<-|[]]]; auto. split; auto. split; [|auto]. specialize (Lo v Hv). lia.
  Qed.
  Definition meas (s : list Z * list Z) : nat := (length (snd s) + unseen (fst s))%nat.
  Lemma step_ok s : P s -> exists x, bfs_loop g s = Ok x /\
    match x with inl s' => P s' /\ (meas s' < meas s)%nat | inr dist => good dist /\ forall u, vertex g u -> 0 <= dv dist u -> closed dist u end.
  Proof.
    destruct s as [dist dq]. intros (Gd & (Qv & Qs) & Cl & Hd). unfold bfs_loop. destruct dq as [|u dq].
    - eexists. split; [reflexivity|]. split; auto. intros u Hu H0. destruct (Cl u Hu H0) as [[]|A]; auto.
    - destruct (Qv u ltac:(now left)) as (Hu & H0). destruct (vget_Ok g u Hu) as (adj & Ea). rewrite Ea. cbn [bind].
      assert (Hadj : forall v, In v adj -> edge g u v) by (intros v Hv; exists adj; auto).
      inversion Qs as [|? ? Qs' Qf]; subst. rewrite Forall_forall in Qf.
      destruct (for_each_inv (fun done s => mid u (dv dist u) done (length dq + unseen dist) s) adj (bfs_visit u) (dist, dq)) as ((dist', dq') & E & M).
      + unfold mid. split; auto. split; [split; [intros v Hv; apply Qv; now right|auto]|]. split; [intros w Hw Nw Hw0; destruct (Cl w Hw Hw0) as [[->|A]|A]; auto; congruence|].
        split; auto. split; [exact Qf|]. split; [intros v Hv; now apply Hd|]. split; [intros v []|reflexivity].
      + intros done v todo s El M. apply visit_ok; auto. apply Hadj. rewrite El. apply in_app_iff. right. now left.
      + rewrite E. cbn [bind]. eexists. split; [reflexivity|]. destruct M as (Gd' & (Qv' & Qs'') & Cl' & Du & Qd & Up & Dn & Ms). split; [|unfold meas; cbn [fst snd length]; lia].
        split; auto. split; [split; auto|]. split.
        * intros w Hw Hw0. destruct (Z.eq_dec w u) as [->|Ne]; auto. right. intros v (adj' & Ea' & Hv). assert (adj' = adj) by congruence. subst adj'. rewrite Du. now apply Dn.
        * intros h v Eh Hv. destruct dq' as [|h' dq']; [discriminate|]. injection Eh as ->. specialize (Qd h ltac:(now left)). specialize (Up v Hv). lia.
  Qed.
  Lemma bfs_ok : exists dist, bfs_distance g src = Ok dist /\ good dist /\ forall u, vertex g u -> 0 <= dv dist u -> closed dist u.
  Proof.
    unfold bfs_distance. pose proof (zlen_nonneg g) as N0.
    destruct (for_each_inv (fun done dist => zlen dist = n /\ forall v, vertex g v -> dv dist v = if in_dec Z.eq_dec v done then 0 else -1) src (fun v dist => vset dist v 0) (vrep n unreachable)) as (dist & E & Zd & Dd).
    - rewrite zlen_vrep by auto. split; auto. intros v Hv. now rewrite dv_vrep.
    - intros done v todo dist El (Zd & Dd). assert (Hv : vertex g v) by (apply Hsrc; rewrite El; apply in_app_iff; right; now left). unfold vertex in Hv.
      rewrite vset_ok by lia. eexists. split; [reflexivity|]. split; [now rewrite zlen_zupd|]. intros w Hw. unfold vertex in Hw. rewrite dv_zupd by lia. rewrite Dd by auto.
      destruct (in_dec Z.eq_dec w (done ++ [v])) as [I|I]; rewrite in_app_iff in I; cbn [In] in I; destruct (Z.eqb_spec v w), (in_dec Z.eq_dec w done); auto; tauto.
    - rewrite E. cbn [bind]. apply (loop_inv P meas).
      + split; [|split; [|split]].
        * split; auto. split; [intros v Hv; rewrite Dd by auto; destruct (in_dec Z.eq_dec v src); lia|]. split.
          -- intros s Hs. rewrite Dd by auto. destruct (in_dec Z.eq_dec s src); tauto.
          -- intros v Hv H0. rewrite Dd in * by auto. destruct (in_dec Z.eq_dec v src); [|lia]. exists v. split; auto. apply reach_end.
        * assert (S0 : forall v, In v src -> dv dist v = 0) by (intros s Hs; rewrite Dd by auto; destruct (in_dec Z.eq_dec s src); tauto). split.
          -- intros v Hv. split; auto. rewrite S0 by auto. lia.
          -- clear - S0. induction src as [|a l IH]; constructor; [apply IH; intros; apply S0; now right|]. apply Forall_forall. intros x Hx. rewrite !S0; [lia|now right|now left].
        * intros u Hu H0. rewrite Dd in H0 by auto. destruct (in_dec Z.eq_dec u src); [now left|lia].
        * intros h v Eh Hv. destruct src as [|h' l] eqn:Es; [discriminate|]. injection Eh as ->. rewrite !Dd by (auto; apply Hsrc; now left).
          destruct (in_dec Z.eq_dec h (h :: l)) as [|N]; [|destruct N; now left]. destruct (in_dec Z.eq_dec v (h :: l)); lia.
      + unfold meas. cbn [fst snd]. pose proof (unseen_le dist). unfold zlen in Zd. lia.
      + exact step_ok.
  Qed.
  Lemma bfs_distance_ok : exists dist, bfs_distance g src = Ok dist /\ zlen dist = n /\
    forall v, vertex g v -> exists d, vget dist v = Ok d /\
      ((d = -1 /\ forall s c, In s src -> ~ reach (hop g) s v c) \/
       ((exists s, In s src /\ reach (hop g) s v d) /\ forall s c, In s src -> reach (hop g) s v c -> d <= c)).
  Proof.
    destruct bfs_ok as (dist & E & (Zd & Lo & Src & Rch) & Cl). exists dist. split; auto. split; auto. intros v Hv. exists (dv dist v). split; [apply vget_dv; unfold vertex in Hv; lia|].
    assert (Opt : forall s c, In s src -> reach (hop g) s v c -> 0 <= dv dist v <= c).
    { intros s c Hs (p & R). destruct (route_potential _ (fun u => vertex g u /\ 0 <= dv dist u) (dv dist) _ _ _ _ R) as ((_ & H0) & L).
      - split; auto. rewrite Src by auto. lia.
      - intros u w d (Hu & H0) (He & ->). pose proof (G _ _ He). pose proof (Cl u Hu H0 w He). split; [split; auto|]; lia.
      - rewrite (Src s Hs) in L. lia. }
    destruct (Z.eq_dec (dv dist v) (-1)) as [E1|N1].
    - left. split; auto. intros s c Hs R. specialize (Opt s c Hs R). lia.
    - right. split; [apply Rch; auto; specialize (Lo v Hv); lia|]. intros s c Hs R. apply (Opt s c); auto.
  Qed.
End Bfs.

(* the graph of an edge list *)
Lemma add_edge_ok g u v : vertex g u -> vertex g v -> exists g', add_edge g u v = Ok g' /\ zlen g' = zlen g /\
  forall x y, edge g' x y <-> edge g x y \/ (x = u /\ y = v) \/ (x = v /\ y = u).
Proof.
  intros Hu Hv. unfold vertex in *. unfold add_edge. destruct (vget_Ok g u Hu) as (a & Ea). rewrite Ea. cbn [bind]. rewrite vset_ok by auto. cbn [bind].
  assert (S1 : forall x y, edge (zupd g u (a ++ [v])) x y <-> edge g x y \/ (x = u /\ y = v)).
  { intros x y. unfold edge. destruct (Z.eq_dec x u) as [->|Ne].
    - rewrite vget_zupd_same by auto. split.
      + intros (adj & [= <-] & I). apply in_app_iff in I as [I|[<-|[]]]; [left; eauto|auto].
      + intros [(adj & E & I)|(_ & ->)]; eexists; (split; [reflexivity|]); apply in_app_iff; [left; congruence|right; now left].
    - rewrite vget_zupd_diff by lia. split; [auto|]. intros [H|(H & _)]; [auto|congruence]. }
  destruct (vget_Ok (zupd g u (a ++ [v])) v) as (b & Eb); [rewrite zlen_zupd; auto|]. rewrite Eb. cbn [bind]. rewrite vset_ok by (rewrite zlen_zupd; auto).
  eexists. split; [reflexivity|]. split; [now rewrite !zlen_zupd|]. intros x y. rewrite <- or_assoc, <- S1. set (g1 := zupd g u (a ++ [v])) in *. unfold edge. destruct (Z.eq_dec x v) as [->|Ne].
  - rewrite vget_zupd_same by (unfold g1; rewrite zlen_zupd; auto). split.
    + intros (adj & [= <-] & I). apply in_app_iff in I as [I|[<-|[]]]; [left; eauto|auto].
    + intros [(adj & E & I)|(_ & ->)]; eexists; (split; [reflexivity|]); apply in_app_iff; [left; congruence|right; now left].
  - rewrite vget_zupd_diff by lia. split; [auto|]. intros [H|(H & _)]; [auto|congruence].
Qed.
Lemma bfs_graph_ok n edges : 0 <= n -> (forall u v, In (u, v) edges -> 0 <= u < n /\ 0 <= v < n) ->
  exists g, bfs_graph n edges = Ok g /\ zlen g = n /\ forall u v, edge g u v <-> In (u, v) edges \/ In (v, u) edges.
Proof.
  intros Hn H. unfold bfs_graph.
  destruct (for_each_inv (fun done g => zlen g = n /\ forall u v, edge g u v <-> In (u, v) done \/ In (v, u) done) edges (fun '(u, v) g => add_edge g u v) (vrep n [])) as (g & E & Hg); [| |eauto].
  - rewrite zlen_vrep by auto. split; auto. intros u v. split; [|intros [[]|[]]]. intros (adj & Ea & I). pose proof (vget_range _ _ _ Ea) as R. rewrite zlen_vrep in R by auto.
    rewrite vget_vrep in Ea by auto. injection Ea as <-. destruct I.
  - intros done (u, v) todo g El (Zg & Eg). destruct (H u v) as (Hu & Hv); [rewrite El; apply in_app_iff; right; now left|].
    destruct (add_edge_ok g u v) as (g' & E & Z' & Ed); [unfold vertex; lia|unfold vertex; lia|]. exists g'. split; auto. split; [lia|]. intros x y. rewrite Ed, Eg, !in_app_iff. cbn [In]. split.
    + intros [[A|A]|[(-> & ->)|(-> & ->)]]; auto.
    + intros [[A|[A|[]]]|[A|[A|[]]]]; auto; injection A as -> ->; auto.
Qed.
