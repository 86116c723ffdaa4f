(* dijkstra *)
From Verif Require Import Base BaseLemmas ListZ ListMore Graph_spec BFS_proof Dijkstra_model.
From Coq Require Import Permutation Sorted.

Lemma loop_rel {S R} (P : nat -> S -> Prop) (Q : R -> Prop) body :
  (forall k s, P k s -> exists x, body s = Ok x /\ match x with inl s' => exists k', (k' < k)%nat /\ P k' s' | inr r => Q r end) ->
  forall fuel k s, P k s -> (k < fuel)%nat -> exists r, loop fuel body s = Ok r /\ Q r.
Proof.
  intros H. induction fuel as [|fuel IH]; intros k s HP L; [lia|]. cbn [loop]. destruct (H k s HP) as (x & E & Hx). rewrite E. cbn [bind]. destruct x as [s'|r]; [|eauto].
  destruct Hx as (k' & L' & HP'). apply (IH k'); auto. lia.
Qed.

Lemma pq_push_perm x l : Permutation (x :: l) (pq_push x l).
Proof. induction l as [|y l IH]; cbn [pq_push]; [auto|]. destruct (pq_le x y); auto. eapply perm_trans; [apply perm_swap|]. now constructor. Qed.
Lemma pq_push_sorted x l : StronglySorted (fun a b => fst a <= fst b) l -> StronglySorted (fun a b : Z * Z => fst a <= fst b) (pq_push x l).
Proof.
  induction 1 as [|y l Hs IH Hf]; cbn [pq_push]; [repeat constructor|]. unfold pq_le. destruct (Z.ltb_spec (fst x) (fst y)); cbn [orb].
  - constructor; [now constructor|]. constructor; [lia|]. rewrite Forall_forall in *. intros z Hz. specialize (Hf z Hz). lia.
  - destruct (_ && _) eqn:E.
    + apply andb_prop in E as (E & _). constructor; [now constructor|]. constructor; [lia|]. rewrite Forall_forall in *. intros z Hz. specialize (Hf z Hz). lia.
    + constructor; auto. eapply Permutation_Forall; [apply pq_push_perm|]. constructor; auto.
Qed.
Lemma in_push y x l : In y (pq_push x l) <-> y = x \/ In y l.
Proof. split; intros H; [eapply Permutation_in in H; [|apply Permutation_sym, pq_push_perm]; destruct H; auto|]. eapply Permutation_in; [apply pq_push_perm|]. destruct H; [left|right]; auto. Qed.
Lemma push_length x l : length (pq_push x l) = S (length l).
Proof. rewrite <- (Permutation_length (pq_push_perm x l)). reflexivity. Qed.
Lemma push_nodup x l : NoDup l -> ~ In x l -> NoDup (pq_push x l).
Proof. intros H N. eapply Permutation_NoDup; [apply pq_push_perm|]. now constructor. Qed.

Section Dijkstra.
  Variables (inf : Z) (g : list (list (Z * Z))) (s : Z).
  Hypothesis G : wgraph_ok g.
  Hypothesis Hs : vertex g s.
  Hypothesis Pos : forall u v c, wedge g u v c -> 0 <= c.
  Hypothesis Fits : forall u v d c, best (wedge g) s u d -> wedge g u v c -> d + c < inf.
  Hypothesis Inf0 : 0 < inf.
  Notation n := (zlen g).
  Notation E := (wedge g).
  Definition wadj (u : Z) : list (Z * Z) := nth (Z.to_nat u) g [].
  Lemma vget_wadj u : vertex g u -> vget g u = Ok (wadj u). Proof. apply vget_nth. Qed.
  Lemma wedge_adj u v c : vertex g u -> (E u v c <-> In (v, c) (wadj u)).
  Proof. intros Hu. unfold wedge. rewrite vget_wadj by auto. split; [intros (a & [= <-] & H); auto|eauto]. Qed.
  Lemma wedge_src u v c : E u v c -> vertex g u. Proof. intros (a & Ea & _). eapply vget_range; eauto. Qed.
  Lemma route_nonneg x t p d : route E x t p d -> 0 <= d.
  Proof. induction 1 as [|x u t p c d He R IH]; [lia|]. pose proof (Pos _ _ _ He). lia. Qed.

  Definition wrow (F : list Z) (u : Z) : list (Z * Z) := if in_dec Z.eq_dec u F then [] else wadj u.
  Definition rest (F : list Z) : nat := length (concat (map (wrow F) (zrange n))).
  Lemma rest_start : rest [] = length (concat g).
  Proof.
    unfold rest. do 2 f_equal. apply list_eq; [rewrite zlen_map, zlen_zrange; auto using zlen_nonneg|]. intros i Hi. rewrite zlen_map, zlen_zrange in Hi by apply zlen_nonneg.
    rewrite vget_map, vget_zrange by auto. cbn [bind]. unfold wrow. cbn [in_dec]. rewrite vget_wadj by auto. reflexivity.
  Qed.
  Lemma rest_drop F u : vertex g u -> ~ In u F -> rest F = (rest (u :: F) + length (wadj u))%nat.
  Proof.
    intros Hu Nu. unfold rest. assert (I : In u (zrange n)) by (apply In_zrange; auto). pose proof (NoDup_zrange n) as ND. revert I ND. generalize (zrange n). intros l. induction l as [|x l IH]; intros I ND; [destruct I|].
    inversion ND; subst. cbn [map concat]. rewrite !app_length. destruct (Z.eq_dec x u) as [->|Ne].
    - assert (Eq : map (wrow F) l = map (wrow (u :: F)) l).
      { apply map_ext_in. intros y Hy. unfold wrow. destruct (in_dec Z.eq_dec y F) as [A|A], (in_dec Z.eq_dec y (u :: F)) as [B|B]; auto; cbn [In] in B; try tauto. assert (u = y) by tauto. congruence. }
      rewrite Eq. unfold wrow at 1 3. destruct (in_dec Z.eq_dec u F); [tauto|]. destruct (in_dec Z.eq_dec u (u :: F)) as [|N]; [cbn [length]; lia|]. destruct N. now left.
    - destruct I as [|I]; [congruence|]. rewrite (IH I) by auto. replace (wrow (u :: F) x) with (wrow F x); [lia|]. unfold wrow.
      destruct (in_dec Z.eq_dec x F) as [A|A], (in_dec Z.eq_dec x (u :: F)) as [B|B]; auto; cbn [In] in B; try tauto. assert (u = x) by tauto. congruence.
  Qed.

  (* F: the vertices already expanded, the latest first *)
  Record inv (F : list Z) (dist par : list Z) (pq : list (Z * Z)) : Prop := {
    i_ld : zlen dist = n;
    i_lp : zlen par = n;
    i_nd : NoDup F;
    i_F : forall u, In u F -> vertex g u /\ dv dist u < inf /\ best E s u (dv dist u);
    i_D : forall v, vertex g v -> dv dist v <= inf /\ (dv dist v < inf -> reach E s v (dv dist v));
    i_seen : forall v, vertex g v -> dv dist v < inf -> In v F \/ In (dv dist v, v) pq;
    i_pq : forall c u, In (c, u) pq -> vertex g u /\ dv dist u <= c < inf /\ (In u F -> dv dist u < c) /\ forall f, In f F -> dv dist f <= c;
    i_pqnd : NoDup pq;
    i_sort : StronglySorted (fun a b => fst a <= fst b) pq;
    i_s : dv dist s = 0;
    i_par : forall v, vertex g v -> dv dist v < inf -> v <> s -> In (dv par v) F /\ E (dv par v) v (dv dist v - dv dist (dv par v));
    i_ord : forall a v b, F = a ++ v :: b -> v <> s -> In (dv par v) b
  }.
  Definition closedF (F : list Z) (dist : list Z) : Prop := forall u v c, In u F -> E u v c -> dv dist v <= dv dist u + c.
  Lemma best_lt F dist par pq u v c : inv F dist par pq -> In u F -> E u v c -> dv dist u + c < inf.
  Proof. intros I Hu He. eapply Fits; [|eauto]. now apply (i_F _ _ _ _ I). Qed.
  (* leaving F along a route *)
  Lemma leave F dist par pq x t p d : inv F dist par pq -> closedF F dist -> route E x t p d -> In x F -> ~ In t F ->
    exists y, vertex g y /\ ~ In y F /\ dv dist y <= dv dist x + d /\ dv dist y < inf.
  Proof.
    intros I C R. induction R as [x|x w t p c d He R IH]; intros Hx Ht; [tauto|]. destruct (in_dec Z.eq_dec w F) as [Hw|Nw].
    - destruct (IH Hw Ht) as (y & A & B & L & Lt). exists y. repeat split; auto; try apply A. pose proof (C _ _ _ Hx He). lia.
    - exists w. pose proof (C _ _ _ Hx He). pose proof (route_nonneg _ _ _ _ R). pose proof (best_lt _ _ _ _ _ _ _ I Hx He). repeat split; auto; try lia; eapply G; eauto.
  Qed.
  Lemma pop_best F dist par u pq : inv F dist par ((dv dist u, u) :: pq) -> closedF F dist -> ~ In u F /\ best E s u (dv dist u).
  Proof.
    intros I C. destruct (i_pq _ _ _ _ I (dv dist u) u (or_introl eq_refl)) as (Hu & (_ & Lt) & Nu & Mx).
    assert (Nf : ~ In u F) by (intros A; specialize (Nu A); lia). split; auto. split; [now apply (i_D _ _ _ _ I)|].
    intros d (p & R). pose proof (i_sort _ _ _ _ I) as S. inversion S as [|? ? S' Fa]; subst. rewrite Forall_forall in Fa.
    assert (Least : forall c w, In (c, w) ((dv dist u, u) :: pq) -> dv dist u <= c) by (intros c w [[= <- <-]|Hw]; [lia|apply (Fa _ Hw)]).
    destruct (in_dec Z.eq_dec s F) as [Is|Ns].
    - destruct (leave F dist par _ s u p d I C R Is Nf) as (y & Hy & Ny & Ly & Lty). destruct (i_seen _ _ _ _ I y Hy Lty) as [|Iy]; [tauto|]. apply Least in Iy. rewrite (i_s _ _ _ _ I) in Ly. lia.
    - destruct (i_seen _ _ _ _ I s Hs) as [|Is]; [rewrite (i_s _ _ _ _ I); lia|tauto|]. apply Least in Is. rewrite (i_s _ _ _ _ I) in Is. pose proof (route_nonneg _ _ _ _ R). lia.
  Qed.
  Lemma inv_drop F dist par du u pq : inv F dist par ((du, u) :: pq) -> du <> dv dist u -> inv F dist par pq.
  Proof.
    intros I N. constructor; try apply I.
    - intros v Hv Lt. destruct (i_seen _ _ _ _ I v Hv Lt) as [|[Eq|]]; auto. injection Eq as A B. subst. congruence.
    - intros c w Hw. apply (i_pq _ _ _ _ I). now right.
    - pose proof (i_pqnd _ _ _ _ I) as H. now inversion H.
    - pose proof (i_sort _ _ _ _ I) as H. now inversion H.
  Qed.
  Lemma inv_expand F dist par u pq : inv F dist par ((dv dist u, u) :: pq) -> closedF F dist -> inv (u :: F) dist par pq /\ forall f, In f (u :: F) -> dv dist f <= dv dist u.
  Proof.
    intros I C. destruct (pop_best _ _ _ _ _ I C) as (Nu & B). destruct (i_pq _ _ _ _ I (dv dist u) u (or_introl eq_refl)) as (Hu & (_ & Lt) & _ & Mx).
    pose proof (i_pqnd _ _ _ _ I) as Nd. inversion Nd as [|? ? Np Nd']; subst. pose proof (i_sort _ _ _ _ I) as So. inversion So as [|? ? So' Fa]; subst. rewrite Forall_forall in Fa.
    split; [|intros f [<-|Hf]; [lia|auto]]. constructor; try apply I; auto.
    - constructor; auto. apply I.
    - intros w [<-|Hw]; [auto|now apply I].
    - intros v Hv L. destruct (i_seen _ _ _ _ I v Hv L) as [|[Eq|]]; [left; now right| |auto]. injection Eq as _ <-. left. now left.
    - intros c w Hw. destruct (i_pq _ _ _ _ I c w (or_intror Hw)) as (A1 & A2 & A3 & A4). split; auto. split; auto. split.
      + intros [<-|Hf]; auto. destruct (Z.eq_dec c (dv dist u)) as [->|]; [tauto|lia].
      + intros f [<-|Hf]; auto. apply (Fa _ Hw).
    - intros v Hv L Ns. destruct (i_par _ _ _ _ I v Hv L Ns) as (A & A2). split; auto. now right.
    - intros a v b Eq Ns. destruct a as [|x a]; cbn [app] in Eq; injection Eq as -> Eq; [subst; now apply (i_par _ _ _ _ I)|]. eapply (i_ord _ _ _ _ I); eauto.
  Qed.
  Definition mid' (F : list Z) (u : Z) (k : nat) (done : list (Z * Z)) (st : list Z * list Z * list (Z * Z)) : Prop :=
    let '(dist, par, pq) := st in
    inv (u :: F) dist par pq /\ (forall f, In f (u :: F) -> dv dist f <= dv dist u) /\ closedF F dist /\
    (forall v c, In (v, c) done -> vertex g v -> dv dist v <= dv dist u + c) /\ (length pq <= k + length done)%nat.
  Lemma relax_ok F u du k done e st : mid' F u k done st -> dv (fst (fst st)) u = du -> E u (fst e) (snd e) ->
    exists st', dj_relax inf u du e st = Ok st' /\ mid' F u k (done ++ [e]) st' /\ dv (fst (fst st')) u = du.
  Proof.
    destruct st as [[dist par] pq], e as [v c]. cbn [fst snd]. intros (I & Mx & C & Dn & Lk) Du He. unfold dj_relax.
    pose proof (G _ _ _ He) as Hv. pose proof (Pos _ _ _ He) as Hc. pose proof (best_lt _ _ _ _ _ _ _ I (or_introl eq_refl) He) as Lt. pose proof (i_ld _ _ _ _ I) as Ld. pose proof (i_lp _ _ _ _ I) as Lp.
    assert (Vf : forall f, In f (u :: F) -> vertex g f) by (intros f Hf; now apply (i_F _ _ _ _ I)). pose proof (Vf u (or_introl eq_refl)) as Hu.
    unfold cost_add. rewrite Du in *. rewrite (proj2 (Z.leb_le _ _)) by lia. cbn [bind]. rewrite vget_dv by (unfold vertex in *; lia). cbn [bind]. destruct (Z.ltb_spec (du + c) (dv dist v)) as [L|L].
    - rewrite !vset_ok by (unfold vertex in *; lia). cbn [bind]. eexists. split; [reflexivity|].
      assert (Dz : forall w, vertex g w -> dv (zupd dist v (du + c)) w = if v =? w then du + c else dv dist w) by (intros w Hw; unfold vertex in *; rewrite dv_zupd by lia; auto).
      assert (Pz : forall w, vertex g w -> dv (zupd par v u) w = if v =? w then u else dv par w) by (intros w Hw; unfold vertex in *; rewrite dv_zupd by lia; auto).
      assert (Nf : ~ In v (u :: F)) by (intros A; specialize (Mx v A); lia).
      assert (Df : forall f, In f (u :: F) -> dv (zupd dist v (du + c)) f = dv dist f) by (intros f Hf; rewrite Dz by auto; destruct (Z.eqb_spec v f); [congruence|auto]).
      assert (Pf : forall f, In f (u :: F) -> dv (zupd par v u) f = dv par f) by (intros f Hf; rewrite Pz by auto; destruct (Z.eqb_spec v f); [congruence|auto]).
      assert (Le : forall w, vertex g w -> dv (zupd dist v (du + c)) w <= dv dist w) by (intros w Hw; rewrite Dz by auto; destruct (Z.eqb_spec v w) as [->|]; lia).
      pose proof (Df u (or_introl eq_refl)) as Du'. unfold fst at 1. split; [|cbn [fst]; congruence]. split; [|split; [|split; [|split]]].
      + constructor.
        * now rewrite zlen_zupd.
        * now rewrite zlen_zupd.
        * apply I.
        * intros f Hf. rewrite Df by auto. now apply (i_F _ _ _ _ I).
        * intros w Hw. rewrite Dz by auto. destruct (Z.eqb_spec v w) as [<-|]; [|now apply (i_D _ _ _ _ I)]. split; [lia|]. intros _. eapply reach_snoc; [|exact He]. rewrite <- Du. now apply (i_F _ _ _ _ I), or_introl.
        * intros w Hw Lw. rewrite Dz in * by auto. rewrite in_push. destruct (Z.eqb_spec v w) as [<-|]; [auto|]. destruct (i_seen _ _ _ _ I w Hw Lw); auto.
        * intros c' w Hw. rewrite in_push in Hw. destruct Hw as [[= -> ->]|Hw].
          -- split; auto. rewrite Dz, Z.eqb_refl by auto. split; [lia|]. split; [tauto|]. intros f Hf. rewrite Df by auto. specialize (Mx f Hf). lia.
          -- destruct (i_pq _ _ _ _ I c' w Hw) as (A1 & A2 & A3 & A4). split; auto. split; [pose proof (Le w A1); lia|]. split; [intros Hf; rewrite Df by auto; auto|]. intros f Hf. rewrite Df by auto. auto.
        * apply push_nodup; [apply I|]. intros A. destruct (i_pq _ _ _ _ I _ _ A) as (_ & A2 & _). lia.
        * apply pq_push_sorted, I.
        * rewrite Dz by auto. destruct (Z.eqb_spec v s) as [->|]; [|apply I]. rewrite (i_s _ _ _ _ I) in L.
          assert (0 <= du). { destruct (i_F _ _ _ _ I u (or_introl eq_refl)) as (_ & _ & ((p & R) & _)). apply route_nonneg in R. lia. } lia.
        * intros w Hw Lw Ns. rewrite Dz, Pz by auto. rewrite Dz in Lw by auto. destruct (Z.eqb_spec v w) as [<-|].
          -- split; [now left|]. rewrite Du', Du. replace (du + c - du) with c by lia. auto.
          -- destruct (i_par _ _ _ _ I w Hw Lw Ns) as (A & A2). split; auto. now rewrite Df.
        * intros a w b Eq Ns. rewrite Pf by (rewrite Eq; apply in_app_iff; right; now left). eapply (i_ord _ _ _ _ I); eauto.
      + intros f Hf. rewrite Du', Df by auto. rewrite Du. auto.
      + intros f w c' Hf He'. rewrite (Df f) by (now right). pose proof (Le w (G _ _ _ He')). pose proof (C f w c' Hf He'). lia.
      + intros w c' Hw Vw. rewrite Du', Du. apply in_app_iff in Hw as [Hw|[[= <- <-]|[]]].
        * pose proof (Le w Vw). specialize (Dn w c' Hw Vw). lia.
        * rewrite Dz, Z.eqb_refl by auto. lia.
      + rewrite push_length, app_length. cbn [length]. lia.
    - eexists. split; [reflexivity|]. split; auto. split; auto. rewrite Du. split; auto. split; auto. split; [|rewrite app_length; lia].
      intros w c' Hw Vw. apply in_app_iff in Hw as [Hw|[[= <- <-]|[]]]; auto.
  Qed.
  Definition P' (k : nat) (st : list Z * list Z * list (Z * Z)) : Prop :=
    let '(dist, par, pq) := st in exists F, inv F dist par pq /\ closedF F dist /\ k = (length pq + rest F)%nat.
  Definition Q' (r : list Z * list Z) : Prop := exists F, inv F (fst r) (snd r) [] /\ closedF F (fst r).
  Lemma dj_step k st : P' k st -> exists x, dj_loop inf g st = Ok x /\ match x with inl st' => exists k', (k' < k)%nat /\ P' k' st' | inr r => Q' r end.
  Proof.
    destruct st as [[dist par] pq]. intros (F & I & C & ->). unfold dj_loop. destruct pq as [|[du u] pq]; [eexists; split; [reflexivity|]; exists F; auto|].
    destruct (i_pq _ _ _ _ I du u (or_introl eq_refl)) as (Hu & _). pose proof (i_ld _ _ _ _ I) as Ld. rewrite vget_dv by (unfold vertex in *; lia). cbn [bind]. destruct (Z.eqb_spec du (dv dist u)) as [->|Ne].
    - rewrite vget_wadj by auto. cbn [bind]. destruct (inv_expand _ _ _ _ _ I C) as (I' & Mx). destruct (pop_best _ _ _ _ _ I C) as (Nu & _).
      destruct (for_each_inv (fun done st => mid' F u (length pq) done st /\ dv (fst (fst st)) u = dv dist u) (wadj u) (dj_relax inf u (dv dist u)) (dist, par, pq)) as (st' & Es & M & Du).
      + split; [|reflexivity]. split; auto. split; auto. split; auto. split; [intros v c []|lia].
      + intros done e todo st El (M & Du). destruct (relax_ok F u (dv dist u) (length pq) done e st M Du) as (st' & Es & M' & Du'); [destruct e as [v c]; cbn [fst snd]; apply wedge_adj; auto; rewrite El; apply in_app_iff; right; now left|]. eauto.
      + rewrite Es. cbn [bind]. eexists. split; [reflexivity|]. destruct st' as [[dist' par'] pq']. destruct M as (I2 & Mx2 & C2 & Dn & Lk).
        exists (length pq' + rest (u :: F))%nat. split; [rewrite (rest_drop F u Hu Nu); cbn [length]; lia|]. exists (u :: F). split; auto. split; auto.
        intros f v c [<-|Hf] He; [apply Dn; [now apply wedge_adj|eapply G; eauto]|eapply C2; eauto].
    - eexists. split; [reflexivity|]. exists (length pq + rest F)%nat. split; [cbn [length]; lia|]. exists F. split; auto. eapply inv_drop; eauto.
  Qed.
  Lemma run_ok : exists dist par F, dijkstra_run inf g s = Ok (DJ s dist par) /\ inv F dist par [] /\ closedF F dist.
  Proof.
    unfold dijkstra_run. unfold vertex in Hs. pose proof (zlen_vrep n inf) as Zv. rewrite vset_ok by lia. cbn [bind].
    destruct (loop_rel P' Q' (dj_loop inf g) dj_step (length (concat g) + 2) (length (concat g) + 1) (zupd (vrep n inf) s 0, vrep n 0, pq_push (0, s) [])) as ((dist & par) & Er & F & I & C).
    - exists []. split; [|split; [intros u v c []|rewrite rest_start; cbn [pq_push length]; lia]].
      assert (Dz : forall v, vertex g v -> dv (zupd (vrep n inf) s 0) v = if s =? v then 0 else inf).
      { intros v Hv. unfold vertex in Hv. rewrite dv_zupd by lia. destruct (s =? v); auto. now apply dv_vrep. }
      assert (Lt : forall v, vertex g v -> dv (zupd (vrep n inf) s 0) v < inf -> v = s) by (intros v Hv; rewrite Dz by auto; destruct (Z.eqb_spec s v); [auto|lia]).
      assert (D0 : dv (zupd (vrep n inf) s 0) s = 0) by (rewrite Dz, Z.eqb_refl; auto).
      constructor.
      + rewrite zlen_zupd. lia.
      + rewrite zlen_vrep; lia.
      + constructor.
      + intros u [].
      + intros v Hv. split; [rewrite Dz by auto; destruct (s =? v); lia|]. intros L. apply Lt in L; auto. subst. rewrite D0. apply reach_end.
      + intros v Hv L. apply Lt in L; auto. subst. right. rewrite D0. now left.
      + intros c u [[= <- <-]|[]]. split; auto. split; [lia|]. split; [intros []|intros f []].
      + cbn [pq_push]. constructor; [intros []|constructor].
      + cbn [pq_push]. repeat constructor.
      + auto.
      + intros v Hv L Ns. apply Lt in L; auto. congruence.
      + intros a v b Eq. destruct a; discriminate.
    - lia.
    - rewrite Er. cbn [bind]. exists dist, par, F. auto.
  Qed.
  Lemma path_ok dist par F t : inv F dist par [] -> In t F -> exists p, dj_path_to inf (DJ s dist par) t = Ok p /\ route E s t p (dv dist t).
  Proof.
    intros I Ht. destruct (i_F _ _ _ _ I t Ht) as (Hv & B). pose proof (i_ld _ _ _ _ I) as Ld. pose proof (i_lp _ _ _ _ I) as Lp. unfold dj_path_to, dj_is_reachable. cbn [dj_dist].
    destruct B as (Lt & B). destruct (in_split _ _ Ht) as (a0 & b0 & E0). rewrite vget_dv by (unfold vertex in *; lia). cbn [bind]. rewrite (proj2 (Z.eqb_neq _ _)) by lia. cbn [negb assert_ bind].
    destruct (loop_rel (fun k st => exists a b, F = a ++ fst st :: b /\ k = length b /\ route E (fst st) t (rev (snd st)) (dv dist t - dv dist (fst st))) (fun path => route E s t (rev path) (dv dist t)) (dj_path_loop (DJ s dist par))) with (fuel := (length dist + 1)%nat) (k := length b0) (s := (t, [t])) as (p & Ep & R).
    - intros k (v, path) (a & b & Ef & -> & R). cbn [fst snd] in *. unfold dj_path_loop. cbn [dj_src dj_par]. destruct (Z.eqb_spec v s) as [->|Ns].
      + eexists. split; [reflexivity|]. cbv beta iota. rewrite (i_s _ _ _ _ I), Z.sub_0_r in R. auto.
      + assert (Iv : In v F) by (rewrite Ef; apply in_app_iff; right; now left). destruct (i_F _ _ _ _ I v Iv) as (Vv & Lv & _). rewrite vget_dv by (unfold vertex in *; lia). cbn [bind]. eexists. split; [reflexivity|].
        pose proof (i_ord _ _ _ _ I a v b Ef Ns) as Ip. apply in_split in Ip as (b1 & b2 & ->). exists (length b2). split; [rewrite app_length; cbn [length]; lia|].
        exists (a ++ v :: b1), b2. cbn [fst snd]. split; [rewrite <- app_assoc; exact Ef|]. split; auto. rewrite rev_app_distr. cbn [rev app].
        replace (dv dist t - dv dist (dv par v)) with ((dv dist v - dv dist (dv par v)) + (dv dist t - dv dist v)) by lia. econstructor; [apply (i_par _ _ _ _ I v Vv Lv Ns)|auto].
    - exists a0, b0. cbn [fst snd]. split; auto. split; auto. rewrite Z.sub_diag. constructor.
    - pose proof (NoDup_range_length F n (i_nd _ _ _ _ I) (fun f Hf => proj1 (i_F _ _ _ _ I f Hf))) as Lf. rewrite E0 in Lf. unfold zlen in *. rewrite app_length in Lf. cbn [length] in Lf. lia.
    - rewrite Ep. cbn [bind]. eauto.
  Qed.
  Lemma dijkstra_ok : exists D, dijkstra_run inf g s = Ok D /\ forall t, vertex g t ->
    (dj_at D t = Ok inf /\ dj_is_reachable inf D t = Ok false /\ dj_is_unreachable inf D t = Ok true /\ dj_path_to inf D t = Abort /\ forall c, ~ reach E s t c) \/
    (exists d p, dj_at D t = Ok d /\ d < inf /\ dj_is_reachable inf D t = Ok true /\ dj_is_unreachable inf D t = Ok false /\ best E s t d /\ dj_path_to inf D t = Ok p /\ route E s t p d).
  Proof.
    destruct run_ok as (dist & par & F & Er & I & C). exists (DJ s dist par). split; auto. intros t Ht. pose proof (i_ld _ _ _ _ I) as Ld.
    assert (Et : vget dist t = Ok (dv dist t)) by (apply vget_dv; unfold vertex in *; lia). unfold dj_at, dj_is_reachable, dj_is_unreachable. cbn [dj_dist]. rewrite Et. cbn [bind].
    assert (Is : In s F) by (destruct (i_seen _ _ _ _ I s Hs) as [|[]]; auto; rewrite (i_s _ _ _ _ I); lia).
    destruct (in_dec Z.eq_dec t F) as [It|Nt].
    - right. destruct (i_F _ _ _ _ I t It) as (_ & Lt & B). destruct (path_ok _ _ _ _ I It) as (p & Ep & R). exists (dv dist t), p. rewrite (proj2 (Z.eqb_neq _ _)) by lia. auto 10.
    - left. assert (Ei : dv dist t = inf). { pose proof (i_D _ _ _ _ I t Ht) as (Ub & _). destruct (Z_lt_le_dec (dv dist t) inf) as [L|]; [|lia]. destruct (i_seen _ _ _ _ I t Ht L) as [|[]]. tauto. }
      unfold dj_path_to, dj_is_reachable. cbn [dj_dist]. rewrite Et. cbn [bind]. rewrite Ei, Z.eqb_refl. split; auto. split; auto. split; auto. split; auto. intros c (p & R). destruct (leave _ _ _ _ _ _ _ _ I C R Is Nt) as (y & Hy & Ny & _ & Ly). destruct (i_seen _ _ _ _ I y Hy Ly) as [|[]]. tauto.
  Qed.
End Dijkstra.
