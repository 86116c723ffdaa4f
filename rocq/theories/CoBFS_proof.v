From Verif Require Import Base BaseLemmas ListZ ListMore Graph_spec BFS_model BFS_proof BFS_proof2 CoBFS_spec CoBFS_model.
From Coq Require Import Permutation Sorted.
Import ListNotations.
Open Scope Z_scope.

Lemma mark_ok n row b adj : zlen adj = n -> (forall v, In v row -> 0 <= v < n) ->
  exists adj', mark row b adj = Ok adj' /\ zlen adj' = n /\ forall v, 0 <= v < n -> vb adj' v = if in_dec Z.eq_dec v row then b else vb adj v.
Proof.
  intros Za R. unfold mark.
  destruct (for_each_inv (fun done a => zlen a = n /\ forall v, 0 <= v < n -> vb a v = if in_dec Z.eq_dec v done then b else vb adj v) row (fun v a => vset a v b) adj) as (a & E & A1 & A2).
  - split; auto. 
  - intros done v todo a El (A1 & A2). assert (Hv : 0 <= v < n) by (apply R; rewrite El; apply in_or_app; right; left; auto).
    rewrite vset_ok by lia. eexists; split; [reflexivity|]. split; [rewrite zlen_zupd; auto|]. intros w Hw. rewrite vb_zupd by lia. rewrite A2 by auto.
    destruct (in_dec Z.eq_dec w (done ++ [v])) as [K|K]; rewrite in_app_iff in K; cbn [In] in K; destruct (Z.eqb_spec v w), (in_dec Z.eq_dec w done); auto; tauto.
  - exists a. auto.
Qed.
Definition blank (n : Z) (adj : list bool) : Prop := zlen adj = n /\ forall v, 0 <= v < n -> vb adj v = false.
Lemma blank_vrep n : 0 <= n -> blank n (vrep n false).
Proof.
  intros H. split; [apply zlen_vrep; auto|]. intros v Hv. assert (E : vget (vrep n false) v = Ok (vb (vrep n false) v)) by (apply vget_vb; rewrite zlen_vrep; auto).
  rewrite vget_vrep in E by auto. congruence.
Qed.
Lemma marks_ok n row adj : blank n adj -> (forall v, In v row -> 0 <= v < n) ->
  exists adj1, mark row true adj = Ok adj1 /\ (forall v, 0 <= v < n -> (is_adj adj1 v = true <-> In v row)) /\
  exists adj2, mark row false adj1 = Ok adj2 /\ blank n adj2.
Proof.
  intros (Z0 & B0) R. destruct (mark_ok n row true adj Z0 R) as (adj1 & E1 & Z1 & A1). exists adj1. split; auto. split.
  - intros v Hv. unfold is_adj. rewrite vget_vb by lia. rewrite A1 by auto. rewrite B0 by auto. destruct (in_dec Z.eq_dec v row); intuition discriminate.
  - destruct (mark_ok n row false adj1 Z1 R) as (adj2 & E2 & Z2 & A2). exists adj2. split; auto. split; auto. intros v Hv. rewrite A2 by auto.
    destruct (in_dec Z.eq_dec v row) as [I|I]; auto. rewrite A1 by auto. destruct (in_dec Z.eq_dec v row); [contradiction|]. auto.
Qed.

Section Co.
  Variable part : (Z -> bool) -> list Z -> list Z * list Z.
  Hypothesis Pt : partitions part.
  Variable g : list (list Z).
  Hypothesis G : graph_ok g.
  Notation n := (zlen g).

  (* the partition sends the non-neighbours of u to the second part *)
  Lemma part_ok adj1 row u s a b : vget g u = Ok row -> (forall v, 0 <= v < n -> (is_adj adj1 v = true <-> In v row)) ->
    NoDup s -> (forall v, In v s -> vertex g v) -> part (is_adj adj1) s = (a, b) ->
    NoDup a /\ NoDup b /\ (forall v, In v s <-> In v a \/ In v b) /\ (forall v, In v a -> edge g u v) /\ (forall v, In v b -> ~ edge g u v) /\
    (forall v, In v a -> ~ In v b) /\ (length a + length b = length s)%nat.
  Proof.
    intros Er Ha ND Vs Ep. destruct (Pt (is_adj adj1) s) as (Pm & Pa & Pb). rewrite Ep in *. cbn [fst snd] in *.
    pose proof (Permutation_NoDup (Permutation_sym Pm) ND) as ND2.
    assert (Is : forall v, In v s <-> In v a \/ In v b).
    { intros v. rewrite <- in_app_iff. split; apply Permutation_in; [apply Permutation_sym|]; auto. }
    split; [clear - ND2; induction a as [|x a IH]; [constructor|inversion ND2; subst; constructor; auto; intros F; apply H1; apply in_or_app; auto]|]. split; [clear - ND2; induction a as [|x a IH]; [auto|inversion ND2; subst; auto]|]. split; [auto|].
    split. { intros v Hv. exists row. split; auto. apply Ha; [apply Vs, Is; auto|apply Pa; auto]. }
    split. { intros v Hv (row' & E' & I'). assert (row' = row) by congruence. subst. apply Ha in I'; [|apply Vs, Is; auto]. rewrite (Pb v Hv) in I'. discriminate. }
    split. { intros v Hv Hv'. specialize (Pa v Hv). rewrite (Pb v Hv') in Pa. discriminate. }
    apply Permutation_length in Pm. rewrite app_length in Pm. exact Pm.
  Qed.

  Section Dist.
    Variable src : list Z.
    Hypothesis Hsrc : forall s, In s src -> vertex g s.
    Definition cgood (dist : list Z) : Prop :=
      zlen dist = n /\ (forall v, vertex g v -> -1 <= dv dist v) /\ (forall s, In s src -> dv dist s = 0) /\
      (forall v, vertex g v -> 0 <= dv dist v -> exists s, In s src /\ reach (co_hop g) s v (dv dist v)).
    Definition cclosed (dist : list Z) (u : Z) : Prop := forall v, co_edge g u v -> 0 <= dv dist v <= dv dist u + 1.
    Definition CP (st : list Z * list Z * list Z * list bool) : Prop :=
      let '(dist, dq, s, adj) := st in
      cgood dist /\ blank n adj /\ NoDup s /\ (forall v, In v s <-> vertex g v /\ dv dist v = -1) /\
      (forall v, In v dq -> vertex g v /\ 0 <= dv dist v) /\ StronglySorted (fun x y => dv dist x <= dv dist y) dq /\
      (forall u, vertex g u -> 0 <= dv dist u -> In u dq \/ cclosed dist u) /\
      (forall h v, hd_error dq = Some h -> vertex g v -> dv dist v <= dv dist h + 1).
    Definition cmeas (st : list Z * list Z * list Z * list bool) : nat := let '(dist, dq, s, adj) := st in (length dq + length s)%nat.
    Lemma push_ok u out dist dq : vertex g u -> zlen dist = n -> (forall v, In v out -> vertex g v) -> ~ In u out ->
      exists dist', for_each out (fun v st => let '(dist, dq) := st in let* du := vget dist u in let* dist := vset dist v (du + 1) in Ok (dist, dq ++ [v])) (dist, dq) = Ok (dist', dq ++ out) /\
        zlen dist' = n /\ forall w, vertex g w -> dv dist' w = if in_dec Z.eq_dec w out then dv dist u + 1 else dv dist w.
    Proof.
      intros Hu Zd Vo Nu.
      match goal with |- context [for_each out ?b ?s] =>
        destruct (for_each_inv (fun done (st : list Z * list Z) => let '(d', q') := st in q' = dq ++ done /\ zlen d' = n /\
          forall w, vertex g w -> dv d' w = if in_dec Z.eq_dec w done then dv dist u + 1 else dv dist w) out b s) as ([d' q'] & E & Eq & Z' & A) end.
      - rewrite app_nil_r. split; auto. 
      - intros done v todo [d' q'] El (Eq & Z' & A).
        assert (Hv : vertex g v) by (apply Vo; rewrite El; apply in_or_app; right; left; auto). unfold vertex in *.
        assert (Nd : ~ In u done) by (intros I; apply Nu; rewrite El; apply in_or_app; auto).
        rewrite vget_dv by lia. cbn [bind]. rewrite vset_ok by lia. cbn [bind]. eexists; split; [reflexivity|]. split; [rewrite Eq, app_assoc; auto|]. split; [rewrite zlen_zupd; auto|].
        rewrite (A u Hu). destruct (in_dec Z.eq_dec u done); [contradiction|].
        intros w Hw. rewrite dv_zupd by lia. rewrite A by auto.
        destruct (in_dec Z.eq_dec w (done ++ [v])) as [K|K]; rewrite in_app_iff in K; cbn [In] in K; destruct (Z.eqb_spec v w), (in_dec Z.eq_dec w done); auto; tauto.
      - exists d'. rewrite E, Eq. auto.
    Qed.
    Lemma co_step st : CP st -> exists x, co_loop part g st = Ok x /\
      match x with inl st' => CP st' /\ (cmeas st' < cmeas st)%nat | inr dist => cgood dist /\ forall u, vertex g u -> 0 <= dv dist u -> cclosed dist u end.
    Proof.
      destruct st as [[[dist dq] s] adj]. intros (Gd & Bl & ND & Is & Qv & Qs & Cl & Hd). unfold co_loop. destruct dq as [|u dq].
      { eexists; split; [reflexivity|]. split; auto. intros u Hu H0. destruct (Cl u Hu H0) as [[]|A]; auto. }
      destruct (Qv u (or_introl eq_refl)) as (Hu & H0). destruct (vget_Ok g u Hu) as (row & Er). rewrite Er. cbn [bind].
      assert (Rr : forall v, In v row -> 0 <= v < n) by (intros v Hv; apply (G u v); exists row; auto).
      destruct (marks_ok n row adj Bl Rr) as (adj1 & E1 & A1 & adj2 & E2 & Bl2). rewrite E1. cbn [bind].
      destruct (part (is_adj adj1) s) as [a b] eqn:Ep.
      destruct (part_ok adj1 row u s a b Er A1 ND (fun v Hv => proj1 (proj1 (Is v) Hv)) Ep) as (NDa & NDb & Sp & Pa & Pb & Dj & Len).
      assert (Vb : forall v, In v b -> vertex g v /\ dv dist v = -1) by (intros v Hv; apply Is, Sp; auto).
      assert (Vb' : forall v, In v (rev b) <-> In v b) by (intros v; rewrite <- in_rev; tauto).
      destruct Gd as (Zd & Lo & Src & Rch).
      assert (Nub : ~ In u b) by (intros I; destruct (Vb u I); lia).
      destruct (push_ok u (rev b) dist dq Hu Zd) as (dist' & E3 & Zd' & D').
      { intros v Hv. apply Vb', Vb in Hv. tauto. } { rewrite Vb'. exact Nub. }
      cbv zeta in E3 |- *. rewrite E3. cbn [bind]. rewrite E2. cbn [bind]. eexists; split; [reflexivity|].
      assert (Db : forall w, In w b -> dv dist' w = dv dist u + 1).
      { intros w Hw. rewrite D' by (apply Vb; auto). destruct (in_dec Z.eq_dec w (rev b)) as [|N]; auto. destruct N. apply Vb'; auto. }
      assert (Dn : forall w, vertex g w -> 0 <= dv dist w -> dv dist' w = dv dist w).
      { intros w Hw Hw0. rewrite D' by auto. destruct (in_dec Z.eq_dec w (rev b)) as [I|I]; auto. apply Vb', Vb in I. lia. }
      assert (Du : dv dist' u = dv dist u) by (apply Dn; auto).
      assert (Dc : forall w, vertex g w -> (In w b /\ dv dist' w = dv dist u + 1 /\ dv dist w = -1) \/ (~ In w b /\ dv dist' w = dv dist w)).
      { intros w Hw. rewrite D' by auto. destruct (in_dec Z.eq_dec w (rev b)) as [I|I]; rewrite Vb' in I; [left; split; auto; split; auto; apply Vb; auto|right; auto]. }
      inversion Qs as [|? ? Qs' Qf]; subst. rewrite Forall_forall in Qf.
      split; [|unfold cmeas; cbn [length]; rewrite app_length, rev_length; lia].
      split; [split; [auto|split; [|split]]|].
      - intros w Hw. destruct (Dc w Hw) as [(_ & -> & _)|(_ & ->)]; [lia|auto].
      - intros w Hw. rewrite Dn; auto. rewrite Src; auto; lia.
      - intros w Hw Hw0. destruct (Dc w Hw) as [(I & E & _)|(_ & E)]; rewrite E in *; auto.
        destruct (Rch u Hu H0) as (x & Hx & R). exists x. split; auto. eapply reach_snoc; [exact R|]. split; auto. split; auto. split; auto. split; [|apply Pb; auto]. intros ->. contradiction.
      - split; [exact Bl2|]. split; [exact NDa|]. split; [|split; [|split; [|split]]].
        + intros v. split.
          * intros Hv. assert (In v s) by (apply Sp; auto). apply Is in H. destruct H as [Hv1 Hv2]. split; auto. destruct (Dc v Hv1) as [(I & _)|(_ & E)]; [destruct (Dj v Hv I)|congruence].
          * intros (Hv & Ev). destruct (Dc v Hv) as [(_ & E & _)|(N & E)]; [lia|]. assert (In v s) by (apply Is; split; auto; congruence). apply Sp in H. tauto.
        + intros v Hv. apply in_app_or in Hv. destruct Hv as [Hv|Hv].
          * destruct (Qv v (or_intror Hv)). split; auto. rewrite Dn; auto.
          * apply Vb' in Hv. split; [apply Vb; auto|]. rewrite Db; auto. lia.
        + assert (Srt : forall l, StronglySorted (fun x y => dv dist' x <= dv dist' y) dq -> (forall v, In v l -> In v b) -> StronglySorted (fun x y => dv dist' x <= dv dist' y) (dq ++ l)).
          { intros l S1 Hl. clear Vb'. induction l as [|x l IH] using rev_ind; [rewrite app_nil_r; auto|]. rewrite app_assoc. apply BFS_proof.sorted_snoc.
            - apply IH. intros v Hv. apply Hl. apply in_or_app; auto.
            - intros y Hy. rewrite (Db x) by (apply Hl; apply in_or_app; right; left; auto). apply in_app_or in Hy. destruct Hy as [Hy|Hy].
              + destruct (Qv y (or_intror Hy)) as [Vy Y0]. rewrite Dn by auto. apply (Hd u y); auto.
              + rewrite Db by (apply Hl; apply in_or_app; auto). lia. }
          apply Srt; [|intros v Hv; apply Vb'; auto].
          eapply BFS_proof.sorted_ext; [|exact Qs']. intros x y Hx Hy L. destruct (Qv x (or_intror Hx)), (Qv y (or_intror Hy)). rewrite !Dn; auto.
        + intros w Hw Hw0. destruct (Dc w Hw) as [(I & E & _)|(N & E)]; [left; apply in_or_app; right; apply Vb'; auto|]. rewrite E in Hw0.
          destruct (Z.eq_dec w u) as [->|Ne].
          * right. intros v (_ & Hv & _ & Nv). rewrite Du. destruct (Dc v Hv) as [(_ & -> & _)|(Nb & ->)]; [lia|].
            specialize (Hd u v eq_refl Hv). split; [|lia]. specialize (Lo v Hv). destruct (Z.eq_dec (dv dist v) (-1)) as [F|F]; [|lia].
            exfalso. assert (In v s) by (apply Is; auto). apply Sp in H. destruct H as [H|H]; [apply Pa in H; contradiction|contradiction].
          * destruct (Cl w Hw Hw0) as [[K|K]|K]; [congruence|left; apply in_or_app; auto|right]. intros v Hv. specialize (K v Hv). rewrite E. rewrite Dn; auto; [apply Hv|lia].
        + intros h v Eh Hv. assert (Hh : dv dist u <= dv dist' h).
          { destruct dq as [|h' dq']; cbn [app hd_error] in Eh.
            - destruct (rev b) as [|h' b'] eqn:Eb; [discriminate|]. cbn [hd_error] in Eh. injection Eh as ->. rewrite Db; [lia|]. apply Vb'. left; auto.
            - injection Eh as ->. destruct (Qv h (or_intror (or_introl eq_refl))). rewrite Dn by auto. apply Qf. left; auto. }
          destruct (Dc v Hv) as [(_ & -> & _)|(_ & ->)]; [lia|]. specialize (Hd u v eq_refl Hv). lia.
    Qed.
    Lemma nonsrc_ok isrc : zlen isrc = n -> (forall v, vertex g v -> (vb isrc v = true <-> In v src)) ->
      exists s, for_ 0 n (fun i s => let* b := vget isrc i in Ok (if b then s else s ++ [i])) [] = Ok s /\ NoDup s /\ forall v, In v s <-> vertex g v /\ ~ In v src.
    Proof.
      intros Z1 A. pose proof (zlen_nonneg g) as N0.
      destruct (for_inv (fun i s => NoDup s /\ forall v, In v s <-> 0 <= v < i /\ ~ In v src) 0 n (fun i s => let* b := vget isrc i in Ok (if b then s else s ++ [i])) []) as (s & E & ND & I).
      - auto.
      - split; [constructor|]. intros v. split; [intros []|lia].
      - intros i s Hi (ND & I). rewrite vget_vb by lia. cbn [bind]. eexists; split; [reflexivity|]. pose proof (A i Hi) as Ai. destruct (vb isrc i).
        + split; auto. intros v. rewrite I. split; [intros []; split; auto; lia|]. intros [B C]. split; auto. destruct (Z.eq_dec v i) as [->|]; [|lia]. destruct C. apply Ai; auto.
        + split.
          * apply NoDup_app_snoc; auto. intros F. apply I in F. lia.
          * intros v. rewrite in_app_iff. cbn [In]. rewrite I. split.
            -- intros [[B C]|[<-|[]]]; [split; auto; lia|]. split; [lia|]. intros F. apply Ai in F. discriminate.
            -- intros [B C]. destruct (Z.eq_dec i v) as [->|]; auto. left. split; auto. lia.
      - exists s. split; auto.
    Qed.
    Lemma co_distance_ok : exists dist, co_distance part g src = Ok dist /\ zlen dist = n /\
      forall v, vertex g v -> exists d, vget dist v = Ok d /\
        ((d = -1 /\ forall s c, In s src -> ~ reach (co_hop g) s v c) \/
         ((exists s, In s src /\ reach (co_hop g) s v d) /\ forall s c, In s src -> reach (co_hop g) s v c -> d <= c)).
    Proof.
      unfold co_distance. cbn zeta. pose proof (zlen_nonneg g) as N0.
      destruct (mark_ok n src true (vrep n false)) as (isrc & E1 & Z1 & A1); [apply zlen_vrep; auto|exact Hsrc|]. unfold mark in E1. rewrite E1. cbn [bind].
      destruct (nonsrc_ok isrc Z1) as (s & E2 & NDs & Is).
      { intros v Hv. rewrite A1 by auto. pose proof (proj2 (blank_vrep n N0) v Hv) as B. destruct (in_dec Z.eq_dec v src); [tauto|]. rewrite B. split; [discriminate|tauto]. }
      rewrite E2. cbn [bind].
      destruct (for_each_inv (fun done dist => zlen dist = n /\ forall v, vertex g v -> dv dist v = if in_dec Z.eq_dec v done then 0 else -1) src (fun v dist => vset dist v 0) (vrep n (-1))) as (dist0 & E3 & Zd & Dd).
      { rewrite zlen_vrep by auto. split; auto. intros v Hv. now rewrite dv_vrep. }
      { intros done v todo dist El (Zd & Dd). assert (Hv : vertex g v) by (apply Hsrc; rewrite El; apply in_app_iff; right; now left). unfold vertex in Hv.
        rewrite vset_ok by lia. eexists. split; [reflexivity|]. split; [now rewrite zlen_zupd|]. intros w Hw. unfold vertex in Hw. rewrite dv_zupd by lia. rewrite Dd by auto.
        destruct (in_dec Z.eq_dec w (done ++ [v])) as [K|K]; rewrite in_app_iff in K; cbn [In] in K; destruct (Z.eqb_spec v w), (in_dec Z.eq_dec w done); auto; tauto. }
      rewrite E3. cbn [bind].
      assert (S0 : forall v, In v src -> dv dist0 v = 0) by (intros w Hs; rewrite Dd by auto; destruct (in_dec Z.eq_dec w src); tauto).
      destruct (loop_inv CP cmeas (fun dist => cgood dist /\ forall u, vertex g u -> 0 <= dv dist u -> cclosed dist u) (co_loop part g) (length src + length g + 1) (dist0, src, s, vrep n false)) as (dist & E & Gd & Cl).
      - split; [split; [auto|split; [|split]]|].
        + intros v Hv; rewrite Dd by auto; destruct (in_dec Z.eq_dec v src); lia.
        + exact S0.
        + intros v Hv H0. rewrite Dd in * by auto. destruct (in_dec Z.eq_dec v src); [|lia]. exists v. split; auto. apply reach_end.
        + split; [apply blank_vrep; auto|]. split; [exact NDs|]. split; [|split; [|split; [|split]]].
          * intros v. rewrite Is. split; intros [B C]; split; auto; rewrite Dd in * by auto; destruct (in_dec Z.eq_dec v src); auto; try tauto; lia.
          * intros v Hv. split; auto. rewrite S0 by auto. lia.
          * clear - S0. induction src as [|a l IH]; constructor; [apply IH; intros; apply S0; now right|]. apply Forall_forall. intros x Hx. rewrite !S0; [lia|now right|now left].
          * intros u Hu H0. rewrite Dd in H0 by auto. destruct (in_dec Z.eq_dec u src); [now left|lia].
          * intros h v Eh Hv. assert (Hh : In h src) by (destruct src; [discriminate|]; injection Eh as ->; left; auto). rewrite (S0 h Hh). rewrite Dd by auto. destruct (in_dec Z.eq_dec v src); lia.
      - unfold cmeas. assert (L : (length s <= length g)%nat).
        { assert (A : zlen s <= n). { pose proof (NoDup_range_length s n NDs (fun v Hv => proj1 (proj1 (Is v) Hv))). lia. } unfold zlen in A. lia. } lia.
      - exact co_step.
      - rewrite E. exists dist. split; auto. destruct Gd as (Zd' & Lo & Src & Rch). split; auto. intros v Hv. exists (dv dist v). split; [apply vget_dv; unfold vertex in Hv; lia|].
        assert (Opt : forall s c, In s src -> reach (co_hop g) s v c -> 0 <= dv dist v <= c).
        { intros x c Hs (p & R). destruct (route_potential _ (fun u => vertex g u /\ 0 <= dv dist u) (dv dist) _ _ _ _ R) as ((_ & H0) & L).
          - split; auto. rewrite Src by auto. lia.
          - intros u w d (Hu & H0) (He & ->). pose proof (Cl u Hu H0 w He). split; [split; [apply He|]|]; lia.
          - rewrite (Src x Hs) in L. lia. }
        destruct (Z.eq_dec (dv dist v) (-1)) as [F1|N1].
        + left. split; auto. intros x c Hs R. specialize (Opt x c Hs R). lia.
        + right. split; [apply Rch; auto; specialize (Lo v Hv); lia|]. intros x c Hs R. apply (Opt x c); auto.
    Qed.
  End Dist.
End Co.
