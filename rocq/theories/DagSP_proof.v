(* single_source_shortest_path_dag *)
From Verif Require Import Base BaseLemmas ListZ ListMore Graph_spec BFS_proof Topo_model Topo_proof DagSP_model.

Lemma for_outcome {S} (P : Z -> S -> Prop) (Q : Prop) lo hi body s :
  lo <= hi -> P lo s ->
  (forall i s, lo <= i < hi -> P i s -> (exists s', body i s = Ok s' /\ P (i + 1) s') \/ (body i s = Abort /\ Q)) ->
  (exists s', for_ lo hi body s = Ok s' /\ P hi s') \/ (for_ lo hi body s = Abort /\ Q).
Proof.
  intros L H0 H. unfold for_. assert (K : forall k i s, lo <= i -> i + Z.of_nat k = hi -> P i s -> (exists s', for_up k i body s = Ok s' /\ P hi s') \/ (for_up k i body s = Abort /\ Q)).
  { induction k as [|k IH]; intros i s0 Hi Hk Hp; cbn [for_up]; [left; exists s0; split; auto; now replace hi with i by lia|].
    destruct (H i s0) as [(s' & E & Hp')|(E & HQ)]; [lia|auto| |]; rewrite E; cbn [bind]; [|now right]. apply IH; auto; lia. }
  apply K; auto; lia.
Qed.
Lemma for_each_map {X Y S} (f : X -> Y) l (body : Y -> S -> res S) : forall s, for_each (map f l) body s = for_each l (fun x => body (f x)) s.
Proof. induction l as [|x l IH]; intros s; cbn [map for_each]; auto. destruct (body (f x) s); cbn [bind]; auto. Qed.
Lemma for_each_ext {X S} l (b1 b2 : X -> S -> res S) : (forall x s, In x l -> b1 x s = b2 x s) -> forall s, for_each l b1 s = for_each l b2 s.
Proof.
  induction l as [|x l IH]; intros H s; cbn [for_each]; auto. rewrite H by now left. destruct (b2 x s); cbn [bind]; auto. apply IH. intros y s' Hy. apply H. now right.
Qed.

Definition bare (g : list (list (Z * Z))) : list (list Z) := map (map fst) g.

Section Dag.
  Variables (inf : Z) (g : list (list (Z * Z))) (s : Z).
  Hypothesis G : wgraph_ok g.
  Hypothesis Hs : vertex g s.
  Hypothesis Fits : forall u v d c, best (wedge g) s u d -> wedge g u v c -> d + c < inf.
  Hypothesis Inf0 : 0 < inf.
  Notation n := (zlen g).
  Notation E := (wedge g).
  Notation h := (bare g).
  Lemma zlen_h : zlen h = n. Proof. apply zlen_map. Qed.
  Lemma edge_h u v : edge h u v <-> exists c, E u v c.
  Proof.
    unfold edge, wedge, bare. rewrite vget_map. split.
    - intros (a & Ea & I). destruct (vget g u) as [b| | |]; try discriminate. cbn [bind] in Ea. injection Ea as <-. apply in_map_iff in I as ((v' & c) & Ev & I). cbn in Ev. subst v'. eauto.
    - intros (c & b & Eb & I). rewrite Eb. cbn [bind]. eexists. split; [reflexivity|]. apply in_map_iff. exists (v, c). auto.
  Qed.
  Lemma Gh : graph_ok h.
  Proof. intros u v He. apply edge_h in He as (c & He). rewrite zlen_h. eapply G; eauto. Qed.
  Lemma wedge_src' u v c : E u v c -> vertex g u. Proof. intros (a & Ea & _). eapply vget_range; eauto. Qed.

  (* the part of the inner loop that works on res *)
  Definition res_visit (u : Z) (e : Z * Z) (r : list Z) : res (list Z) :=
    let* ru := vget r u in if ru =? inf then Ok r else let* rv := vget r (fst e) in vset r (fst e) (Z.min rv (ru + snd e)).
  Lemma split_loops u l : forall r inn dq r' inn' dq', for_each l (res_visit u) r = Ok r' -> for_each (map fst l) dec_visit (inn, dq) = Ok (inn', dq') ->
    for_each l (dag_visit inf u) (r, inn, dq) = Ok (r', inn', dq').
  Proof.
    induction l as [|(v, w) l IH]; intros r inn dq r' inn' dq' A B; cbn [for_each map] in *; [congruence|]. unfold res_visit at 1 in A. unfold dec_visit at 1 in B. unfold dag_visit at 1. cbn [fst snd] in *.
    destruct (vget r u) as [ru| | |]; try discriminate. cbn [bind] in *.
    destruct (if ru =? inf then Ok r else _) as [r1| | |]; try discriminate. cbn [bind] in *. destruct (vget inn v) as [x| | |]; try discriminate. cbn [bind] in *. destruct (vset inn v (x - 1)) as [inn1| | |]; try discriminate. cbn [bind] in *. eauto.
  Qed.
  Definition RI (ord res : list Z) : Prop :=
    zlen res = n /\ dv res s = 0 /\
    (forall v, vertex g v -> dv res v <= inf /\ (dv res v < inf -> reach E s v (dv res v))) /\
    (forall u v c, In u ord -> dv res u < inf -> E u v c -> dv res v <= dv res u + c) /\
    (forall u, In u ord -> dv res u < inf -> best E s u (dv res u)).
  Lemma back_closed (S : Z -> Prop) a t p c : route E a t p c -> (forall v w d, S v -> E w v d -> S w) -> S t -> S a.
  Proof. induction 1 as [|a u t p c d He R IH]; intros Hc Ht; auto. eapply Hc; [apply IH; auto|eauto]. Qed.
  Lemma pop_best ord res u : RI ord res -> (forall v w, In v (ord ++ [u]) -> edge h w v -> In w ord) -> dv res u < inf -> vertex g u -> best E s u (dv res u).
  Proof.
    intros (Zr & R0 & Rr & Cl & Bs) Pre Lu Hu. split; [apply Rr; auto|]. intros d (p & R).
    assert (K : forall a t p c, route E a t p c -> In t (ord ++ [u]) -> dv res a < inf -> dv res t <= dv res a + c).
    { clear R p d. induction 1 as [a|a w t p c d He R IH]; intros Ht La; [lia|].
      assert (Iw : In w (ord ++ [u])).
      { eapply (back_closed (fun x => In x (ord ++ [u]))); eauto. intros v x e Hv Hx. apply in_app_iff. left. eapply Pre; eauto. apply edge_h. eauto. }
      assert (Ia : In a ord) by (eapply Pre; eauto; apply edge_h; eauto).
      pose proof (Cl _ _ _ Ia La He) as C. pose proof (Fits _ _ _ _ (Bs _ Ia La) He) as F. specialize (IH Ht ltac:(lia)). lia. }
    specialize (K _ _ _ _ R). rewrite R0 in K. apply K; [apply in_app_iff; right; now left|lia].
  Qed.
  Lemma relax_row ord res u a : RI ord res -> (forall v, In v ord -> vertex g v) -> vertex g u -> vget g u = Ok a -> ~ In u ord -> (forall v w, In v (ord ++ [u]) -> edge h w v -> In w ord) -> (forall v c, ~ E v s c) ->
    exists res', for_each a (res_visit u) res = Ok res' /\ RI (ord ++ [u]) res'.
  Proof.
    intros RI0 Vo Hu Ea Nu Pre Ns. pose proof RI0 as (Zr & R0 & Rr & Cl & Bs).
    assert (Out : forall v c, E u v c -> ~ In v (ord ++ [u])). { intros v c He I. apply Nu. eapply Pre; eauto. apply edge_h. eauto. }
    destruct (Z.eq_dec (dv res u) inf) as [Eu|Lu].
    - exists res. split.
      + clear -Eu Zr Hu. induction a as [|e a IH]; cbn [for_each]; auto. unfold res_visit at 1. rewrite vget_dv by (unfold vertex in Hu; lia). cbn [bind]. rewrite (proj2 (Z.eqb_eq _ _) Eu). cbn [bind]. exact IH.
      + split; auto. split; auto. split; auto. split; [intros x v c Hx|intros x Hx]; (apply in_app_iff in Hx as [Hx|[<-|[]]]; [eauto|lia]).
    - assert (Lu' : dv res u < inf) by (pose proof (Rr u Hu); lia). pose proof (pop_best ord res u RI0 Pre Lu' Hu) as Bu.
      destruct (for_each_inv (fun done r => zlen r = n /\ dv r s = 0 /\ (forall v, vertex g v -> dv r v <= dv res v /\ (dv r v < inf -> reach E s v (dv r v))) /\
        (forall v, In v (ord ++ [u]) -> dv r v = dv res v) /\ forall v c, In (v, c) done -> dv r v <= dv res u + c) a (res_visit u) res) as (r' & E' & Zr' & R0' & Rr' & Sm & Dn).
      + split; auto. split; auto. split; [intros v Hv; split; [lia|apply Rr; auto]|]. split; auto. intros v c [].
      + intros done (v, c) todo r El (Z1 & R1 & Rr1 & Sm1 & Dn1). assert (He : E u v c) by (exists a; split; auto; rewrite El; apply in_app_iff; right; now left). pose proof (G _ _ _ He) as Hv.
        unfold res_visit. unfold vertex in Hu, Hs. rewrite vget_dv by lia. cbn [bind fst snd]. rewrite Sm1 by (apply in_app_iff; right; now left). rewrite (proj2 (Z.eqb_neq _ _) Lu). rewrite vget_dv by lia. cbn [bind]. rewrite vset_ok by lia. eexists. split; [reflexivity|].
        pose proof (Fits _ _ _ _ Bu He) as Fu.
        assert (Dz : forall w, vertex g w -> dv (zupd r v (Z.min (dv r v) (dv res u + c))) w = if v =? w then Z.min (dv r v) (dv res u + c) else dv r w) by (intros w Hw; unfold vertex in Hw; rewrite dv_zupd by lia; auto).
        split; [now rewrite zlen_zupd|]. split; [rewrite Dz by auto; destruct (Z.eqb_spec v s) as [->|]; auto; destruct (Ns _ _ He)|]. split.
        * intros w Hw. rewrite Dz by auto. destruct (Z.eqb_spec v w) as [->|]; [|auto]. destruct (Rr1 w Hw) as (A & B). split; [lia|]. intros L. destruct (Z.min_spec (dv r w) (dv res u + c)) as [(M & ->)|(M & ->)]; [apply B; lia|]. eapply reach_snoc; [apply Bu|auto].
        * split.
          { intros w Hw. assert (Vw : vertex g w) by (apply in_app_iff in Hw as [Hw|[<-|[]]]; auto).
            rewrite Dz by auto. destruct (Z.eqb_spec v w) as [->|]; auto. destruct (Out _ _ He Hw). }
          intros w e Hw. apply in_app_iff in Hw as [Hw|[[= <- <-]|[]]].
          { assert (Vw : vertex g w) by (apply (G u _ e); exists a; split; auto; rewrite El; apply in_app_iff; now left). rewrite Dz by auto. specialize (Dn1 _ _ Hw). destruct (Z.eqb_spec v w) as [->|]; lia. }
          rewrite Dz, Z.eqb_refl by auto. lia.
      + exists r'. split; auto. split; auto. split; auto. split; [intros v Hv; split; [pose proof (Rr' v Hv); pose proof (Rr v Hv); lia|apply Rr'; auto]|].
        assert (Ku : dv r' u = dv res u) by (apply Sm; apply in_app_iff; right; now left).
        split.
        * intros x v c Hx Lx He. pose proof (G _ _ _ He) as Hv. apply in_app_iff in Hx as [Hx|[<-|[]]].
          { rewrite (Sm x) in * by (apply in_app_iff; auto). pose proof (Cl _ _ _ Hx Lx He). pose proof (proj1 (Rr' v Hv)). lia. }
          rewrite Ku. apply Dn. destruct He as (b & Eb & I). congruence.
        * intros x Hx Lx. rewrite (Sm x) in * by auto. apply in_app_iff in Hx as [Hx|[<-|[]]]; auto.
  Qed.
  Definition DI (cnt : Z) (st : list Z * list Z * list Z) : Prop :=
    let '(res, inn, dq) := st in exists ord, zlen ord = cnt /\ TP h (inn, dq, ord) /\ RI ord res.
  Lemma dag_step_ok i st : (forall v c, ~ E v s c) -> 0 <= i < n -> DI i st ->
    (exists st', dag_step inf g st = Ok st' /\ DI (i + 1) st') \/ (dag_step inf g st = Abort /\ cyclic h).
  Proof.
    destruct st as [[res inn] dq]. intros Ns Hi (ord & Lo & T & R). destruct dq as [|u dq].
    - right. split; auto. eapply tp_stuck; [exact T|]. rewrite zlen_h. lia.
    - left. cbn [dag_step]. destruct (topo_step h Gh _ T) as (x & Ex & Hx). pose proof T as ((Zi & ND & Vx & Rd) & Lv & Od).
      assert (Hu : vertex h u) by (apply Vx; apply in_app_iff; right; now left). assert (Hu' : vertex g u) by (unfold vertex in *; now rewrite zlen_h in Hu).
      assert (Nu : ~ In u ord). { intros A. apply NoDup_remove_2 in ND. apply ND. apply in_app_iff. auto. }
      assert (Pu : forall w, edge h w u -> In w ord). { apply (proj1 (live_zero h ord u)). rewrite <- Lv by auto. apply Rd; auto. apply in_app_iff. right. now left. }
      assert (Pre : forall v w, In v (ord ++ [u]) -> edge h w v -> In w ord).
      { intros v w Hv He. apply in_app_iff in Hv as [Hv|[<-|[]]]; [|auto]. apply in_split in Hv as (a & b & ->). apply in_app_iff. left. eapply Od; eauto. }
      destruct (vget_Ok g u) as (a & Ea); [exact Hu'|]. rewrite Ea. cbn [bind].
      destruct (relax_row ord res u a R) as (res' & Er & R'); auto.
      { intros v Hv. specialize (Vx v). unfold vertex in *. rewrite zlen_h in Vx. apply Vx. apply in_app_iff. auto. }
      unfold topo_loop in Ex. unfold bare in Ex at 1. rewrite vget_map, Ea in Ex. cbn [bind] in Ex. destruct (for_each (map fst a) dec_visit (inn, dq)) as [[inn' dq']| | |] eqn:Ed; try discriminate. cbn [bind] in Ex. injection Ex as <-. cbn [snd] in Hx.
      exists (res', inn', dq'). split; [now apply split_loops|]. exists (ord ++ [u]). split; [rewrite zlen_app, Lo; reflexivity|]. split; [apply Hx|auto].
  Qed.
  Definition dist_ok (res : list Z) : Prop := forall t, vertex g t ->
    (vget res t = Ok inf /\ forall c, ~ reach E s t c) \/ (exists d, vget res t = Ok d /\ d < inf /\ best E s t d).
  Lemma dag_ok :
    ((exists v c, E v s c) /\ dag_shortest inf g s = Abort) \/ (cyclic h /\ dag_shortest inf g s = Abort) \/
    (~ (exists v c, E v s c) /\ ~ cyclic h /\ exists res, dag_shortest inf g s = Ok res /\ zlen res = n /\ dist_ok res).
  Proof.
    pose proof (zlen_nonneg g) as N0. unfold dag_shortest. rewrite vset_ok by (rewrite zlen_vrep; auto). cbn [bind].
    destruct (indeg_ok h Gh) as (inn & Ei & Zi & Di).
    replace (for_each g _ (vrep n 0)) with (Ok inn).
    2:{ rewrite <- Ei. unfold bare. rewrite for_each_map, zlen_map. apply for_each_ext. intros x st _. now rewrite for_each_map. }
    cbn [bind]. rewrite zlen_h in Zi. rewrite vget_dv by (unfold vertex in Hs; lia). cbn [bind].
    assert (Hs' : vertex h s) by (unfold vertex; rewrite zlen_h; exact Hs). rewrite Di by auto. destruct (Z.eqb_spec (live h [] s) 0) as [L0|L0]; cbn [assert_ bind].
    2:{ left. split; auto. destruct (Exists_dec (fun u => edge h u s) (zrange n)) as [Ex|Nx].
      - intros u. destruct (Z_lt_le_dec u 0); [right; intros H; apply edge_src in H; unfold vertex in H; lia|]. destruct (Z_lt_le_dec u n); [|right; intros H; apply edge_src in H; unfold vertex in H; rewrite zlen_h in H; lia].
        destruct (in_dec Z.eq_dec s (adj h u)) as [I|I]; [left|right]; rewrite edge_adj by (split; rewrite ?zlen_h; auto); tauto.
      - apply Exists_exists in Ex as (u & _ & He). apply edge_h in He as (c & He). eauto.
      - exfalso. apply L0. apply live_zero. intros u He. exfalso. apply Nx, Exists_exists. exists u. split; auto. apply In_zrange. apply edge_src in He. unfold vertex in He. now rewrite zlen_h in He. }
    assert (Ns : forall v c, ~ E v s c). { intros v c He. assert (I : In v []) by (apply (proj1 (live_zero h [] s) L0); apply edge_h; eauto). destruct I. }
    destruct (start_ok h inn) as (dq & Eq & Rq); [now rewrite zlen_h|]. rewrite zlen_h in Eq. rewrite Eq. cbn [bind].
    destruct (for_outcome DI (cyclic h) 0 n (fun _ st => dag_step inf g st) (zupd (vrep n inf) s 0, inn, dq)) as [(st & Ef & D)|(Ef & Cy)]; [auto| | | |].
    - exists []. split; auto. split; [split; [exact Rq|]; split; auto; intros a v b Eo; destruct a; discriminate|].
      assert (Dz : forall w, vertex g w -> dv (zupd (vrep n inf) s 0) w = if s =? w then 0 else inf) by (intros w Hw; unfold vertex in Hw; rewrite dv_zupd, dv_vrep by (rewrite ?zlen_vrep; auto); auto).
      split; [now rewrite zlen_zupd, zlen_vrep|]. split; [rewrite Dz, Z.eqb_refl by auto; auto|]. split.
      + intros v Hv. rewrite Dz by auto. destruct (Z.eqb_spec s v) as [<-|]; split; try lia. intros _. apply reach_end.
      + split; [intros u v c []|intros u []].
    - intros i st Hi D. apply dag_step_ok; auto.
    - destruct st as [[res inn'] dq']. rewrite Ef. cbn [bind]. right. right. destruct D as (ord & Lo & T & R).
      assert (Q : dq' = []).
      { destruct T as ((_ & ND & Vx & _) & _). pose proof (NoDup_range_length _ _ ND Vx) as L. rewrite zlen_h in L. unfold zlen in *. rewrite app_length in L. destruct dq'; [auto|cbn [length] in L; lia]. }
      subst dq'. rewrite <- zlen_h in Lo. split; [intros (v & c & He); eapply Ns; eauto|]. split; [eapply tp_acyclic; eauto using Gh|]. exists res. split; auto. pose proof R as (Zr & R0 & Rr & Cl & Bs). split; auto.
      destruct (tp_full h Gh _ _ T Lo) as (Pm & _).
      assert (Io : forall v, vertex g v -> In v ord). { intros v Hv. eapply Permutation.Permutation_in; [apply Permutation.Permutation_sym; exact Pm|]. rewrite zlen_h. now apply In_zrange. }
      intros t Ht. rewrite vget_dv by (unfold vertex in Ht; lia). destruct (Z.eq_dec (dv res t) inf) as [Et|Nt].
      + left. split; [congruence|]. intros c (p & Rt). assert (K : vertex g t /\ dv res t < inf); [|lia].
        assert (K : forall a t p c, route E a t p c -> vertex g a -> dv res a < inf -> vertex g t /\ dv res t < inf).
        { clear -Cl Bs Io Fits G. induction 1 as [|a w t p c d He R IH]; intros Ha La; auto. apply IH; [eapply G; eauto|]. pose proof (Cl _ _ _ (Io _ Ha) La He). pose proof (Fits _ _ _ _ (Bs _ (Io _ Ha) La) He). lia. }
        eapply K; [exact Rt|auto|lia].
      + right. exists (dv res t). split; auto. pose proof (proj1 (Rr t Ht)). assert (dv res t < inf) by lia. auto.
    - rewrite Ef. cbn [bind]. auto.
  Qed.
End Dag.
