(* Simple paths of a forest *)
From Verif Require Import Base BaseLemmas ListZ ListMore Graph_spec Tree_spec BFS_model BFS_proof Tree_proof Tree_proof2 Tree_proof3.
From Coq Require Import Sorted Permutation.

(* the first k vertices of the way up from v *)
Fixpoint ups (par : Z -> Z) (k : nat) (v : Z) : list Z := match k with O => [] | S k => v :: ups par k (par v) end.
Definition treepath (par : Z -> Z) (u v a i j : Z) : list Z := ups par (Z.to_nat i) u ++ a :: rev (ups par (Z.to_nat j) v).

Section Paths.
  Variables (g : list (list Z)) (par dep rt : Z -> Z).
  Hypothesis R : rooted g par.
  Hypothesis D : dep_ok g par dep rt.
  Lemma anc_dec a v : vertex g v -> ancestor par a v \/ ~ ancestor par a v.
  Proof.
    intros Hv. destruct (D v Hv) as (C & Er & _ & _ & _). induction C as [v|k v r H C IH].
    - destruct (Z.eq_dec a v) as [->|N]; [left; apply anc_refl|right]. intros A. apply anc_inv in A as [A|(A & _)]; contradiction.
    - destruct (Z.eq_dec a v) as [->|N]; [left; apply anc_refl|]. destruct (IH (par_vertex g par R v Hv H) Er) as [A|A].
      + left. eapply anc_trans; [exact A|]. now apply anc_par.
      + right. intros B. apply anc_inv in B as [B|(_ & B)]; contradiction.
  Qed.
  Lemma edge_exit w x y : edge g x y -> ancestor par w x -> ~ ancestor par w y -> x = w /\ par x = y.
  Proof.
    intros E A N. pose proof (edge_vertex g _ _ E) as Hx. apply (edge_par g par R) in E as (Hy & [E|E]); auto.
    - exfalso. apply N. eapply anc_trans; [exact A|]. rewrite <- E. apply anc_par. unfold vertex in Hx. lia.
    - apply anc_inv in A as [A|(_ & A)]; auto. rewrite E in A. contradiction.
  Qed.
  Lemma route_vertex s t p c : route (hop g) s t p c -> vertex g s -> (forall x, In x p -> vertex g x) /\ vertex g t.
  Proof.
    induction 1 as [s|s u t p c d (E & _) Rt IH]; intros Hs; [split; auto; intros x [<-|[]]; auto|]. destruct IH as (I1 & I2); [now apply (rooted_graph_ok g par R) in E|]. split; auto.
    intros x [<-|H]; auto.
  Qed.
  Lemma route_hd s t p c : route (hop g) s t p c -> In s p. Proof. destruct 1; cbn; auto. Qed.
  Lemma route_leave w s t p c : route (hop g) s t p c -> vertex g s -> ancestor par w s -> ~ ancestor par w t -> In (par w) p.
  Proof.
    induction 1 as [s|s u t p c d (E & _) Rt IH]; intros Hs A N; [contradiction|]. assert (Hu : vertex g u) by now apply (rooted_graph_ok g par R) in E.
    destruct (anc_dec w u Hu) as [B|B]; [right; auto|]. destruct (edge_exit w s u E A B) as (-> & ->). right. eapply route_hd; eauto.
  Qed.
  Lemma route_enter w s t p c : route (hop g) s t p c -> vertex g s -> ~ ancestor par w s -> ancestor par w t -> In w p.
  Proof.
    induction 1 as [s|s u t p c d (E & _) Rt IH]; intros Hs N A; [contradiction|]. assert (Hu : vertex g u) by now apply (rooted_graph_ok g par R) in E.
    destruct (anc_dec w u Hu) as [B|B]; [|right; auto]. apply (edge_sym g par R) in E. destruct (edge_exit w u s E B N) as (-> & _). right. eapply route_hd; eauto.
  Qed.
  Lemma route_last s t p c : route (hop g) s t p c -> In t p. Proof. induction 1; cbn; auto. Qed.
  (* the first step of a simple path *)
  Lemma step_down u w v p c : route (hop g) w v p c -> vertex g w -> par w = u -> ~ In u p -> ancestor par w v.
  Proof.
    intros Rt Hw E N. destruct (anc_dec w v) as [A|A]; auto; [eapply route_vertex; eauto|]. exfalso. apply N. rewrite <- E. eapply route_leave; eauto. apply anc_refl.
  Qed.
  Lemma step_up u w v p c : route (hop g) w v p c -> vertex g u -> par u = w -> vertex g w -> ~ In u p -> ~ ancestor par u v.
  Proof.
    intros Rt Hu E Hw N A. apply N. eapply route_enter; eauto. intros B. pose proof (anc_dep g par dep rt R D _ _ B Hw).
    assert (X : par u <> -1) by (unfold vertex in Hw; lia). pose proof (dep_par g par dep rt D u Hu X). rewrite E in *. lia.
  Qed.
  Theorem path_unique p : forall u v q, vertex g u -> simple_path g u v p -> simple_path g u v q -> p = q.
  Proof.
    induction p as [|x p IH]; intros u v q Hu (Np & cp & Rp) (Nq & cq & Rq); [inversion Rp|].
    inversion Rp as [s|s w t p' c d (E1 & _) R1]; subst; inversion Rq as [s|s w' t q' c' d' (E2 & _) R2]; subst; auto.
    - exfalso. inversion Nq; subst. apply H1. eapply route_last; eauto.
    - exfalso. inversion Np; subst. apply H1. eapply route_last; eauto.
    - f_equal. inversion Np; subst. inversion Nq; subst. apply (edge_par g par R) in E1 as (Hw & E1); auto. apply (edge_par g par R) in E2 as (Hw' & E2); auto.
      assert (Ew : w = w').
      { destruct E1 as [E1|E1], E2 as [E2|E2]; [| | |congruence].
        - assert (A1 := step_down _ _ _ _ _ R1 Hw E1 H1). assert (A2 := step_down _ _ _ _ _ R2 Hw' E2 H3). assert (Hv : vertex g v) by (eapply route_vertex; eauto).
          assert (X : x <> -1) by (unfold vertex in Hu; lia). pose proof (dep_par g par dep rt D w Hw ltac:(congruence)). pose proof (dep_par g par dep rt D w' Hw' ltac:(congruence)). rewrite E1, E2 in *.
          apply (anc_dep_eq g par dep rt R D); auto; [|lia]. eapply (anc_of_dep g par dep rt R D); eauto. lia.
        - exfalso. apply (step_up _ _ _ _ _ R2 Hu E2 Hw' H3). eapply anc_trans; [|eapply step_down; [exact R1|..]; eauto]. rewrite <- E1. apply anc_par. unfold vertex in Hu; lia.
        - exfalso. apply (step_up _ _ _ _ _ R1 Hu E1 Hw H1). eapply anc_trans; [|eapply step_down; [exact R2|..]; eauto]. rewrite <- E2. apply anc_par. unfold vertex in Hu; lia. }
      subst w'. apply (IH w v q'); auto; split; eauto.
  Qed.
  (* the path through the lowest common ancestor *)
  Lemma ups_In k v x : In x (ups par k v) -> forall a, climb par (Z.of_nat k) v a -> exists j, 0 <= j < Z.of_nat k /\ climb par j v x.
  Proof.
    revert v. induction k as [|k IH]; intros v Hx a C; [destruct Hx|]. cbn [ups] in Hx. apply climb_inv in C as [(? & _)|(_ & N & C)]; [lia|]. destruct Hx as [<-|Hx].
    - exists 0. split; [lia|constructor].
    - replace (Z.of_nat (S k) - 1) with (Z.of_nat k) in C by lia. destruct (IH (par v) Hx a C) as (j & Hj & Cj). exists (j + 1). split; [lia|]. constructor; auto.
  Qed.
  Lemma In_ups k v x j : 0 <= j < Z.of_nat k -> climb par j v x -> In x (ups par k v).
  Proof.
    revert v j. induction k as [|k IH]; intros v j Hj C; [lia|]. cbn [ups]. apply climb_inv in C as [(_ & E)|(L & N & C)]; [now left|right]. apply (IH (par v) (j - 1)); auto. lia.
  Qed.
  Lemma ups_len k v : length (ups par k v) = k. Proof. revert v. induction k; intros; cbn [ups length]; auto. Qed.
  Lemma ups_nodup k v a : vertex g v -> climb par (Z.of_nat k) v a -> NoDup (ups par k v).
  Proof.
    revert v. induction k as [|k IH]; intros v Hv C; cbn [ups]; constructor; apply climb_inv in C as [(? & _)|(_ & N & C)]; try lia; replace (Z.of_nat (S k) - 1) with (Z.of_nat k) in C by lia.
    - intros I. destruct (ups_In k (par v) v I a C) as (j & Hj & Cj). assert (Hp := par_vertex g par R v Hv N). pose proof (dep_climb g par dep rt R D _ _ _ Cj Hp). pose proof (dep_par g par dep rt D v Hv N). lia.
    - apply IH; auto. now apply (par_vertex g par R).
  Qed.
  Lemma ups_route k v a t p c : vertex g v -> climb par (Z.of_nat k) v a -> route (hop g) a t p c -> route (hop g) v t (ups par k v ++ p) (Z.of_nat k + c).
  Proof.
    revert v. induction k as [|k IH]; intros v Hv C Rt; apply climb_inv in C as [(? & E)|(? & N & C)]; try lia; cbn [ups app].
    - rewrite E. exact Rt.
    - replace (Z.of_nat (S k) - 1) with (Z.of_nat k) in C by lia. replace (Z.of_nat (S k) + c) with (1 + (Z.of_nat k + c)) by lia. assert (Hp := par_vertex g par R v Hv N).
      econstructor; [|apply IH; eauto]. split; auto. apply (edge_par g par R); auto.
  Qed.
  Lemma route_rev s t p c : route (hop g) s t p c -> route (hop g) t s (rev p) c.
  Proof.
    induction 1 as [s|s u t p c d (E & ->) Rt IH]; [constructor|]. cbn [rev]. rewrite Z.add_comm. eapply route_snoc; [exact IH|]. split; auto. now apply (edge_sym g par R).
  Qed.
  Theorem treepath_ok u v a i j : vertex g u -> vertex g v -> is_lca par u v a -> climb par i u a -> climb par j v a ->
    simple_path g u v (treepath par u v a i j) /\ route (hop g) u v (treepath par u v a i j) (i + j).
  Proof.
    intros Hu Hv (A & B & L) Ci Cj. pose proof (climb_nonneg _ _ _ _ Ci). pose proof (climb_nonneg _ _ _ _ Cj). unfold treepath.
    assert (Rj : route (hop g) a v (a :: rev (ups par (Z.to_nat j) v)) j).
    { assert (X : route (hop g) v a (ups par (Z.to_nat j) v ++ [a]) (j + 0)). { pose proof (ups_route (Z.to_nat j) v a a [a] 0 Hv) as X. rewrite Z2Nat.id in X by auto. apply X; auto. constructor. }
      apply route_rev in X. rewrite rev_app_distr in X. cbn [rev app] in X. rewrite Z.add_0_r in X. auto. }
    assert (Ra : route (hop g) u v (ups par (Z.to_nat i) u ++ a :: rev (ups par (Z.to_nat j) v)) (i + j)).
    { pose proof (fun p => ups_route (Z.to_nat i) u a v p j Hu) as X. rewrite Z2Nat.id in X by auto. apply X; auto. }
    split; auto. split; eauto.
    assert (Ui : forall x, In x (ups par (Z.to_nat i) u) -> ancestor par x u /\ dep a < dep x).
    { intros x Hx. destruct (ups_In _ _ _ Hx a) as (k & Hk & Ck); [rewrite Z2Nat.id; auto|]. split; [now exists k|].
      pose proof (dep_climb g par dep rt R D _ _ _ Ck Hu). pose proof (dep_climb g par dep rt R D _ _ _ Ci Hu). lia. }
    assert (Uj : forall x, In x (ups par (Z.to_nat j) v) -> ancestor par x v /\ dep a < dep x).
    { intros x Hx. destruct (ups_In _ _ _ Hx a) as (k & Hk & Ck); [rewrite Z2Nat.id; auto|]. split; [now exists k|].
      pose proof (dep_climb g par dep rt R D _ _ _ Ck Hv). pose proof (dep_climb g par dep rt R D _ _ _ Cj Hv). lia. }
    assert (Va : vertex g a) by (eapply climb_vertex; eauto).
    apply NoDup_app.
    - eapply ups_nodup; eauto. rewrite Z2Nat.id; eauto.
    - constructor; [|apply NoDup_rev; eapply ups_nodup; eauto; rewrite Z2Nat.id; eauto]. intros I. apply in_rev, Uj in I. lia.
    - intros x Hx [<-|Hy]; [apply Ui in Hx; lia|]. apply in_rev in Hy. apply Ui in Hx as (Ax & Dx). apply Uj in Hy as (Bx & _).
      pose proof (anc_dep g par dep rt R D _ _ (L x Ax Bx) Va). lia.
  Qed.
  Lemma lca_anc u v : ancestor par u v -> is_lca par u v u.
  Proof. intros A. split; [apply anc_refl|]. split; auto. Qed.
  Lemma lca_sym u v a : is_lca par u v a -> is_lca par v u a.
  Proof. intros (A & B & L). split; [auto|split; auto]. Qed.
  Lemma lca_unique u v a b : vertex g u -> is_lca par u v a -> is_lca par u v b -> a = b.
  Proof.
    intros Hu (A & B & L) (A' & B' & L'). apply (anc_antisym g par dep rt R D); [exact (anc_vertex g par R a u A Hu)|exact (L' a A B)|exact (L b A' B')].
  Qed.
  Lemma lca_up u v a : vertex g u -> par u <> -1 -> ~ ancestor par u v -> (is_lca par u v a <-> is_lca par (par u) v a).
  Proof.
    intros Hu N Nv. split; intros (A & B & L).
    - apply anc_inv in A as [->|(_ & A)]; [contradiction|]. split; [auto|split; [auto|]]. intros b Hb Hbv. apply L; auto. eapply anc_trans; [exact Hb|]. now apply anc_par.
    - split; [eapply anc_trans; [exact A|]; now apply anc_par|split; [auto|]]. intros b Hb Hbv. apply anc_inv in Hb as [->|(_ & Hb)]; [contradiction|]. auto.
  Qed.
  Lemma lca_exists u v : vertex g u -> vertex g v -> connected g u v -> exists a, is_lca par u v a.
  Proof.
    intros Hu Hv C. apply (conn_common g par dep rt R D) in C as (r & (k & Cu) & Av); auto. induction Cu as [x|k x r H Cx IH].
    - exists x. now apply lca_anc.
    - destruct (anc_dec x v Hv) as [A|A]; [exists x; now apply lca_anc|]. destruct (IH (par_vertex g par R x Hu H) Av) as (a & Ha). exists a. now apply lca_up.
  Qed.
  Lemma dist_best v t p c : route (hop g) v t p c -> vertex g v -> forall a i j, is_lca par v t a -> climb par i v a -> climb par j t a -> i + j <= c.
  Proof.
    induction 1 as [s|s w t p c d (E & ->) Rt IH]; intros Hs a i j L Ci Cj.
    - assert (a = s) as -> by (apply (lca_unique s s); auto; apply lca_anc, anc_refl). pose proof (dep_climb g par dep rt R D _ _ _ Ci Hs). pose proof (dep_climb g par dep rt R D _ _ _ Cj Hs). lia.
    - apply (edge_par g par R) in E as (Hw & [E|E]); auto.
      + destruct (anc_dec w t) as [A|A]; [eapply route_vertex; eauto| |].
        * destruct A as (k & A). assert (Ns : s <> -1) by (unfold vertex in Hs; lia). assert (C1 : climb par (k + 1) t s) by (rewrite <- E; apply climb_snoc; auto; congruence).
          assert (a = s) as -> by (apply (lca_unique s t); auto; apply lca_anc; eexists; eauto). assert (Ht : vertex g t) by (eapply route_vertex; eauto).
          pose proof (dep_climb g par dep rt R D _ _ _ Ci Hs). pose proof (dep_climb g par dep rt R D _ _ _ Cj Ht). pose proof (dep_climb g par dep rt R D _ _ _ C1 Ht).
          pose proof (IH Hw w 0 k (lca_anc w t ltac:(now exists k)) (climb_0 _ _) A). lia.
        * assert (Ns : s <> -1) by (unfold vertex in Hs; lia). assert (L' : is_lca par w t a) by (apply (proj2 (lca_up w t a Hw ltac:(congruence) A)); now rewrite E).
          pose proof (IH Hw a (i + 1) j L'). assert (climb par (i + 1) w a) by (constructor; [congruence|now rewrite E]). specialize (H H0 Cj). lia.
      + assert (N : par s <> -1) by (unfold vertex in Hw; lia). apply climb_inv in Ci as [(-> & ->)|(Hi & _ & Ci)].
        * assert (L' : is_lca par w t w) by (apply lca_anc; exists (j + 1); rewrite <- E; now apply climb_snoc). pose proof (IH Hw w 0 (j + 1) L' (climb_0 _ _)) as X. rewrite <- E in X at 1. specialize (X (climb_snoc par _ _ _ Cj N)). lia.
        * rewrite E in Ci. assert (Nst : ~ ancestor par s t).
          { intros A. assert (a = s) as -> by (apply (lca_unique s t); auto; now apply lca_anc). pose proof (dep_climb g par dep rt R D _ _ _ Ci Hw). pose proof (dep_par g par dep rt D s Hs N). rewrite E in *. lia. }
          assert (L' : is_lca par w t a) by (rewrite <- E; exact (proj1 (lca_up s t a Hs N Nst) L)). pose proof (IH Hw a (i - 1) j L' Ci Cj). lia.
  Qed.
End Paths.
