(* A connected graph with n - 1 edges is a forest; simple paths of a forest *)
From Verif Require Import Base BaseLemmas ListZ ListMore Graph_spec Tree_spec BFS_model BFS_proof BFS_proof2 Tree_proof Tree_proof2 Tree_proof3.
From Coq Require Import Sorted Permutation.

Lemma route_last_inv E s t p c : route E s t p c -> (s = t /\ c = 0) \/ exists w q d e, route E s w q d /\ E w t e /\ c = d + e.
Proof.
  induction 1 as [s|s u t p c d H Rt IH]; [left; auto|right]. destruct IH as [(-> & ->)|(w & q & d' & e & Rq & Ew & ->)].
  - exists s, [s], 0, c. repeat split; auto; [constructor|lia].
  - exists w, (s :: q), (c + d'), e. repeat split; auto; [econstructor; eauto|lia].
Qed.
Lemma hop_nonneg g s t c : reach (hop g) s t c -> 0 <= c.
Proof. intros (p & Rp). induction Rp as [s|s u t p c d (_ & E) Rp IH]; lia. Qed.
Lemma filter_id {A} (f : A -> bool) l : (forall x, In x l -> f x = true) -> filter f l = l.
Proof. induction l as [|x l IH]; intros H; auto. cbn [filter]. rewrite H by now left. f_equal. apply IH. intros y Hy. apply H. now right. Qed.
Definition dirs (g : list (list Z)) : list (Z * Z) := flat_map (fun u => map (pair u) (nth (Z.to_nat u) g [])) (zrange (zlen g)).
Lemma dirs_In g u v : In (u, v) (dirs g) <-> edge g u v.
Proof.
  unfold dirs. rewrite in_flat_map. split.
  - intros (x & Hx & H). apply in_map_iff in H as (y & E & Hy). injection E as <- <-. apply In_zrange in Hx. eexists. split; [apply vget_nth; exact Hx|]. exact Hy.
  - intros (adj & E & H). pose proof (vget_range _ _ _ E). exists u. split; [now apply In_zrange|]. rewrite (vget_nth []) in E by auto. injection E as <-. now apply in_map.
Qed.
Lemma dirs_len g : length (dirs g) = length (concat g).
Proof.
  unfold dirs. assert (H : forall pre, length (flat_map (fun u => map (pair u) (nth (Z.to_nat u) (pre ++ g) [])) (map Z.of_nat (seq (length pre) (length g)))) = length (concat g)).
  { induction g as [|r g IH]; intros pre; auto. cbn [length seq map flat_map concat]. rewrite !app_length, map_length. f_equal.
    - rewrite Nat2Z.id, app_nth2, Nat.sub_diag by lia. auto.
    - specialize (IH (pre ++ [r])). rewrite <- app_assoc in IH. cbn [app] in IH. rewrite app_length in IH. cbn [length] in IH. rewrite Nat.add_1_r in IH. exact IH. }
  specialize (H []). cbn [app length] in H. unfold zrange, zlen. rewrite Nat2Z.id. exact H.
Qed.
Lemma NoDup_app_l {A} (l1 l2 : list A) : NoDup (l1 ++ l2) -> NoDup l1.
Proof. induction l1 as [|x l IH]; intros H; constructor; cbn [app] in H; inversion H; subst; auto. intros I. apply H2, in_app_iff. now left. Qed.
Lemma NoDup_app_r {A} (l1 l2 : list A) : NoDup (l1 ++ l2) -> NoDup l2.
Proof. induction l1 as [|x l IH]; auto. cbn [app]. intros H. inversion H; auto. Qed.
Lemma NoDup_dirs_row g u adj : NoDup (dirs g) -> vget g u = Ok adj -> NoDup adj.
Proof.
  intros N E. pose proof (vget_range _ _ _ E) as Hu. unfold dirs in N. assert (Hi : In u (zrange (zlen g))) by now apply In_zrange.
  apply in_split in Hi as (l1 & l2 & El). rewrite El, flat_map_app in N. cbn [flat_map] in N. apply NoDup_app_r, NoDup_app_l in N.
  rewrite (vget_nth []) in E by auto. injection E as <-. now apply NoDup_map_inv in N.
Qed.

Theorem tree_forest g : tree g -> forest g.
Proof.
  intros (Hn & G & U & C & Len).
  destruct (bfs_distance_ok g [0] G) as (dist & _ & Zd & B); [intros s [<-|[]]; unfold vertex; lia|].
  set (d := dv dist).
  assert (V0 : vertex g 0) by (unfold vertex; lia).
  assert (Bd : forall v, vertex g v -> reach (hop g) 0 v (d v) /\ forall c, reach (hop g) 0 v c -> d v <= c).
  { intros v Hv. destruct (B v Hv) as (x & Ex & [(-> & H)|((s & [<-|[]] & H) & L)]); destruct (C 0 v V0 Hv) as (c & Rc).
    - exfalso. apply (H 0 c); auto. now left.
    - rewrite vget_dv in Ex by (unfold vertex in Hv; lia). injection Ex as Ex. fold (d v) in Ex. rewrite Ex. split; auto. intros c' Hc. apply (L 0 c'); auto. now left. }
  assert (D0 : d 0 = 0). { destruct (Bd 0 V0) as (Rp & L). apply hop_nonneg in Rp. specialize (L 0 (reach_end _ 0)). lia. }
  assert (Dn : forall v, vertex g v -> 0 <= d v) by (intros v Hv; eapply hop_nonneg; apply Bd; auto).
  clearbody d.
  assert (Pr : forall v, vertex g v -> v <> 0 -> exists w, edge g v w /\ d w = d v - 1).
  { intros v Hv Nv. destruct (Bd v Hv) as ((p & Rp) & L). apply route_last_inv in Rp as [(E & _)|(w & q & x & e & Rq & (Ew & ->) & Ec)]; [lia|].
    exists w. split; [now apply U|]. assert (Hw : vertex g w) by (destruct Ew as (adj & Ea & _); unfold vertex; eapply vget_range; eauto).
    destruct (Bd w Hw) as (Rw & Lw). pose proof (Lw x ltac:(now exists q)). pose proof (L (d w + 1) ltac:(eapply reach_snoc; [exact Rw|split; auto])). lia. }
  set (row := fun v => nth (Z.to_nat v) g []).
  assert (Row : forall v, vertex g v -> vget g v = Ok (row v)) by (intros v Hv; now apply vget_nth).
  set (par := fun v => if v =? 0 then -1 else match find (fun w => d w =? d v - 1) (row v) with Some w => w | None => -1 end).
  assert (P : forall v, vertex g v -> v <> 0 -> edge g v (par v) /\ d (par v) = d v - 1).
  { intros v Hv Nv. unfold par. rewrite (proj2 (Z.eqb_neq _ _) Nv). destruct (find (fun w => d w =? d v - 1) (row v)) as [w|] eqn:F.
    - apply find_some in F as (I & E). split; [exists (row v); auto|lia].
    - exfalso. destruct (Pr v Hv Nv) as (w & (adj & Ea & I) & E). rewrite Row in Ea by auto. injection Ea as <-. apply (find_none _ _ F) in I. lia. }
  assert (Pv : forall v, vertex g v -> v <> 0 -> vertex g (par v)) by (intros v Hv Nv; apply (G v), P; auto).
  assert (P0 : par 0 = -1) by reflexivity.
  set (vs := filter (fun v => negb (v =? 0)) (zrange (zlen g))).
  assert (Vs : forall v, In v vs <-> vertex g v /\ v <> 0) by (intros v; unfold vs; rewrite filter_In, In_zrange, negb_true_iff, Z.eqb_neq; reflexivity).
  set (T := map (fun v => (v, par v)) vs ++ map (fun v => (par v, v)) vs).
  assert (Nvs : NoDup vs) by apply NoDup_filter, NoDup_zrange.
  assert (NT : NoDup T).
  { apply NoDup_app.
    - apply FinFun.Injective_map_NoDup; auto. intros x y E. congruence.
    - apply FinFun.Injective_map_NoDup; auto. intros x y E. congruence.
    - intros (a, b) H1 H2. apply in_map_iff in H1 as (x & E1 & H1). apply in_map_iff in H2 as (y & E2 & H2). injection E1 as -> <-. injection E2 as Ea Eb.
      apply Vs in H1 as (H1 & N1). apply Vs in H2 as (H2 & N2). destruct (P a H1 N1) as (_ & Q1). destruct (P y H2 N2) as (_ & Q2). rewrite Eb, Ea in *. lia. }
  assert (LT : length T = (2 * (length g - 1))%nat).
  { unfold T. rewrite app_length, !map_length. enough (length vs = (length g - 1)%nat) by lia. unfold vs.
    assert (E0 : zrange (zlen g) = 0 :: map Z.of_nat (seq 1 (length g - 1))).
    { unfold zrange, zlen in *. rewrite Nat2Z.id. destruct (length g) as [|m] eqn:El; [lia|]. cbn [seq map]. replace (S m - 1)%nat with m by lia. auto. }
    rewrite E0. cbn [filter]. rewrite Z.eqb_refl. cbn [negb]. rewrite filter_id; [now rewrite map_length, seq_length|].
    intros x Hx. apply in_map_iff in Hx as (y & <- & Hy). apply in_seq in Hy. apply negb_true_iff, Z.eqb_neq. lia. }
  assert (Inc : incl T (dirs g)).
  { intros (a, b) H. apply dirs_In. apply in_app_iff in H as [H|H]; apply in_map_iff in H as (v & E & H); injection E as <- <-; apply Vs in H as (Hv & Nv); [|apply U]; now apply P. }
  assert (Pm : Permutation T (dirs g)).
  { apply NoDup_Permutation_bis; auto. rewrite dirs_len, LT. unfold zlen in *. lia. }
  exists par. split; [|split].
  - intros v Hv. destruct (Z.eq_dec v 0) as [->|N]; [now left|right; auto].
  - intros u Hu. exists (row u). split; auto. split; [apply (NoDup_dirs_row g u); auto; eapply Permutation_NoDup; eauto|]. intros v.
    assert (X : In v (row u) <-> In (u, v) T).
    { transitivity (In (u, v) (dirs g)); [|split; intros H; [eapply Permutation_in; [symmetry|]|eapply Permutation_in]; eauto]. rewrite dirs_In. split; [intros H; exists (row u); auto|].
      intros (adj & E & H). rewrite Row in E by auto. injection E as <-. auto. }
    rewrite X. unfold T. rewrite in_app_iff, !in_map_iff. split.
    + intros [(x & E & H)|(x & E & H)]; injection E as <- <-; apply Vs in H as (Hx & Nx); split; auto.
    + intros (Hv & [E|E]).
      * right. exists v. rewrite E. split; auto. apply Vs. split; auto. intros ->. unfold vertex in Hu. lia.
      * left. exists u. rewrite E. split; auto. apply Vs. split; auto. intros ->. unfold vertex in Hv. lia.
  - assert (H : forall k, 0 <= k -> forall v, vertex g v -> d v <= k -> exists k r, climb par k v r /\ par r = -1).
    { intros k Hk. pattern k. apply natlike_ind; auto; clear k Hk.
      - intros v Hv L. destruct (Z.eq_dec v 0) as [->|N]; [exists 0, 0; split; [constructor|auto]|]. destruct (P v Hv N) as (_ & Q). pose proof (Dn _ (Pv v Hv N)). lia.
      - intros k Hk IH v Hv L. destruct (Z.eq_dec v 0) as [->|N]; [exists 0, 0; split; [constructor|auto]|]. destruct (P v Hv N) as (_ & Q).
        destruct (IH (par v) (Pv v Hv N) ltac:(lia)) as (j & r & Cj & Er). exists (j + 1), r. split; auto. constructor; auto. pose proof (Pv v Hv N). unfold vertex in *. lia. }
    intros v Hv. apply (H (d v)); auto. lia.
Qed.
