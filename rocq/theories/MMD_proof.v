From Verif Require Import Base BaseLemmas ListZ Seq Sorting Centroid_proof CSort_proof Fenwick_model Fenwick_spec Fenwick_run Fenwick_proof Compress_model Compress_proof MMD_spec MMD_model.
From Coq Require Import Permutation Sorted.
Lemma omax_mon : is_monoid omax None.
Proof. split; [intros [x|] [y|] [z|]; cbn; auto; f_equal; lia|intros [x|]; auto|intros [x|]; auto]. Qed.
Lemma omax_comm x y : omax x y = omax y x.
Proof. destruct x, y; cbn; auto. f_equal. lia. Qed.
Lemma fold_omax l : (forall v, In (Some v) l -> exists w, fold_right omax None l = Some w /\ v <= w) /\ forall w, fold_right omax None l = Some w -> In (Some w) l.
Proof.
  induction l as [|x l (A & B)]; cbn [fold_right In]; [split; [intros v []|discriminate]|]. split.
  - intros v [->|I].
    + destruct (fold_right omax None l) as [w|]; cbn; eexists; split; auto; lia.
    + destruct (A v I) as (w & -> & L). destruct x as [a|]; cbn; eexists; split; auto; lia.
  - intros w E. destruct x as [a|], (fold_right omax None l) as [b|] eqn:F; cbn in E; try discriminate.
    + injection E as E. destruct (Z.max_spec a b) as [(_ & M)|(_ & M)]; rewrite M in E; subst; auto.
    + injection E as ->. auto.
    + injection E as ->. auto.
Qed.
Lemma In_slice0 {A} (x : A) v r : 0 <= r <= zlen v -> (In x (slice 0 r v) <-> exists c, 0 <= c < r /\ vget v c = Ok x).
Proof.
  intros H. unfold slice. cbn [Z.to_nat skipn]. rewrite ?Z.sub_0_r. pose proof (firstn_skipn (Z.to_nat r) v) as E. assert (L : zlen (firstn (Z.to_nat r) v) = r) by (unfold zlen in *; rewrite firstn_length; lia). split.
  - intros I. apply In_vget in I as (c & Hc & Ec). exists c. rewrite L in Hc. split; auto. rewrite <- E. rewrite vget_app1; auto. lia.
  - intros (c & Hc & Ec). rewrite <- E in Ec. rewrite vget_app1 in Ec by lia. eapply vget_In; eauto.
Qed.
Lemma mm_lt_sw pts : strict_weak (mm_lt pts).
Proof.
  unfold strict_weak, mm_lt. split; [|split].
  - intros x. destruct (nth (Z.to_nat x) pts (0, 0)) as (a & b). rewrite Z.eqb_refl. apply Z.ltb_irrefl.
  - intros x y z. destruct (nth (Z.to_nat x) pts (0, 0)) as (a & b), (nth (Z.to_nat y) pts (0, 0)) as (c & d), (nth (Z.to_nat z) pts (0, 0)) as (e & f). destruct (Z.eqb_spec (b - a) (d - c)), (Z.eqb_spec (d - c) (f - e)), (Z.eqb_spec (b - a) (f - e)); rewrite ?Z.ltb_lt; lia.
  - intros x y z. destruct (nth (Z.to_nat x) pts (0, 0)) as (a & b), (nth (Z.to_nat y) pts (0, 0)) as (c & d), (nth (Z.to_nat z) pts (0, 0)) as (e & f). destruct (Z.eqb_spec (b - a) (d - c)), (Z.eqb_spec (d - c) (f - e)), (Z.eqb_spec (b - a) (f - e)); rewrite ?Z.ltb_ge; lia.
Qed.
(* b is in the octant swept from a *)
Definition oct (a b : Z * Z) : Prop := 0 <= fst a - fst b <= snd a - snd b.
Definition sum (a : Z * Z) : Z := fst a + snd a.
Lemma oct_dist a b : oct a b -> dist a b = sum a - sum b.
Proof. unfold oct, dist, sum. lia. Qed.
Section Sweep.
  Variable srt : (Z -> Z -> bool) -> list Z -> list Z.
  Hypothesis Hs : is_sort srt.
  Variable pts : list (Z * Z).
  Notation n := (zlen pts).
  Notation pt i := (nth (Z.to_nat i) pts (0, 0)).
  Definition better (r r' : option Z) : Prop := match r with None => True | Some d => exists d', r' = Some d' /\ d' <= d end.
  Lemma better_refl r : better r r. Proof. destruct r; cbn; eauto. eexists. split; auto. lia. Qed.
  Lemma better_trans a b c : better a b -> better b c -> better a c.
  Proof. destruct a as [a|]; cbn; auto. intros (b' & -> & L) (c' & -> & L'). eexists. split; auto. lia. Qed.
  Lemma sweep_ok p (f : Z -> option Z) : Permutation p (zrange n) ->
    exists p' f', mm_sweep srt pts p (vec n f) = Ok (p', vec n f') /\ Permutation p' (zrange n) /\
      forall i, 0 <= i < n -> better (f i) (f' i) /\ (f' i = f i \/ exists j, 0 <= j < n /\ j <> i /\ f' i = Some (dist (pt i) (pt j))) /\
        forall j, 0 <= j < n -> j <> i -> pt j <> pt i -> oct (pt i) (pt j) -> better (Some (dist (pt i) (pt j))) (f' i).
  Proof.
    intros Pp. pose proof (zlen_nonneg pts) as Hn. unfold mm_sweep. cbv zeta. destruct (Hs (mm_lt pts) p (mm_lt_sw pts)) as (P' & S'). set (p' := srt (mm_lt pts) p) in *. assert (Pn : Permutation p' (zrange n)) by (etransitivity; eauto).
    assert (Ecx : for_ 0 n (fun i c => let* pt := vget pts i in vset c i (fst pt)) (vrep n 0) = Ok (vec n (fun i => fst (pt i)))).
    { rewrite vrep_vec by lia. match goal with |- for_ 0 n ?b ?s = _ => destruct (for_inv (fun i c => exists g, c = vec n g /\ forall j, 0 <= j < i -> g j = fst (pt j)) 0 n b s) as (c & E & g & -> & Hg) end; auto.
      - eexists. split; [reflexivity|]. intros; lia.
      - intros i c Hi (g & -> & Hg). rewrite (vget_nth (0, 0)) by lia. cbn [bind]. rewrite vset_vec by lia. eexists. split; [reflexivity|]. eexists. split; [reflexivity|]. intros j Hj. unfold fput. destruct (Z.eqb_spec j i) as [->|]; auto. apply Hg. lia.
      - rewrite E. f_equal. apply vec_ext. auto. }
    rewrite Ecx. cbn [bind]. set (xs := vec n (fun i => fst (pt i))). set (c := unique (isort Z.leb xs)).
    assert (Sc : incr c). { destruct (build_ok xs) as (c' & E & I1 & _). unfold build, compressor in E. fold c in E. destruct (is_strictly_sorted c); [|discriminate]. cbn in E. now injection E as <-. }
    assert (Hc : forall x, In x c <-> In x xs). { destruct (build_ok xs) as (c' & E & _ & I2). unfold build, compressor in E. fold c in E. destruct (is_strictly_sorted c); [|discriminate]. cbn in E. now injection E as <-. }
    assert (Lb : forall i, 0 <= i < n -> vget c (lower_bound c (fst (pt i))) = Ok (fst (pt i))).
    { intros i Hi. assert (I : In (fst (pt i)) c). { apply Hc. apply (vget_In _ i). unfold xs. now rewrite vget_vec. } apply In_vget in I as (k & Hk & Ek). now rewrite (lower_of_elem xs c Sc Hc k _ Ek). }
    assert (Lm : forall i j, 0 <= i < n -> 0 <= j < n -> (lower_bound c (fst (pt j)) <= lower_bound c (fst (pt i)) <-> fst (pt j) <= fst (pt i))).
    { intros i j Hi Hj. pose proof (Lb i Hi) as Ei. pose proof (Lb j Hj) as Ej. destruct (Z.lt_trichotomy (lower_bound c (fst (pt j))) (lower_bound c (fst (pt i)))) as [L|[L|L]].
      - pose proof (incr_get _ _ _ _ _ Sc Ej Ei L). lia.
      - rewrite L in Ej. rewrite Ei in Ej. injection Ej as Ej. lia.
      - pose proof (incr_get _ _ _ _ _ Sc Ei Ej L). lia. }
    set (cx := fun i => lower_bound c (fst (pt i))) in *.
    match goal with |- context [for_each p' ?b ?s] => destruct (for_each_inv (fun dn st => exists pmq M g, st = (pmq, vec n g) /\ PI omax None pmq M /\ zlen M = zlen c /\
        (forall k w, vget M k = Ok (Some w) -> exists j, In j dn /\ cx j = k /\ w = sum (pt j)) /\
        (forall j, In j dn -> exists w, vget M (cx j) = Ok (Some w) /\ sum (pt j) <= w) /\
        forall i, 0 <= i < n -> (~ In i dn -> g i = f i) /\ better (f i) (g i) /\ (g i = f i \/ exists j, 0 <= j < n /\ j <> i /\ g i = Some (dist (pt i) (pt j))) /\
          (In i dn -> forall j, 0 <= j < n -> j <> i -> pt j <> pt i -> oct (pt i) (pt j) -> better (Some (dist (pt i) (pt j))) (g i))) p' b s) as (st & E & pmq & M & g & -> & _ & _ & _ & _ & Hg) end.
    - exists (fpre_init None (zlen c)), (vrep (zlen c) None), f. split; auto. split; [apply fpre_init_ok; auto using omax_mon, omax_comm; apply zlen_nonneg|]. split; [rewrite zlen_vrep; pose proof (zlen_nonneg c); lia|]. split; [|split; [intros j []|]].
      + intros k w E. apply vget_In in E. unfold vrep in E. now apply repeat_spec in E.
      + intros i Hi. split; auto. split; [apply better_refl|]. split; auto. intros [].
    - intros dn i todo st Eq (pmq & M & g & -> & Hpi & LM & M1 & M2 & Hg).
      assert (Rp : forall x, In x p' <-> 0 <= x < n) by (intros x; rewrite <- In_zrange; split; [apply (Permutation_in x Pn)|apply (Permutation_in x (Permutation_sym Pn))]).
      assert (Np : NoDup p'). { apply (Permutation_NoDup (Permutation_sym Pn)). unfold zrange. apply FinFun.Injective_map_NoDup; [intros a b; lia|apply seq_NoDup]. }
      assert (Hi : 0 <= i < n) by (apply Rp; rewrite Eq; apply in_app_iff; right; now left).
      assert (Nd : ~ In i dn) by (rewrite Eq in Np; apply NoDup_remove_2 in Np; intros X; apply Np, in_app_iff; auto).
      assert (Rd : forall j, In j dn -> 0 <= j < n) by (intros j Ij; apply Rp; rewrite Eq; apply in_app_iff; auto).
      rewrite (vget_nth (0, 0)) by lia. cbn [bind]. destruct (pt i) as (x & y) eqn:Epi.
      assert (Ecxi : lower_bound c x = cx i) by (unfold cx; now rewrite Epi). rewrite Ecxi. pose proof (vget_range _ _ _ (Lb i Hi)) as Bc. fold (cx i) in Bc.
      pose proof (pstep_sim omax None omax_mon omax_comm pmq M (PQuery (cx i + 1)) Hpi) as Q. cbn [pspec pstep] in Q. rewrite LM in Q. replace (_ && _) with true in Q by (symmetry; lia). destruct Q as (s' & Q & _). destruct (fpre_query omax None pmq (cx i + 1)) as [v| | |]; try discriminate. cbn [bind] in Q. injection Q as -> _. cbn [bind].
      destruct (fold_omax (slice 0 (cx i + 1) M)) as (F1 & F2).
      assert (Upd : exists g', (match fold_right omax None (slice 0 (cx i + 1) M) with None => Ok (vec n g) | Some v => let* ri := vget (vec n g) i in vset (vec n g) i (omin ri (x + y - v)) end) = Ok (vec n g') /\ (forall k, k <> i -> g' k = g k) /\ better (f i) (g' i) /\ (g' i = f i \/ exists j, 0 <= j < n /\ j <> i /\ g' i = Some (dist (x, y) (pt j))) /\
          forall j, 0 <= j < n -> j <> i -> pt j <> (x, y) -> oct (x, y) (pt j) -> better (Some (dist (x, y) (pt j))) (g' i)).
      { destruct (Hg i Hi) as (G1 & G2 & G3 & _). specialize (G1 Nd).
        assert (Oct : forall j, In j dn -> fst (pt j) <= x -> oct (x, y) (pt j)).
        { intros j Ij Lx. assert (Sj : mm_lt pts i j = false). { clear - S' Eq Ij. rewrite Eq in S'. clear Eq. induction dn as [|z dn IH]; [destruct Ij|]. cbn [app] in S'. apply StronglySorted_inv in S' as (S1 & S2). destruct Ij as [->|Ij]; auto. rewrite Forall_forall in S2. apply S2, in_app_iff. right. now left. }
          unfold mm_lt in Sj. rewrite Epi in Sj. destruct (pt j) as (xj & yj). cbn in *. unfold oct. cbn. destruct (Z.eqb_spec (y - x) (yj - xj)); [lia|]. apply Z.ltb_ge in Sj. lia. }
        assert (Cov : forall j, 0 <= j < n -> j <> i -> pt j <> (x, y) -> oct (x, y) (pt j) -> In j dn).
        { intros j Hj D N O. assert (Ij : In j p') by now apply Rp. rewrite Eq in Ij. apply in_app_iff in Ij as [Ij|[Ij|Ij]]; auto; [congruence|]. exfalso.
          assert (Sj : mm_lt pts j i = false). { clear - S' Eq Ij. rewrite Eq in S'. clear Eq. induction dn as [|z dn IH]; cbn [app] in S'; apply StronglySorted_inv in S' as (S1 & S2); auto. rewrite Forall_forall in S2. auto. }
          unfold mm_lt in Sj. rewrite Epi in Sj. destruct (pt j) as (xj & yj). unfold oct in O. cbn in *. destruct (Z.eqb_spec (yj - xj) (y - x)) as [Ey|Ey]; apply Z.ltb_ge in Sj; [|lia]. apply N. f_equal; lia. }
        destruct (fold_right omax None (slice 0 (cx i + 1) M)) as [v|] eqn:Ev.
        - rewrite vget_vec by lia. cbn [bind]. rewrite vset_vec by lia. eexists. split; [reflexivity|]. split; [intros k Dk; now apply fput_diff|]. rewrite fput_same.
          specialize (F2 v eq_refl). apply In_slice0 in F2 as (k & Hk & Ek); [|lia]. apply M1 in Ek as (j & Ij & Ekj & ->). specialize (Rd j Ij).
          assert (Lx : fst (pt j) <= x). { pose proof (proj1 (Lm i j Hi Rd)) as K. fold (cx i) (cx j) in K. rewrite Epi in K. cbn [fst] in K. apply K. lia. }
          pose proof (Oct j Ij Lx) as Oj. pose proof (oct_dist _ _ Oj) as Dj. change (sum (x, y)) with (x + y) in Dj.
          assert (Dji : j <> i) by (intros ->; contradiction).
          split; [|split].
          + rewrite G1. destruct (f i) as [d|]; cbn; auto. eexists. split; auto. lia.
          + rewrite G1. destruct (f i) as [d|]; cbn [omin].
            * destruct (Z.min_spec d (x + y - sum (pt j))) as [(_ & ->)|(_ & ->)]; auto. right. exists j. rewrite Dj. auto.
            * right. exists j. rewrite Dj. auto.
          + intros j' Hj' Dj' Nj' Oj'. pose proof (Cov j' Hj' Dj' Nj' Oj') as Ij'. destruct (M2 j' Ij') as (w & Ew & Lw). assert (I' : In (Some w) (slice 0 (cx i + 1) M)).
            { apply In_slice0; [lia|]. exists (cx j'). split; auto. pose proof (vget_range _ _ _ Ew). pose proof (proj2 (Lm i j' Hi Hj')) as K. fold (cx i) (cx j') in K. rewrite Epi in K. cbn [fst] in K. unfold oct in Oj'. cbn [fst] in Oj'. specialize (K ltac:(lia)). lia. }
            apply F1 in I' as (w' & Ew' & Lw'). injection Ew' as <-. rewrite (oct_dist _ _ Oj'). change (sum (x, y)) with (x + y). destruct (g i) as [d|]; cbn; eexists; split; auto; lia.
        - exists g. split; auto. split; auto. split; auto. split; auto. intros j' Hj' Dj' Nj' Oj'. exfalso. pose proof (Cov j' Hj' Dj' Nj' Oj') as Ij'. destruct (M2 j' Ij') as (w & Ew & Lw).
          destruct (F1 w) as (w' & Ew' & _); [|discriminate]. apply In_slice0; [lia|]. exists (cx j'). split; auto. pose proof (vget_range _ _ _ Ew). pose proof (proj2 (Lm i j' Hi Hj')) as K. fold (cx i) (cx j') in K. rewrite Epi in K. cbn [fst] in K. unfold oct in Oj'. cbn [fst] in Oj'. specialize (K ltac:(lia)). lia. }
      destruct Upd as (g' & Eg & U1 & U2 & U3 & U4). cbv beta in Eg. rewrite Eg. cbn [bind].
      pose proof (pstep_sim omax None omax_mon omax_comm pmq M (PApply (cx i) (Some (x + y))) Hpi) as Q. cbn [pspec pstep] in Q. destruct (vget_Ok M (cx i) ltac:(lia)) as (o & Eo). rewrite Eo in Q. cbn [bind] in Q. destruct Q as (s2 & Q & Hpi2). destruct (fpre_apply omax pmq (cx i) (Some (x + y))) as [pmq2| | |]; try discriminate. cbn [bind] in Q. injection Q as <-. cbn [bind].
      eexists. split; [reflexivity|]. exists pmq2, (zupd M (cx i) (omax o (Some (x + y)))), g'. split; auto. split; auto. split; [now rewrite zlen_zupd|]. split; [|split].
      + intros k w Ek. destruct (Z.eq_dec k (cx i)) as [->|Dk].
        * rewrite vget_zupd_same in Ek by lia. injection Ek as Ek. destruct o as [o|]; cbn in Ek; injection Ek as Ek.
          -- destruct (Z.max_spec o (x + y)) as [(_ & Mx)|(_ & Mx)]; rewrite Mx in Ek; subst w.
             ++ exists i. split; [apply in_app_iff; right; now left|]. rewrite Epi. auto.
             ++ destruct (M1 _ _ Eo) as (j & Ij & Ej & Es). exists j. split; auto. apply in_app_iff. auto.
          -- subst w. exists i. split; [apply in_app_iff; right; now left|]. rewrite Epi. auto.
        * rewrite vget_zupd_diff in Ek by (pose proof (vget_range _ _ _ Ek); rewrite ?zlen_zupd in *; lia). destruct (M1 _ _ Ek) as (j & Ij & Ej & Es). exists j. split; auto. apply in_app_iff. auto.
      + intros j Ij. apply in_app_iff in Ij as [Ij|[<-|[]]].
        * destruct (M2 j Ij) as (w & Ew & Lw). destruct (Z.eq_dec (cx j) (cx i)) as [Ec|Dc].
          -- rewrite Ec in *. rewrite vget_zupd_same by lia. rewrite Eo in Ew. injection Ew as ->. cbn. eexists. split; auto. lia.
          -- rewrite vget_zupd_diff by (pose proof (vget_range _ _ _ Ew); lia). eauto.
        * rewrite vget_zupd_same by lia. rewrite Epi. unfold sum. cbn [fst snd]. destruct o as [o|]; cbn; eexists; split; auto; lia.
      + intros k Hk. destruct (Z.eq_dec k i) as [->|Dk].
        * rewrite Epi. split; [intros N; elim N; apply in_app_iff; right; now left|]. auto.
        * rewrite U1 by auto. destruct (Hg k Hk) as (G1 & G2 & G3 & G4). split; [intros N; apply G1; intros X; apply N, in_app_iff; auto|]. split; auto. split; auto. intros Ik. apply in_app_iff in Ik as [Ik|[Ik|[]]]; auto. congruence.
    - match type of E with ?l = _ => match goal with |- context [bind ?m _] => change m with l end end. rewrite E. cbn [bind snd]. exists p', g. split; auto. split; auto. intros i Hi. destruct (Hg i Hi) as (_ & G2 & G3 & G4). split; auto. split; auto. apply G4. apply (Permutation_in i (Permutation_sym Pn)). now apply In_zrange.
  Qed.
End Sweep.
Lemma for_2 {S} (b : Z -> S -> res S) s : for_ 0 2 b s = let* t := b 0 s in b 1 t.
Proof. unfold for_. change (Z.to_nat (2 - 0)) with 2%nat. cbn [for_up]. destruct (b 0 s) as [t| | |]; cbn [bind]; auto. change (0 + 1) with 1. destruct (b 1 t); reflexivity. Qed.
Lemma nth_map_pt (t : Z * Z -> Z * Z) pts i : 0 <= i < zlen pts -> nth (Z.to_nat i) (map t pts) (0, 0) = t (nth (Z.to_nat i) pts (0, 0)).
Proof. intros H. rewrite (nth_indep _ (0, 0) (t (0, 0))) by (rewrite map_length; unfold zlen in H; lia). apply map_nth. Qed.
Definition iso (t : Z * Z -> Z * Z) : Prop := forall a b, dist (t a) (t b) = dist a b.
Lemma dist_0 a b : dist a b = 0 <-> a = b.
Proof. unfold dist. destruct a, b. cbn. split; [intros; f_equal; lia|intros E; injection E as -> ->; lia]. Qed.
Section Main.
  Variable srt : (Z -> Z -> bool) -> list Z -> list Z.
  Hypothesis Hs : is_sort srt.
  Variable pts : list (Z * Z).
  Hypothesis Nd : NoDup pts.
  Notation n := (zlen pts).
  Notation pt i := (nth (Z.to_nat i) pts (0, 0)).
  Definition Inv (ts : list (Z * Z -> Z * Z)) (g : Z -> option Z) : Prop := forall i, 0 <= i < n ->
    (g i = None \/ exists j, 0 <= j < n /\ j <> i /\ g i = Some (dist (pt i) (pt j))) /\
    forall t j, In t ts -> 0 <= j < n -> j <> i -> oct (t (pt i)) (t (pt j)) -> better (Some (dist (pt i) (pt j))) (g i).
  Lemma step_ok t ts p g : iso t -> Permutation p (zrange n) -> Inv ts g ->
    exists p' g', mm_sweep srt (map t pts) p (vec n g) = Ok (p', vec n g') /\ Permutation p' (zrange n) /\ Inv (t :: ts) g'.
  Proof.
    intros It Pp Ig. destruct (sweep_ok srt Hs (map t pts) p g) as (p' & g' & E & P' & H); [now rewrite zlen_map|]. rewrite zlen_map in *. exists p', g'. split; auto. split; auto. intros i Hi. destruct (H i Hi) as (H1 & H2 & H3). destruct (Ig i Hi) as (I1 & I2). split.
    - destruct H2 as [->|(j & Hj & D & ->)]; auto. right. exists j. split; auto. split; auto. rewrite !nth_map_pt by auto. now rewrite It.
    - intros t' j [<-|It'] Hj D O.
      + specialize (H3 j Hj D). rewrite !nth_map_pt in H3 by auto. rewrite It in H3. apply H3; auto. intros Eq. apply (f_equal (fun a => dist a (t (pt i)))) in Eq. rewrite It in Eq. rewrite (proj2 (dist_0 (t (pt i)) _) eq_refl) in Eq. apply dist_0 in Eq. apply D. apply Z2Nat.inj; try lia. revert Eq. apply NoDup_nth; auto; unfold zlen in *; lia.
      + apply better_trans with (g i); auto. eapply I2; eauto.
  Qed.
  Lemma mmd_ok : exists r, manhattan_minimum_distances srt pts = Ok r /\ zlen r = n /\ forall i o, vget r i = Ok o -> nearest pts i o.
  Proof.
    pose proof (zlen_nonneg pts) as Hn. unfold manhattan_minimum_distances. cbv zeta. rewrite vrep_vec by lia.
    assert (I0 : Inv [] (fun _ => None)) by (intros i Hi; split; auto; intros t j []). pose proof (Permutation_refl (zrange n)) as P0.
    replace (pts, zrange n, vec n (fun _ : Z => @None Z)) with (map (fun a => a) pts, zrange n, vec n (fun _ : Z => @None Z)) by now rewrite map_id.
    repeat (rewrite ?for_2; cbn [bind]; rewrite ?map_map;
      match goal with |- context [mm_sweep srt (map ?t pts) ?p (vec n ?g)] =>
        match goal with I0 : Inv ?ts g, P0 : Permutation p _ |- _ =>
          let p' := fresh "p" in let g' := fresh "g" in let E := fresh "E" in let P' := fresh "P" in let I' := fresh "I" in
          destruct (step_ok t ts p g) as (p' & g' & E & P' & I'); [intros a b; unfold dist, swap_xy, neg_x, neg_y; cbn [fst snd]; lia|exact P0|exact I0|]; rewrite E; cbn [bind fst snd]; clear E P0 I0 end end).
    match goal with |- context [Ok (vec n ?g)] => exists (vec n g); set (gg := g) in * end. split; auto. split; [rewrite zlen_vec; lia|]. intros i o Eo. pose proof (vget_range _ _ _ Eo) as Hi. rewrite zlen_vec in Hi by lia. rewrite vget_vec in Eo by lia. injection Eo as <-.
    match goal with I : Inv _ gg |- _ => destruct (I i Hi) as (S & C) end.
    assert (Cov : forall j, 0 <= j < n -> j <> i -> better (Some (dist (pt i) (pt j))) (gg i)).
    { intros j Hj D. generalize (C _ j (or_introl eq_refl) Hj D), (C _ j (or_intror (or_introl eq_refl)) Hj D), (C _ j (or_intror (or_intror (or_introl eq_refl))) Hj D), (C _ j (or_intror (or_intror (or_intror (or_introl eq_refl)))) Hj D), (C _ j (or_intror (or_intror (or_intror (or_intror (or_introl eq_refl))))) Hj D), (C _ j (or_intror (or_intror (or_intror (or_intror (or_intror (or_introl eq_refl)))))) Hj D), (C _ j (or_intror (or_intror (or_intror (or_intror (or_intror (or_intror (or_introl eq_refl))))))) Hj D), (C _ j (or_intror (or_intror (or_intror (or_intror (or_intror (or_intror (or_intror (or_introl eq_refl)))))))) Hj D).
      unfold oct, swap_xy, neg_x, neg_y. cbn [fst snd]. generalize (better (Some (dist (pt i) (pt j))) (gg i)). intros B. destruct (pt i) as (x & y), (pt j) as (x' & y'). cbn [fst snd].
      destruct (Z.le_ge_cases x x'), (Z.le_ge_cases y y'), (Z.le_ge_cases (Z.abs (x - x')) (Z.abs (y - y'))); intros K1 K2 K3 K4 K5 K6 K7 K8; first [apply K1; lia|apply K2; lia|apply K3; lia|apply K4; lia|apply K5; lia|apply K6; lia|apply K7; lia|apply K8; lia]. }
    destruct (gg i) as [d|] eqn:Eg.
    - intros q Eq. rewrite (vget_nth (0, 0)) in Eq by lia. injection Eq as <-. split.
      + destruct S as [|(j & Hj & D & Ed)]; [discriminate|]. injection Ed as ->. exists j, (pt j). split; auto. split; auto. apply vget_nth. lia.
      + intros j q D Ej. pose proof (vget_range _ _ _ Ej) as Hj. rewrite (vget_nth (0, 0)) in Ej by lia. injection Ej as <-. destruct (Cov j Hj D) as (d' & Ed' & L). injection Ed' as <-. exact L.
    - intros j Hj. destruct (Z.eq_dec j i) as [|D]; auto. destruct (Cov j Hj D) as (d' & Ed' & _). discriminate.
  Qed.
End Main.
Definition stable_sort (lt : Z -> Z -> bool) (l : list Z) : list Z := isort (fun x y => negb (lt y x)) l.
Lemma stable_sort_ok : is_sort stable_sort.
Proof.
  intros lt l (Ir & Tr & Nt). unfold stable_sort. split; [apply isort_perm|]. eapply StronglySorted_impl; [|apply isort_sorted].
  - intros x y H. now apply negb_true_iff.
  - intros x y. rewrite !negb_true_iff. destruct (lt y x) eqn:E; auto. destruct (lt x y) eqn:F; auto. exfalso. pose proof (Tr _ _ _ F E) as K. rewrite Ir in K. discriminate.
  - intros x y z. rewrite !negb_true_iff. intros A B. eapply Nt; eauto.
Qed.
