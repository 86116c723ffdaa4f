From Verif Require Import Base BaseLemmas ListZ ListMore RingSum Hist Hist2 RangeSet_model RangeSet_spec Sieve_proof.
From Coq Require Import Sorted Permutation.

Lemma mem_In x s : mem x s = true <-> In x s.
Proof. unfold mem. rewrite existsb_exists. split; [intros (y & I & E); apply Z.eqb_eq in E; now subst|intro; exists x; split; auto; apply Z.eqb_refl]. Qed.
Lemma interval_in l r x : In x (interval l r) <-> l <= x <= r.
Proof. unfold interval. rewrite in_map_iff. split; [intros (i & <- & I); apply In_zrange in I; lia|intro; exists (x - l); split; [lia|apply In_zrange; lia]]. Qed.
Lemma interval_NoDup l r : NoDup (interval l r).
Proof. unfold interval. apply NumTheory.NoDup_map_inj'; [intros; lia|apply NoDup_zrange]. Qed.
Lemma zlen_interval l r : l <= r + 1 -> zlen (interval l r) = r - l + 1.
Proof. intro H. unfold interval. rewrite zlen_map, zlen_zrange by lia. reflexivity. Qed.
Lemma same_len {A} (l l' : list A) : NoDup l -> NoDup l' -> (forall x, In x l <-> In x l') -> zlen l = zlen l'.
Proof. intros N N' H. unfold zlen. f_equal. apply Permutation_length. now apply NoDup_Permutation. Qed.
Lemma filter_split_len {A} (f : A -> bool) l : zlen (filter f l) + zlen (filter (fun x => negb (f x)) l) = zlen l.
Proof. induction l as [|a l IH]; auto. cbn [filter]. rewrite zlen_cons. destruct (f a); cbn [negb]; rewrite zlen_cons; lia. Qed.

Lemma sorted_app_inv {A} (R : A -> A -> Prop) l1 l2 : StronglySorted R (l1 ++ l2) -> StronglySorted R l1 /\ StronglySorted R l2 /\ (forall a b, In a l1 -> In b l2 -> R a b).
Proof.
  induction l1 as [|x l1 IH]; cbn [app]; intro H; [split; [constructor|]; split; auto; contradiction|]. inversion H as [|? ? S F]; subst. destruct (IH S) as (A1 & A2 & A3). rewrite Forall_forall in F. split.
  - constructor; auto. rewrite Forall_forall. intros; apply F, in_app_iff; auto.
  - split; auto. intros a b [<-|Ia] Ib; auto. apply F, in_app_iff. auto.
Qed.
Lemma sorted_app {A} (R : A -> A -> Prop) l1 l2 : StronglySorted R l1 -> StronglySorted R l2 -> (forall a b, In a l1 -> In b l2 -> R a b) -> StronglySorted R (l1 ++ l2).
Proof.
  induction 1 as [|x l1 S IH F]; intros S2 H; auto. cbn [app]. constructor; [apply IH; auto; intros; apply H; auto; now right|].
  rewrite Forall_forall in *. intros y Hy. apply in_app_iff in Hy. destruct Hy; auto. apply H; auto. now left.
Qed.

Section P.
  Variable merge : bool.
  Definition mg : Z := if merge then 1 else 0.
  Lemma mg_range : 0 <= mg <= 1. Proof. unfold mg. destruct merge; lia. Qed.
  Definition before (a b : node) : Prop := snd a + mg < fst b.
  Definition valid (m : list node) : Prop := StronglySorted before m /\ (forall a, In a m -> fst a <= snd a).
  Definition total (m : list node) : Z := fold_right (fun a t => snd a - fst a + 1 + t) 0 m.
  Lemma total_app m m' : total (m ++ m') = total m + total m'.
  Proof. induction m as [|a m IH]; cbn [app total fold_right]; [reflexivity|]. fold (total (m ++ m')). fold (total m). lia. Qed.
  Lemma total_cons a m : total (a :: m) = snd a - fst a + 1 + total m. Proof. reflexivity. Qed.
  Lemma covered_app m m' x : covered (m ++ m') x <-> covered m x \/ covered m' x.
  Proof. unfold covered. split; [intros (l & r & I & H); apply in_app_iff in I; destruct I; [left|right]; eauto|intros [(l & r & I & H)|(l & r & I & H)]; exists l, r; rewrite in_app_iff; auto]. Qed.
  Lemma covered_cons a m x : covered (a :: m) x <-> fst a <= x <= snd a \/ covered m x.
  Proof. unfold covered. split; [intros (l & r & [->|I] & H); [now left|right; eauto]|intros [H|(l & r & I & H)]; [exists (fst a), (snd a); split; auto; left; destruct a; auto|exists l, r; split; auto; now right]]. Qed.
  Lemma covered_nil x : ~ covered [] x. Proof. intros (l & r & [] & _). Qed.
  Lemma valid_app_inv m m' : valid (m ++ m') -> valid m /\ valid m' /\ (forall a b, In a m -> In b m' -> before a b).
  Proof. intros (S & F). apply sorted_app_inv in S. destruct S as (S1 & S2 & S3). split; [split; auto; intros; apply F, in_app_iff; auto|]. split; auto. split; auto. intros; apply F, in_app_iff; auto. Qed.
  Lemma valid_app m m' : valid m -> valid m' -> (forall a b, In a m -> In b m' -> before a b) -> valid (m ++ m').
  Proof. intros (S & F) (S' & F') H. split; [now apply sorted_app|]. intros a I. apply in_app_iff in I. destruct I; auto. Qed.
  Lemma valid_one l r : l <= r -> valid [(l, r)].
  Proof. intro H. split; [constructor; constructor|]. intros a [<-|[]]. exact H. Qed.
  (* the number of covered integers *)
  Lemma expand m : valid m -> NoDup (flat_map (fun a => interval (fst a) (snd a)) m) /\ (forall x, In x (flat_map (fun a => interval (fst a) (snd a)) m) <-> covered m x) /\ zlen (flat_map (fun a => interval (fst a) (snd a)) m) = total m.
  Proof.
    induction m as [|a m IH]; intro V; [split; [constructor|]; split; [intro x; split; [contradiction|intro C; destruct (covered_nil x C)]|reflexivity]|].
    change (a :: m) with ([a] ++ m) in V. apply valid_app_inv in V. destruct V as (Va & Vm & B). destruct (IH Vm) as (N & I & T). pose proof mg_range. pose proof (proj2 Va a (or_introl eq_refl)) as La. cbn [flat_map]. split; [|split].
    - apply NoDup_app; auto using interval_NoDup. intros x I1 I2. apply interval_in in I1. apply I in I2. destruct I2 as (l & r & J & K). specialize (B a (l, r) (or_introl eq_refl) J). unfold before in B. cbn [fst] in B. lia.
    - intro x. rewrite in_app_iff, interval_in, covered_cons, I. reflexivity.
    - rewrite zlen_app, T, zlen_interval, total_cons by lia. lia.
  Qed.
  Lemma count m s : valid m -> NoDup s -> (forall x, In x s <-> covered m x) -> zlen s = total m.
  Proof. intros V N H. destruct (expand m V) as (N' & I & T). rewrite <- T. apply same_len; auto. intro x. now rewrite H, I. Qed.

  Lemma ub_ok x : forall m p q, upper_bound x m = (p, q) -> valid m -> m = p ++ q /\ (forall a, In a p -> fst a <= x) /\ (forall a, In a q -> x < fst a).
  Proof.
    induction m as [|a m IH]; intros p q E V; cbn [upper_bound] in E.
    - injection E as <- <-. repeat split; contradiction.
    - destruct (Z.ltb_spec x (fst a)) as [L|L].
      + injection E as <- <-. split; auto. split; [contradiction|]. intros b [<-|I]; auto. change (a :: m) with ([a] ++ m) in V. apply valid_app_inv in V. destruct V as (Va & _ & B).
        specialize (B a b (or_introl eq_refl) I). unfold before in B. pose proof mg_range. pose proof (proj2 Va a (or_introl eq_refl)). lia.
      + destruct (upper_bound x m) as (p', q') eqn:E'. injection E as <- <-. change (a :: m) with ([a] ++ m) in V. apply valid_app_inv in V. destruct V as (_ & V & _). destruct (IH p' q' eq_refl V) as (-> & A & B). split; auto. split; auto.
        intros b [<-|I]; auto.
  Qed.
  Lemma prev_ok p : match prev p with None => p = [] | Some (p', a) => p = p' ++ [a] end.
  Proof. unfold prev. destruct (rev p) as [|a r] eqn:E; [rewrite <- (rev_involutive p), E; reflexivity|]. rewrite <- (rev_involutive p), E. reflexivity. Qed.
  Lemma mset_ok k v : forall p q, (forall a, In a p -> fst a < k) -> (forall a, In a q -> k < fst a) -> mset k v (p ++ q) = p ++ (k, v) :: q.
  Proof.
    induction p as [|a p IH]; intros q Hp Hq; cbn [app].
    - destruct q as [|b q]; auto. cbn [mset]. specialize (Hq b (or_introl eq_refl)). now rewrite (proj2 (Z.ltb_lt _ _) Hq).
    - cbn [mset]. pose proof (Hp a (or_introl eq_refl)). rewrite (proj2 (Z.ltb_ge k (fst a))), (proj2 (Z.eqb_neq k (fst a))) by lia. f_equal. apply IH; auto. intros; apply Hp; now right.
  Qed.
  (* the range that may contain x *)
  Lemma find_ok m x : valid m -> match (match prev (fst (upper_bound x m)) with Some (_, a) => if x <=? snd a then Some a else None | None => None end) with
    | Some a => In a m /\ fst a <= x <= snd a | None => ~ covered m x end.
  Proof.
    intro V. destruct (upper_bound x m) as (p, q) eqn:E. cbn [fst]. destruct (ub_ok x m p q E V) as (-> & A & B). pose proof (prev_ok p) as P. pose proof mg_range.
    assert (Q : ~ covered q x) by (intros (l & r & I & H1); specialize (B _ I); cbn [fst] in B; lia).
    destruct (prev p) as [(p', a)|]; subst p.
    - apply valid_app_inv in V. destruct V as (V & _ & _). apply valid_app_inv in V. destruct V as (V' & Va & B').
      destruct (Z.leb_spec x (snd a)).
      + split; [rewrite !in_app_iff; left; right; now left|]. split; auto. apply A. rewrite in_app_iff. right; now left.
      + rewrite !covered_app, covered_cons. intros [[(l & r & I & K)|[K|K]]|K]; auto; [|lia|destruct (covered_nil x K)].
        specialize (B' (l, r) a I (or_introl eq_refl)). unfold before in B'. cbn [snd] in B'. specialize (A a ltac:(rewrite in_app_iff; right; now left)). lia.
    - exact Q.
  Qed.
  Lemma contains_find s x : rs_contains s x = match rs_find_range s x with Some _ => true | None => false end.
  Proof. unfold rs_contains, rs_find_range. destruct (prev _) as [(p, a)|]; auto. now destruct (x <=? snd a). Qed.

  Lemma absorb_ok : forall q l r ins q' r' ins', l <= r -> valid q -> (forall a, In a q -> l <= fst a) -> absorb merge q r ins = (q', r', ins') ->
    exists ab, q = ab ++ q' /\ ins' = ins - total ab /\ r <= r' /\ (forall a, In a q' -> r' + mg < fst a) /\ (forall x, l <= x <= r' <-> (l <= x <= r \/ covered ab x)).
  Proof.
    induction q as [|(cl, cr) q IH]; intros l r ins q' r' ins' L V H E; cbn [absorb] in E.
    - injection E as <- <- <-. exists []. split; auto. split; [cbn; lia|]. split; [lia|]. split; [contradiction|]. intro x. pose proof (covered_nil x). tauto.
    - change ((cl, cr) :: q) with ([(cl, cr)] ++ q) in V. apply valid_app_inv in V. destruct V as (Va & Vq & B). pose proof mg_range as MG. pose proof (proj2 Va _ (or_introl eq_refl)) as La. cbn [fst snd] in La.
      unfold is_mergeable in E. fold mg in E. destruct (Z.leb_spec cl (r + mg)) as [M|M].
      + destruct (IH l (Z.max r cr) _ _ _ _ ltac:(lia) Vq ltac:(intros; apply H; now right) E) as (ab & -> & -> & R & Q & C). exists ((cl, cr) :: ab). split; auto. split; [rewrite total_cons; cbn [fst snd]; lia|]. split; [lia|]. split; auto.
        intro x. rewrite C, covered_cons. cbn [fst snd]. specialize (H (cl, cr) (or_introl eq_refl)). cbn [fst] in H. split; [intros [K|K]; [|tauto]|intros [K|[K|K]]; [left; lia|left; lia|tauto]].
        destruct (Z.le_gt_cases x r); [left; lia|]. right. left. lia.
      + injection E as <- <- <-. exists []. split; auto. split; [cbn; lia|]. split; [lia|]. split.
        * intros a [<-|I]; [cbn [fst]; lia|]. specialize (B (cl, cr) a (or_introl eq_refl) I). unfold before in B. cbn [snd] in B. lia.
        * intro x. pose proof (covered_nil x). tauto.
  Qed.
  Lemma insert_ok s l r x s' : valid (rs_map s) -> l <= r -> rs_insert merge s l r = (x, s') ->
    valid (rs_map s') /\ (forall y, covered (rs_map s') y <-> l <= y <= r \/ covered (rs_map s) y) /\ x = total (rs_map s') - total (rs_map s) /\ rs_size s' = rs_size s + x.
  Proof.
    intros V L E. unfold rs_insert in E. rewrite (proj2 (Z.ltb_ge r l)) in E by lia. destruct (upper_bound l (rs_map s)) as (p, q) eqn:EU. destruct (ub_ok l _ p q EU V) as (Em & Hp & Hq). rewrite Em in *. clear EU. pose proof mg_range as MG.
    assert (G : forall p1 q1 l1, p ++ q = p1 ++ q1 -> l1 <= l -> (forall a, In a p1 -> snd a + mg < l1) -> (forall a, In a q1 -> l1 <= fst a) -> (l1 < l -> covered q1 l1) -> (forall y, l1 <= y < l -> covered q1 y) ->
      (let '(q0, r0, inserted) := absorb merge q1 r 0 in let inserted := inserted + (r0 - l1 + 1) in (inserted, mkR (mset l1 r0 (p1 ++ q0)) (rs_size s + inserted))) = (x, s') ->
      valid (rs_map s') /\ (forall y, covered (rs_map s') y <-> l <= y <= r \/ covered (p ++ q) y) /\ x = total (rs_map s') - total (p ++ q) /\ rs_size s' = rs_size s + x).
    { intros p1 q1 l1 Epq Hl Hp1 Hq1 _ Hc E1. rewrite Epq in *. apply valid_app_inv in V. destruct V as (V1 & V2 & B). destruct (absorb merge q1 r 0) as ((q0, r0), ins) eqn:EA.
      destruct (absorb_ok q1 l1 r 0 q0 r0 ins ltac:(lia) V2 Hq1 EA) as (ab & -> & -> & R & Q & C). apply valid_app_inv in V2. destruct V2 as (Vab & Vq0 & B0).
      cbn zeta in E1. injection E1 as <- <-. cbn [rs_map rs_size].
      rewrite mset_ok; [|intros a I; specialize (Hp1 a I); pose proof (proj2 V1 a I); lia|intros a I; specialize (Q a I); lia].
      split; [|split; [|split; [|lia]]].
      - apply valid_app; auto.
        + change ((l1, r0) :: q0) with ([(l1, r0)] ++ q0). apply valid_app; auto; [apply valid_one; lia|]. intros a b [<-|[]] I. unfold before. cbn [snd]. auto.
        + intros a b I [<-|J]; unfold before; cbn [fst]; auto. apply B; auto. apply in_app_iff; auto.
      - intro y. rewrite !covered_app, covered_cons. cbn [fst snd]. rewrite C. split; [intros [K|[[K|K]|K]]|intros [K|[K|[K|K]]]]; try tauto.
        + destruct (Z.lt_ge_cases y l); [|left; lia]. right. right. rewrite <- covered_app. apply Hc. lia.
        + right. left. left. lia.
      - rewrite !total_app, total_cons. cbn [fst snd]. lia. }
    pose proof (prev_ok p) as P. destruct (prev p) as [(p', a)|].
    - unfold is_mergeable in E. fold mg in E. subst p. assert (Ha : fst a <= l) by (apply Hp; rewrite in_app_iff; right; now left).
      rewrite <- app_assoc in *. cbn [app] in *. pose proof V as V0. apply valid_app_inv in V0. destruct V0 as (V1 & V2 & B). change (a :: q) with ([a] ++ q) in V2. apply valid_app_inv in V2. destruct V2 as (Va & Vq & B2).
      pose proof (proj2 Va a (or_introl eq_refl)) as La.
      destruct (Z.leb_spec l (snd a + mg)) as [M|M].
      + rewrite Z.min_r in E by lia. apply (G p' (a :: q) (fst a)); auto.
        * intros b I. apply B; auto. now left.
        * intros b [<-|I]; [lia|]. specialize (Hq b I). lia.
        * intros. rewrite covered_cons. left. lia.
        * intros y Hy. rewrite covered_cons. left. lia.
      + apply (G (p' ++ [a]) q l); auto; try lia.
        * now rewrite <- app_assoc.
        * intros b I. apply in_app_iff in I. destruct I as [I|[<-|[]]]; [|lia]. specialize (B b a I (or_introl eq_refl)). unfold before in B. lia.
    - subst p. apply (G [] q l); auto; try lia; try contradiction; intros b I; specialize (Hq b I); lia.
  Qed.
  Lemma cut_ok r : forall q tr er q' tr' er', valid q -> cut q r tr er = (q', tr', er') ->
    exists ab, q = ab ++ q' /\ er' = er + total ab /\ (forall a, In a ab -> fst a <= r) /\ (forall a, In a q' -> r < fst a) /\
      (ab = [] -> tr' = tr) /\ (forall ab0 a, ab = ab0 ++ [a] -> tr' = snd a).
  Proof.
    induction q as [|(cl, cr) q IH]; intros tr er q' tr' er' V E; cbn [cut] in E.
    - injection E as <- <- <-. exists []. split; auto. split; [cbn; lia|]. split; [contradiction|]. split; [contradiction|]. split; auto. intros [|] ? X; discriminate.
    - change ((cl, cr) :: q) with ([(cl, cr)] ++ q) in V. apply valid_app_inv in V. destruct V as (Va & Vq & B). pose proof mg_range as MG. pose proof (proj2 Va _ (or_introl eq_refl)) as La. cbn [fst snd] in La.
      destruct (Z.leb_spec cl r) as [M|M].
      + destruct (IH _ _ _ _ _ Vq E) as (ab & -> & -> & A & Q & T0 & T1). exists ((cl, cr) :: ab). split; auto. split; [rewrite total_cons; cbn [fst snd]; lia|]. split; [intros a [<-|I]; auto|]. split; auto. split; [discriminate|].
        intros ab0 a X. destruct ab0 as [|b ab0]; cbn [app] in X.
        * injection X as <- ->. cbn [snd]. auto.
        * injection X as <- ->. eapply T1; eauto.
      + injection E as <- <- <-. exists []. split; auto. split; [cbn; lia|]. split; [contradiction|]. split; [|split; auto; intros [|] ? X; discriminate].
        intros a [<-|I]; [cbn [fst]; lia|]. specialize (B (cl, cr) a (or_introl eq_refl) I). unfold before in B. cbn [snd] in B. lia.
  Qed.
  Lemma erase_ok s l r x s' : valid (rs_map s) -> l <= r -> rs_erase s l r = (x, s') ->
    valid (rs_map s') /\ (forall y, covered (rs_map s') y <-> covered (rs_map s) y /\ ~ l <= y <= r) /\ x = total (rs_map s) - total (rs_map s') /\ rs_size s' = rs_size s - x.
  Proof.
    intros V L E. unfold rs_erase in E. rewrite (proj2 (Z.ltb_ge r l)) in E by lia. destruct (upper_bound l (rs_map s)) as (p, q) eqn:EU. destruct (ub_ok l _ p q EU V) as (Em & Hp & Hq). rewrite Em in *. clear EU. pose proof mg_range as MG.
    assert (G : forall p1 q1 tl, p ++ q = p1 ++ q1 -> tl <= l -> (forall a, In a p1 -> snd a + mg < tl \/ snd a < l /\ tl = l) -> (tl < l -> exists a q2, q1 = a :: q2 /\ fst a = tl /\ l <= snd a /\ (forall b, In b q2 -> l < fst b)) -> (tl = l -> forall b, In b q1 -> l <= fst b) ->
      (let '(q0, tr, erased) := cut q1 r r 0 in let m := p1 ++ q0 in
       let '(m, erased) := if tl <? l then (mset tl (l - 1) m, erased - (l - tl)) else (m, erased) in
       let '(m, erased) := if r <? tr then (mset (r + 1) tr m, erased - (tr - r)) else (m, erased) in
       (erased, mkR m (rs_size s - erased))) = (x, s') ->
      valid (rs_map s') /\ (forall y, covered (rs_map s') y <-> covered (p ++ q) y /\ ~ l <= y <= r) /\ x = total (p ++ q) - total (rs_map s') /\ rs_size s' = rs_size s - x).
    { intros p1 q1 tl Epq Htl Hp1 Hlt Heq E1. rewrite Epq in *. clear Epq Hp Hq E. apply valid_app_inv in V. destruct V as (V1 & V2 & B). destruct (cut q1 r r 0) as ((q0, tr), er) eqn:EA.
      destruct (cut_ok r q1 r 0 q0 tr er V2 EA) as (ab & -> & -> & Ha & Q & T0 & T1). apply valid_app_inv in V2. destruct V2 as (Vab & Vq0 & B0).
      (* the pieces that stay *)
      set (left_ := if tl <? l then [(tl, l - 1)] else []). set (right_ := if r <? tr then [(r + 1, tr)] else []).
      assert (Vp : forall a, In a p1 -> snd a < l) by (intros a I; destruct (Hp1 a I); lia).
      assert (Hq0 : forall a, In a q0 -> r < tr -> tr + mg < fst a).
      { intros a I Hr. destruct ab as [|b ab _] using rev_ind; [rewrite T0 in Hr by auto; lia|]. rewrite (T1 ab b eq_refl). apply B0; auto. apply in_app_iff; right; now left. }
      assert (F1 : forall a, In a p1 -> fst a < l) by (intros a I; specialize (Vp a I); pose proof (proj2 V1 a I); lia).
      assert (EM : rs_map s' = (p1 ++ left_) ++ right_ ++ q0 /\ x = total ab - total left_ - total right_ /\ rs_size s' = rs_size s - x).
      { unfold left_, right_. cbn zeta in E1. destruct (Z.ltb_spec tl l) as [Lt|Lt]; cbn zeta in E1.
        - rewrite mset_ok in E1; [|intros a I; destruct (Hp1 a I); [pose proof (proj2 V1 a I)|]; lia|intros a I; specialize (Q a I); lia].
          destruct (Z.ltb_spec r tr) as [Rt|Rt]; injection E1 as <- <-; cbn [rs_map rs_size]; rewrite ?total_cons; cbn [total fold_right fst snd].
          + change (p1 ++ (tl, l - 1) :: q0) with (p1 ++ [(tl, l - 1)] ++ q0). rewrite app_assoc. rewrite mset_ok; [split; [reflexivity|lia]| |].
            * intros a I. apply in_app_iff in I. destruct I as [I|[<-|[]]]; [specialize (F1 a I); lia|cbn [fst]; lia].
            * intros a I. specialize (Hq0 a I Rt). lia.
          + rewrite <- app_assoc. cbn [app]. split; [reflexivity|lia].
        - destruct (Z.ltb_spec r tr) as [Rt|Rt]; injection E1 as <- <-; cbn [rs_map rs_size]; rewrite ?total_cons; cbn [total fold_right fst snd]; rewrite app_nil_r.
          + rewrite mset_ok; [split; [reflexivity|lia]| |].
            * intros a I. specialize (F1 a I). lia.
            * intros a I. specialize (Hq0 a I Rt). lia.
          + cbn [app]. split; [reflexivity|lia]. }
      destruct EM as (EM & Ex & Es). rewrite EM. split; [|split; [|split; auto]].
      - apply valid_app; [apply valid_app; auto| apply valid_app; auto|].
        + unfold left_. destruct (Z.ltb_spec tl l); [apply valid_one; lia|split; [constructor|contradiction]].
        + intros a b I J. unfold left_ in J. destruct (Z.ltb_spec tl l); [|contradiction]. destruct J as [<-|[]]. unfold before. cbn [fst]. destruct (Hp1 a I); lia.
        + unfold right_. destruct (Z.ltb_spec r tr); [apply valid_one; lia|split; [constructor|contradiction]].
        + intros a b I J. unfold right_ in I. destruct (Z.ltb_spec r tr); [|contradiction]. destruct I as [<-|[]]. unfold before. cbn [snd]. auto.
        + intros a b I J. assert (A : snd a < l). { apply in_app_iff in I. destruct I as [I|I]; auto. unfold left_ in I. destruct (tl <? l); [|contradiction]. destruct I as [<-|[]]. cbn [snd]. lia. }
          assert (A' : r < fst b). { apply in_app_iff in J. destruct J as [J|J]; auto. unfold right_ in J. destruct (r <? tr); [|contradiction]. destruct J as [<-|[]]. cbn [fst]. lia. }
          unfold before. lia.
      - intro y. rewrite !covered_app.
        assert (CL : covered left_ y <-> covered ab y /\ y < l).
        { unfold left_. destruct (Z.ltb_spec tl l) as [Lt|Lt].
          - destruct (Hlt Lt) as (a & q2 & Eq & Fa & Sa & Hb). destruct ab as [|a' ab']; cbn [app] in Eq.
            + exfalso. rewrite Eq in Q. specialize (Q a (or_introl eq_refl)). lia.
            + injection Eq as -> <-. rewrite !covered_cons. cbn [fst snd]. split.
              * intros [K|K]; [|destruct (covered_nil y K)]. split; [left; lia|lia].
              * intros ([K|K] & Ly); [left; lia|]. destruct K as (c & d & I & K). specialize (Hb (c, d) ltac:(apply in_app_iff; auto)). cbn [fst] in Hb. lia.
          - split; [intro K; destruct (covered_nil y K)|]. intros ((c & d & I & K) & Ly). specialize (Heq ltac:(lia) (c, d) ltac:(apply in_app_iff; auto)). cbn [fst] in Heq. lia. }
        assert (CR : covered right_ y <-> covered ab y /\ r < y).
        { unfold right_. destruct ab as [|b ab _] using rev_ind.
          - rewrite T0 by auto. rewrite Z.ltb_irrefl. split; [intro K; destruct (covered_nil y K)|intros (K & _); destruct (covered_nil y K)].
          - rewrite (T1 ab b eq_refl) in *. specialize (Ha b ltac:(apply in_app_iff; right; now left)). apply valid_app_inv in Vab. destruct Vab as (_ & Vb & Bb). pose proof (proj2 Vb b (or_introl eq_refl)) as Lb. rewrite covered_app, covered_cons.
            assert (NA : covered ab y -> y <= r). { intros (c & d & I & K). specialize (Bb (c, d) b I (or_introl eq_refl)). unfold before in Bb. cbn [snd] in Bb. lia. }
            destruct (Z.ltb_spec r (snd b)); [rewrite covered_cons; cbn [fst snd]|].
            + split; [intros [K|K]; [split; [right; left; lia|lia]|destruct (covered_nil y K)]|]. intros ([K|[K|K]] & R'); [specialize (NA K); lia|left; lia|destruct (covered_nil y K)].
            + split; [intro K; destruct (covered_nil y K)|]. intros ([K|[K|K]] & R'); [specialize (NA K); lia|lia|destruct (covered_nil y K)]. }
        rewrite CL, CR. assert (NP : covered p1 y -> y < l) by (intros (c & d & I & K); specialize (Vp _ I); cbn [snd] in Vp; lia). assert (NQ : covered q0 y -> r < y) by (intros (c & d & I & K); specialize (Q _ I); cbn [fst] in Q; lia).
        assert (y < l \/ r < y \/ l <= y <= r) by lia. split; [intros [[K|K]|[K|K]]; split; try tauto; try (specialize (NP K)); try (specialize (NQ K)); lia|]. intros ([K|[K|K]] & N); try tauto.
      - rewrite !total_app. lia. }
    pose proof (prev_ok p) as P. destruct (prev p) as [(p', a)|].
    - subst p. assert (Ha : fst a <= l) by (apply Hp; rewrite in_app_iff; right; now left).
      rewrite <- app_assoc in *. cbn [app] in *. pose proof V as V0. apply valid_app_inv in V0. destruct V0 as (V1 & V2 & B). change (a :: q) with ([a] ++ q) in V2. apply valid_app_inv in V2. destruct V2 as (Va & Vq & B2).
      pose proof (proj2 Va a (or_introl eq_refl)) as La.
      destruct (Z.leb_spec l (snd a)) as [M|M].
      + apply (G p' (a :: q) (fst a)); auto.
        * intros b I. left. apply B; auto. now left.
        * intros Lt. exists a, q. auto.
        * intros Et b [<-|I]; [lia|]. specialize (Hq b I). lia.
      + apply (G (p' ++ [a]) q l); auto; try lia.
        * now rewrite <- app_assoc.
        * intros b I. right. split; auto. apply in_app_iff in I. destruct I as [I|[<-|[]]]; [|lia]. specialize (B b a I (or_introl eq_refl)). unfold before in B. lia.
    - subst p. apply (G [] q l); auto; try lia; try contradiction; intros _ b I; specialize (Hq b I); lia.
  Qed.
  Definition Inv (t : rset) (s : list Z) : Prop := valid (rs_map t) /\ NoDup s /\ (forall x, In x s <-> covered (rs_map t) x) /\ rs_size t = zlen s.
  Lemma find_spec t s x : Inv t s -> match rs_find_range t x with Some a => In a (rs_map t) /\ fst a <= x <= snd a /\ mem x s = true | None => mem x s = false end.
  Proof.
    intros (V & N & C & _). pose proof (find_ok (rs_map t) x V) as F. unfold rs_find_range. destruct (match prev _ with Some _ => _ | None => _ end) as [a|].
    - destruct F as (I & H). split; auto. split; auto. apply mem_In, C. exists (fst a), (snd a). split; auto. now destruct a.
    - destruct (mem x s) eqn:E; auto. apply mem_In, C in E. contradiction.
  Qed.
  (* nearest integer outside *)
  Lemma nearest_ok dir x s d : (dir = 1 \/ dir = -1) -> NoDup s -> 0 <= d -> (forall i, 0 <= i < d -> In (x + dir * i) s) -> ~ In (x + dir * d) s -> nearest_out dir x s = x + dir * d.
  Proof.
    intros Hdir N Hd HI HO. unfold nearest_out.
    assert (LD : d <= zlen s). { assert (K : zlen (map (fun i => x + dir * i) (zrange d)) <= zlen s).
      { unfold zlen. apply inj_le. apply NoDup_incl_length; [apply NumTheory.NoDup_map_inj'; [intros; lia|apply NoDup_zrange]|]. intros y Hy. apply in_map_iff in Hy. destruct Hy as (i & <- & I). apply In_zrange in I. auto. }
      rewrite zlen_map, zlen_zrange in K by lia. exact K. }
    pose proof (find_first (fun i => negb (mem (x + dir * i) s)) (zrange (zlen s + 1)) ltac:(replace (zrange (zlen s + 1)) with (span 0 (zlen s + 1)) by (unfold span; rewrite Z.sub_0_r; apply map_id); apply span_sorted)) as F.
    destruct (find _ _) as [i|].
    - destruct F as (I & E & L). apply In_zrange in I. apply Bool.negb_true_iff in E. assert (~ i < d). { intro. assert (M : mem (x + dir * i) s = true) by (apply mem_In, HI; lia). congruence. }
      assert (i <= d). { apply L; [apply In_zrange; lia|]. apply Bool.negb_true_iff. destruct (mem (x + dir * d) s) eqn:M; auto. apply mem_In in M. contradiction. } now replace i with d by lia.
    - specialize (F d ltac:(apply In_zrange; lia)). apply Bool.negb_false_iff, mem_In in F. contradiction.
  Qed.
  Lemma seg_unique m a b x : valid m -> In a m -> In b m -> fst a <= x <= snd a + mg -> fst b <= x <= snd b -> a = b.
  Proof.
    intros (S & F) Ia Ib Ha Hb. pose proof mg_range. induction S as [|c m S IH Fc]; [contradiction|]. rewrite Forall_forall in Fc. assert (Fm : forall z, In z m -> fst z <= snd z) by (intros; apply F; now right).
    destruct Ia as [->|Ia], Ib as [->|Ib]; auto.
    - specialize (Fc b Ib). unfold before in Fc. lia.
    - specialize (Fc a Ia). unfold before in Fc. pose proof (F b (or_introl eq_refl)). lia.
  Qed.
  Lemma seg_around t s a x : merge = true -> Inv t s -> In a (rs_map t) -> fst a <= x <= snd a -> nearest_out 1 x s = snd a + 1 /\ nearest_out (-1) x s = fst a - 1.
  Proof.
    intros HM (V & N & C & _) I Hx. assert (MG : mg = 1) by (unfold mg; now rewrite HM). pose proof (proj2 V a I) as La.
    assert (In_ : forall y, fst a <= y <= snd a -> In y s) by (intros y Hy; apply C; exists (fst a), (snd a); split; auto; now destruct a).
    split.
    - rewrite (nearest_ok 1 x s (snd a + 1 - x)); auto; try lia.
      + intros i Hi. apply In_. lia.
      + intro J. apply C in J. destruct J as (l & r & J & K). pose proof (seg_unique _ a (l, r) (x + 1 * (snd a + 1 - x)) V I J ltac:(lia) ltac:(cbn [fst snd]; lia)) as E; subst a; cbn [fst snd] in *. lia.
    - rewrite (nearest_ok (-1) x s (x - (fst a - 1))); auto; try lia.
      + intros i Hi. apply In_. lia.
      + intro J. apply C in J. destruct J as (l & r & J & K). pose proof (seg_unique _ (l, r) a (fst a) V J I ltac:(cbn [fst snd]; lia) ltac:(lia)) as E. subst a. cbn [fst snd] in *. lia.
  Qed.
  Lemma nearest_zero dir x s : (dir = 1 \/ dir = -1) -> NoDup s -> mem x s = false -> nearest_out dir x s = x.
  Proof. intros D N M. rewrite (nearest_ok dir x s 0); auto; [lia|lia|intros; lia|]. intro I. rewrite Z.mul_0_r, Z.add_0_r in I. apply mem_In in I. congruence. Qed.
  Lemma ranges_ok t s : merge = true -> Inv t s -> rs_ranges t = zlen (filter (fun x => negb (mem (x - 1) s)) s).
  Proof.
    intros HM (V & N & C & _). assert (MG : mg = 1) by (unfold mg; now rewrite HM). unfold rs_ranges. transitivity (zlen (map fst (rs_map t))); [symmetry; apply zlen_map|]. apply same_len.
    - destruct V as (S & F). clear - S F MG. induction S as [|a m S IH Fa]; cbn [map]; [constructor|]. constructor; [|apply IH; intros; apply F; now right]. intro I. apply in_map_iff in I. destruct I as (b & E & I). rewrite Forall_forall in Fa. specialize (Fa b I). unfold before in Fa. pose proof (F a (or_introl eq_refl)). lia.
    - now apply NoDup_filter.
    - intro x. rewrite filter_In, in_map_iff, Bool.negb_true_iff. split.
      + intros (a & <- & I). pose proof (proj2 V a I) as La. split; [apply C; exists (fst a), (snd a); split; [now destruct a|lia]|]. destruct (mem (fst a - 1) s) eqn:M; auto. apply mem_In, C in M. destruct M as (l & r & J & K).
        pose proof (seg_unique _ (l, r) a (fst a) V J I ltac:(cbn [fst snd]; lia) ltac:(lia)) as E. subst a. cbn [fst snd] in *. lia.
      + intros (I & M). apply C in I. destruct I as (l & r & J & K). exists (l, r). split; auto. cbn [fst]. destruct (Z.eq_dec l x); auto. exfalso.
        assert (mem (x - 1) s = true) by (apply mem_In, C; exists l, r; split; auto; lia). congruence.
  Qed.
  Lemma sim t s o : Inv t s -> match rs_spec merge s o with
    | Ok (r, s') => exists t', rs_step merge t o = Ok (r, t') /\ Inv t' s' | Abort => rs_step merge t o = Abort | OutOfFuel => False | UB => True end.
  Proof.
    intro I. pose proof I as (V & N & C & Sz). destruct o as [l r|l r|x| | |x|x|x]; cbn [rs_spec rs_step].
    - cbn zeta. set (new := filter (fun x => negb (mem x s)) (interval l r)).
      assert (In_new : forall x, In x new <-> l <= x <= r /\ ~ In x s). { intro x. unfold new. rewrite filter_In, interval_in, Bool.negb_true_iff. rewrite <- mem_In. destruct (mem x s); intuition congruence. }
      destruct (Z.le_gt_cases l r) as [L|L].
      + destruct (rs_insert merge t l r) as (x, t') eqn:E. destruct (insert_ok t l r x t' V L E) as (V' & C' & Ex & Es).
        assert (N' : NoDup (new ++ s)). { apply NoDup_app; auto; [apply NoDup_filter, interval_NoDup|]. intros y Iy. apply In_new in Iy. tauto. }
        assert (C2 : forall y, In y (new ++ s) <-> covered (rs_map t') y). { intro y. rewrite C', in_app_iff, In_new, <- C. destruct (in_dec Z.eq_dec y s); tauto. }
        pose proof (count _ _ V' N' C2) as T'. pose proof (count _ _ V N C) as T. rewrite zlen_app in T'. exists t'. split; [do 3 f_equal; lia|]. split; auto. split; auto. split; auto. rewrite zlen_app. lia.
      + assert (EN : new = []). { destruct new as [|y l'] eqn:E; auto. destruct (proj1 (In_new y) (or_introl eq_refl)) as (K & _). lia. } rewrite EN. unfold rs_insert. rewrite (proj2 (Z.ltb_lt r l)) by lia. exists t. split; auto.
    - cbn zeta. set (f := fun x => (l <=? x) && (x <=? r)). assert (Hf : forall x, f x = true <-> l <= x <= r) by (intro x; unfold f; rewrite Bool.andb_true_iff, !Z.leb_le; lia).
      destruct (Z.le_gt_cases l r) as [L|L].
      + destruct (rs_erase t l r) as (x, t') eqn:E. destruct (erase_ok t l r x t' V L E) as (V' & C' & Ex & Es).
        assert (N' : NoDup (filter (fun x => negb (f x)) s)) by now apply NoDup_filter.
        assert (C2 : forall y, In y (filter (fun x => negb (f x)) s) <-> covered (rs_map t') y). { intro y. rewrite C', filter_In, Bool.negb_true_iff, <- C, <- Hf. destruct (f y); intuition congruence. }
        pose proof (count _ _ V' N' C2) as T'. pose proof (count _ _ V N C) as T. pose proof (filter_split_len f s). exists t'. split; [do 3 f_equal; lia|]. split; auto. split; auto. split; auto. fold f. change (fun x0 : Z => negb ((l <=? x0) && (x0 <=? r))) with (fun x0 : Z => negb (f x0)). lia.
      + assert (Ff : forall x, f x = false) by (intro x; destruct (f x) eqn:E; auto; apply Hf in E; lia). unfold rs_erase. rewrite (proj2 (Z.ltb_lt r l)) by lia. exists t.
        rewrite (filter_all (fun x => negb (f x))) by (intros; now rewrite Ff). pose proof (filter_split_len f s) as K. rewrite (filter_all (fun x => negb (f x))) in K by (intros; now rewrite Ff). split; [do 3 f_equal; lia|exact I].
    - exists t. split; auto. do 3 f_equal. rewrite contains_find. pose proof (find_spec t s x I) as F. destruct (rs_find_range t x); [now symmetry|now symmetry].
    - exists t. split; auto. unfold rs_elements. now rewrite Sz.
    - destruct merge eqn:HM; [|exact Logic.I]. exists t. split; auto. do 3 f_equal. now apply ranges_ok.
    - destruct merge eqn:HM; [|exact Logic.I]. exists t. split; auto. pose proof (find_spec t s x I) as F. destruct (rs_find_range t x) as [a|]; [|now rewrite F]. destruct F as (Ia & Ha & ->).
      destruct (seg_around t s a x HM I Ia Ha) as (-> & ->). replace (fst a - 1 + 1) with (fst a) by ring. replace (snd a + 1 - 1) with (snd a) by ring. now destruct a.
    - destruct merge eqn:HM; [|exact Logic.I]. exists t. split; auto. unfold rs_mex. pose proof (find_spec t s x I) as F. destruct (rs_find_range t x) as [a|].
      + destruct F as (Ia & Ha & _). now rewrite (proj1 (seg_around t s a x HM I Ia Ha)).
      + now rewrite nearest_zero by auto.
    - destruct merge eqn:HM; [|exact Logic.I]. exists t. split; auto. unfold rs_maxex. pose proof (find_spec t s x I) as F. destruct (rs_find_range t x) as [a|].
      + destruct F as (Ia & Ha & _). now rewrite (proj2 (seg_around t s a x HM I Ia Ha)).
      + now rewrite nearest_zero by auto.
  Qed.
  Lemma init : Inv rs_empty [].
  Proof. split; [split; [constructor|contradiction]|]. split; [constructor|]. split; [|reflexivity]. intro x. split; [contradiction|intro K; destruct (covered_nil x K)]. Qed.
  Lemma range_set_history_ ops : snd (run (rs_spec merge) [] ops) <> UB -> run (rs_step merge) rs_empty ops = run (rs_spec merge) [] ops.
  Proof. apply run_sim with (Inv := Inv); [intros; now apply sim|apply init]. Qed.
  Lemma range_set_segments_ ops s : after (rs_spec merge) [] ops = Ok s -> exists t, after (rs_step merge) rs_empty ops = Ok t /\ segments merge s (rs_map t).
  Proof.
    intro E. destruct (after_sim (rs_step merge) (rs_spec merge) Inv ltac:(intros; now apply sim) ops _ _ _ init E) as (t & Et & (V & N & C & _)). exists t. split; auto. split; [intros l r I; exact (proj2 V _ I)|]. split; auto.
    intros i j l r l' r' H Ei Ej. destruct (vget_split _ _ _ Ei) as (p & q & Em & Lp). destruct V as (S & _). rewrite Em in S, Ej. apply sorted_app_inv in S. destruct S as (_ & S & _). inversion S as [|? ? _ F]; subst. rewrite Forall_forall in F.
    rewrite vget_app2 in Ej by lia. rewrite vget_consS in Ej by lia. apply vget_In in Ej. apply (F _ Ej).
  Qed.
End P.
