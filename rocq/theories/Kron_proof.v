From Verif Require Import Base BaseLemmas ZMod Seq RingSum Transform_model.
From Coq Require Import Ring.

Lemma div_uniq a b q r : 0 <= r < b -> a = q * b + r -> a / b = q /\ a mod b = r.
Proof. intros H ->. split; [symmetry; apply Z.div_unique with r; lia|apply mod_uniq' with q; lia]. Qed.
Lemma at_rep {T} (d : T) v n g i : rep v n g -> 0 <= i < n -> at_ d v i = g i.
Proof. intros H Hi. assert (R := rep_nth v d). pose proof H as [L _]. rewrite L in R. apply (rep_uniq _ _ _ _ _ R H Hi). Qed.
Lemma rep_at {T} (d : T) v : rep v (zlen v) (at_ d v). Proof. apply rep_nth. Qed.
Lemma rep_len {T} (v : list T) n g : rep v n g -> zlen v = n. Proof. now intros [L _]. Qed.

Section Kron.
  Context {T : Type}.
  Variables (r0 r1 : T) (add mul sub : T -> T -> T) (opp : T -> T).
  Hypothesis RT : ring_theory r0 r1 add mul sub opp (@eq T).
  Add Ring R : RT.
  Notation sum := (sum r0 add).
  Variable D : Z.
  Hypothesis HD : 2 <= D.
  Variable A : Z -> Z -> T.
  Variable unit_ : list T -> res (list T).
  Hypothesis unit_ok : forall w g, rep w D g -> exists w', unit_ w = Ok w' /\ rep w' D (fun c => sum 0 D (fun c' => mul (A c c') (g c'))).

  Lemma gather_ok (x : list T) n g o b : rep x n g -> (forall c, 0 <= c < D -> 0 <= o + c * b < n) ->
    exists w, for_ 0 D (fun i work => let* v := vget x (o + i * b) in vset work i v) (vrep D r0) = Ok w /\ rep w D (fun c => g (o + c * b)).
  Proof.
    intros Rx Hp.
    destruct (for_inv (fun c w => rep w D (fun i => if i <? c then g (o + i * b) else r0)) 0 D
      (fun i work => let* v := vget x (o + i * b) in vset work i v) (vrep D r0)) as (w & E & Rw); [lia| | |].
    - eapply rep_ext; [apply rep_vrep; lia|]. intros i Hi. cbn beta. destruct (Z.ltb_spec i 0); auto; lia.
    - intros c w Hc Rw. rewrite (rep_get _ _ _ _ Rx) by auto. cbn [bind]. rewrite (rep_set _ _ _ _ _ Rw) by lia.
      eexists; split; [reflexivity|]. eapply rep_ext; [apply rep_upd; [exact Rw|lia]|]. intros i Hi. unfold fupd.
      destruct (Z.eqb_spec i c) as [E|]; destruct (Z.ltb_spec i c); destruct (Z.ltb_spec i (c + 1)); try rewrite E; auto; lia.
    - exists w. split; auto. eapply rep_ext; [exact Rw|]. intros i Hi. cbn beta. destruct (Z.ltb_spec i D); auto; lia.
  Qed.
  Definition hit (o b c i : Z) : bool := ((i - o) mod b =? 0) && (0 <=? (i - o) / b) && ((i - o) / b <? c).
  Lemma hit_iff o b c i : 0 < b -> hit o b c i = true <-> exists k, 0 <= k < c /\ i = o + k * b.
  Proof.
    intro Hb. unfold hit. rewrite !Bool.andb_true_iff, Z.eqb_eq, Z.leb_le, Z.ltb_lt. split.
    - intros ((H1 & H2) & H3). exists ((i - o) / b). split; auto. pose proof (Z.div_mod (i - o) b). lia.
    - intros (k & H1 & ->). destruct (div_uniq (o + k * b - o) b k 0) as (-> & ->); lia.
  Qed.
  Lemma hit_div o b k : 0 < b -> (o + k * b - o) / b = k.
  Proof. intro H. replace (o + k * b - o) with (k * b) by ring. apply Z.div_mul. lia. Qed.
  Lemma scatter_ok (x : list T) n g (w : list T) h o b : rep x n g -> rep w D h -> 0 < b -> (forall c, 0 <= c < D -> 0 <= o + c * b < n) ->
    exists y, for_ 0 D (fun i x => let* v := vget w i in vset x (o + i * b) v) x = Ok y /\
      rep y n (fun i => if hit o b D i then h ((i - o) / b) else g i).
  Proof.
    intros Rx Rw Hb Hp.
    destruct (for_inv (fun c y => rep y n (fun i => if hit o b c i then h ((i - o) / b) else g i)) 0 D
      (fun i x => let* v := vget w i in vset x (o + i * b) v) x) as (y & E & Ry); [lia| | |].
    - eapply rep_ext; [exact Rx|]. intros i Hi. destruct (hit o b 0 i) eqn:E; auto. apply hit_iff in E; auto. destruct E as (k & ? & _). lia.
    - intros c y Hc Ry. rewrite (rep_get _ _ _ _ Rw) by lia. cbn [bind]. rewrite (rep_set _ _ _ _ _ Ry) by auto.
      eexists; split; [reflexivity|]. eapply rep_ext; [apply rep_upd; [exact Ry|auto]|]. intros i Hi. unfold fupd.
      destruct (Z.eqb_spec i (o + c * b)) as [->|Ne].
      + assert (X : hit o b (c + 1) (o + c * b) = true) by (apply hit_iff; auto; exists c; lia). rewrite X. now rewrite hit_div.
      + assert (X : hit o b c i = hit o b (c + 1) i).
        { apply Bool.eq_iff_eq_true. rewrite !hit_iff by auto. split; intros (k & H1 & H2); exists k; (split; [|auto]); [lia|].
          assert (k <> c) by (intro; subst k; auto). lia. }
        now rewrite X.
    - eauto.
  Qed.
  Definition stage (b : Z) (g : Z -> T) (i : Z) : T :=
    sum 0 D (fun c' => mul (A ((i / b) mod D) c') (g (i / (D * b) * (D * b) + c' * b + i mod b))).
  Lemma stage_at b g t c r : 0 < b -> 0 <= c < D -> 0 <= r < b ->
    stage b g (t * (D * b) + c * b + r) = sum 0 D (fun c' => mul (A c c') (g (t * (D * b) + c' * b + r))).
  Proof.
    intros Hb Hc Hr. unfold stage.
    destruct (div_uniq (t * (D * b) + c * b + r) b (t * D + c) r) as (-> & ->); [lia|ring|].
    destruct (div_uniq (t * D + c) D t c) as (_ & ->); [lia|ring|].
    destruct (div_uniq (t * (D * b) + c * b + r) (D * b) t (c * b + r)) as (-> & _); [nia|ring|]. reflexivity.
  Qed.
  Definition done (b t r i : Z) : bool := (i <? t * (D * b)) || ((i <? t * (D * b) + D * b) && (i mod b <? r)).
  Lemma offset_ok x n g b t r : rep x n (fun i => if done b t r i then stage b g i else g i) -> 0 < b -> 0 <= r < b -> 0 <= t -> t * (D * b) + D * b <= n ->
    exists y, (let* work := for_ 0 D (fun i work => let* v := vget x ((t * (D * b) + r) + i * b) in vset work i v) (vrep D r0) in
              let* work := unit_ work in
              for_ 0 D (fun i x => let* v := vget work i in vset x ((t * (D * b) + r) + i * b) v) x) = Ok y /\
      rep y n (fun i => if done b t (r + 1) i then stage b g i else g i).
  Proof.
    intros Rx Hb Hr Ht Hn. set (o := t * (D * b) + r).
    assert (T0 : 0 <= t * (D * b)) by (apply Z.mul_nonneg_nonneg; nia).
    assert (Hp : forall c, 0 <= c < D -> 0 <= o + c * b < n).
    { intros c Hc. unfold o. assert (0 <= c * b) by nia. assert (c * b + b <= D * b) by nia. lia. }
    destruct (gather_ok x n _ o b Rx Hp) as (w & -> & Rw). cbn [bind].
    destruct (unit_ok _ _ Rw) as (w' & -> & Rw'). cbn [bind].
    destruct (scatter_ok x n _ w' _ o b Rx Rw' Hb Hp) as (y & -> & Ry). eexists; split; [reflexivity|].
    eapply rep_ext; [exact Ry|]. intros i Hi. cbn beta.
    destruct (hit o b D i) eqn:Eh.
    - apply hit_iff in Eh; auto. destruct Eh as (c & Hc & ->). rewrite hit_div by auto. unfold o.
      replace (t * (D * b) + r + c * b) with (t * (D * b) + c * b + r) by ring. rewrite stage_at by auto.
      assert (M : forall c', 0 <= c' < D -> (t * (D * b) + c' * b + r) mod b = r).
      { intros c' H. apply mod_uniq' with (t * D + c'); [lia|ring]. }
      assert (X : done b t (r + 1) (t * (D * b) + c * b + r) = true).
      { unfold done. rewrite M by auto. apply Bool.orb_true_iff. right. apply Bool.andb_true_iff. rewrite !Z.ltb_lt. nia. }
      rewrite X. apply sum_ext. intros c' Hc'. f_equal.
      replace (t * (D * b) + r + c' * b) with (t * (D * b) + c' * b + r) by ring.
      assert (Y : done b t r (t * (D * b) + c' * b + r) = false).
      { unfold done. rewrite M by auto. apply Bool.orb_false_iff. rewrite Z.ltb_ge. split; [nia|]. apply Bool.andb_false_iff. right. apply Z.ltb_ge. lia. }
      now rewrite Y.
    - assert (X : done b t (r + 1) i = done b t r i); [|now rewrite X].
      unfold done. destruct (Z.ltb_spec i (t * (D * b))); cbn [orb]; auto. destruct (Z.ltb_spec i (t * (D * b) + D * b)); cbn [andb]; auto.
      apply Bool.eq_iff_eq_true. rewrite !Z.ltb_lt. split; [|lia]. intro Hm.
      assert (i mod b <> r); [|lia]. intro E. assert (F : hit o b D i = true); [|congruence].
      apply hit_iff; auto. exists (i / b - t * D). pose proof (Z.div_mod i b ltac:(lia)) as DM. rewrite E in DM.
      assert (E2 : i = o + (i / b - t * D) * b) by (unfold o; rewrite DM at 1; ring).
      split; [|exact E2]. unfold o in E2. split; nia.
  Qed.
  Lemma stage_ok x n g b h : rep x n g -> 0 < b -> n = h * (D * b) -> 0 <= h ->
    exists y, loop (S (Z.to_nat n)) (fun '(l, x) =>
          if l <? n then
            let* x := for_ l (l + b) (fun offset x =>
              let* work := for_ 0 D (fun i work => let* v := vget x (offset + i * b) in vset work i v) (vrep D r0) in
              let* work := unit_ work in
              for_ 0 D (fun i x => let* v := vget work i in vset x (offset + i * b) v) x) x in
            Ok (inl (l + D * b, x))
          else Ok (inr x)) (0, x) = Ok y /\ rep y n (stage b g).
  Proof.
    intros Rx Hb Hn Hh. assert (HB : 0 < D * b) by nia.
    match goal with |- context [loop ?fu ?bo ?st] =>
      destruct (loop_inv (fun '(l, x) => exists t, l = t * (D * b) /\ 0 <= t <= h /\ rep x n (fun i => if done b t 0 i then stage b g i else g i))
        (fun '(l, x) => Z.to_nat (n - l)) (fun y => rep y n (stage b g)) bo fu st) as (y & E & Ry) end.
    - exists 0. split; [ring|]. split; [lia|]. eapply rep_ext; [exact Rx|]. intros i Hi. cbn beta. unfold done.
      destruct (Z.ltb_spec i (0 * (D * b))); [lia|]. cbn [orb]. pose proof (Z.mod_pos_bound i b). destruct (Z.ltb_spec (i mod b) 0); [lia|]. now rewrite Bool.andb_false_r.
    - cbn. lia.
    - intros (l & x') (t & -> & Ht & Rx'). destruct (Z.ltb_spec (t * (D * b)) n) as [Hl|Hl].
      + assert (Ht' : t < h) by nia. assert (Hn' : t * (D * b) + D * b <= n) by nia.
        match goal with |- context [for_ ?lo ?hi ?bo ?st] =>
          destruct (for_inv (fun o x => rep x n (fun i => if done b t (o - t * (D * b)) i then stage b g i else g i)) lo hi bo st) as (y & E & Ry) end.
        * lia.
        * rewrite Z.sub_diag. exact Rx'.
        * intros o z Ho Rz. destruct (offset_ok z n g b t (o - t * (D * b)) Rz Hb ltac:(lia) ltac:(lia) Hn') as (y & E & Ry).
          replace (t * (D * b) + (o - t * (D * b))) with o in E by ring. exists y. split; [exact E|].
          replace (o + 1 - t * (D * b)) with (o - t * (D * b) + 1) by ring. exact Ry.
        * rewrite E. cbn [bind]. eexists; split; [reflexivity|]. cbn beta iota. split; [|lia].
          exists (t + 1). split; [ring|]. split; [lia|]. eapply rep_ext; [exact Ry|]. intros i Hi. cbn beta.
          replace (t * (D * b) + b - t * (D * b)) with b by ring.
          assert (X : done b t b i = done b (t + 1) 0 i); [|now rewrite X]. unfold done. pose proof (Z.mod_pos_bound i b Hb).
          destruct (Z.ltb_spec (i mod b) b); [|lia]. destruct (Z.ltb_spec (i mod b) 0); [lia|]. rewrite Bool.andb_true_r, Bool.andb_false_r, Bool.orb_false_r.
          apply Bool.eq_iff_eq_true. rewrite Bool.orb_true_iff, !Z.ltb_lt. lia.
      + eexists; split; [reflexivity|]. cbn beta iota. eapply rep_ext; [exact Rx'|]. intros i Hi. cbn beta. unfold done.
        destruct (Z.ltb_spec i (t * (D * b))); [reflexivity|lia].
    - eauto.
  Qed.

  Fixpoint kmat (k : nat) (i j : Z) : T :=
    match k with
    | O => r1
    | S k => let b := D ^ Z.of_nat k in mul (A (i / b) (j / b)) (kmat k (i mod b) (j mod b))
    end.
  Definition kapply (k : nat) (g : Z -> T) (i : Z) : T :=
    let b := D ^ Z.of_nat k in sum 0 b (fun j => mul (kmat k (i mod b) j) (g (i / b * b + j))).
  Lemma Dpow_pos k : 0 < D ^ Z.of_nat k. Proof. apply Z.pow_pos_nonneg; lia. Qed.
  Lemma Dpow_S k : D ^ Z.of_nat (S k) = D * D ^ Z.of_nat k.
  Proof. rewrite Nat2Z.inj_succ, Z.pow_succ_r by lia. reflexivity. Qed.
  Lemma kapply_step k g i : kapply (S k) g i = stage (D ^ Z.of_nat k) (kapply k g) i.
  Proof.
    unfold kapply. rewrite Dpow_S. pose proof (Dpow_pos k) as Hb. set (b := D ^ Z.of_nat k) in *.
    assert (HB : 0 < D * b) by nia.
    pose proof (Z.div_mod i (D * b) ltac:(lia)) as E1. pose proof (Z.mod_pos_bound i (D * b) HB) as B1.
    set (t := i / (D * b)) in *. set (u := i mod (D * b)) in *. clearbody t u.
    pose proof (Z.div_mod u b ltac:(lia)) as E2. pose proof (Z.mod_pos_bound u b Hb) as B2.
    set (c := u / b) in *. set (r := u mod b) in *. assert (Hc : 0 <= c < D) by nia. clearbody c r.
    rewrite E1, E2. replace (D * b * t + (b * c + r)) with (t * (D * b) + c * b + r) by ring. rewrite stage_at by auto.
    rewrite (sum_blocks _ _ _ _ _ _ RT b D) by lia. apply sum_ext. intros c' Hc'. rewrite <- (sum_scale _ _ _ _ _ _ RT). apply sum_ext. intros j Hj.
    cbn [kmat]. fold b.
    destruct (div_uniq (c' * b + j) b c' j) as (-> & ->); [lia|ring|]. destruct (div_uniq (b * c + r) b c r) as (-> & ->); [lia|ring|].
    destruct (div_uniq (t * (D * b) + c' * b + r) b (t * D + c') r) as (-> & ->); [lia|ring|].
    rewrite <- (Rmul_assoc RT). f_equal. f_equal. f_equal. ring.
  Qed.
  Lemma kron_ok x k g : rep x (D ^ Z.of_nat k) g ->
    exists y, kron r0 D unit_ x = Ok y /\ rep y (D ^ Z.of_nat k) (fun i => sum 0 (D ^ Z.of_nat k) (fun j => mul (kmat k i j) (g j))).
  Proof.
    intro Rx. pose proof (Dpow_pos k) as HN. set (n := D ^ Z.of_nat k) in *. unfold kron. rewrite (rep_len _ _ _ Rx).
    match goal with |- context [loop ?fu ?bo ?st] =>
      destruct (loop_inv (fun '(b, x) => exists t, (t <= k)%nat /\ b = D ^ Z.of_nat t /\ rep x n (kapply t g))
        (fun '(b, x) => Z.to_nat (n - b)) (fun y => rep y n (kapply k g)) bo fu st) as (y & E & Ry) end.
    - exists 0%nat. split; [lia|]. split; [reflexivity|]. eapply rep_ext; [exact Rx|]. intros i Hi. unfold kapply. cbn [Z.of_nat]. rewrite Z.pow_0_r.
      change (span 0 1) with [0]. unfold RingSum.sum. change (span 0 1) with [0]. cbn [lsum kmat]. rewrite Z.div_1_r, Z.mul_1_r, Z.add_0_r. ring.
    - cbn. lia.
    - intros (b & x') (t & Ht & -> & Rx'). destruct (Z.ltb_spec (D ^ Z.of_nat t) n) as [Hl|Hl].
      + assert (t < k)%nat. { destruct (Nat.eq_dec t k); [|lia]. subst t. unfold n in Hl. lia. }
        destruct (stage_ok x' n (kapply t g) (D ^ Z.of_nat t) (D ^ Z.of_nat (k - S t)) Rx' (Dpow_pos t)) as (y & E & Ry).
        * rewrite <- Dpow_S, <- Z.pow_add_r by lia. unfold n. f_equal. lia.
        * pose proof (Dpow_pos (k - S t)). lia.
        * rewrite E. cbn [bind]. eexists; split; [reflexivity|]. cbn beta iota. pose proof (Dpow_pos t). split; [|nia].
          exists (S t). split; [lia|]. split; [rewrite Dpow_S; ring|]. eapply rep_ext; [exact Ry|]. intros i Hi. cbn beta. now rewrite kapply_step.
      + eexists; split; [reflexivity|]. cbn beta iota. assert (t = k); [|now subst t].
        destruct (Nat.eq_dec t k); auto. assert (D ^ Z.of_nat t < n); [|lia]. apply Z.pow_lt_mono_r; lia.
    - exists y. split; [exact E|]. eapply rep_ext; [exact Ry|]. intros i Hi. unfold kapply. fold n. cbv zeta.
      rewrite Z.mod_small, Z.div_small by lia. reflexivity.
  Qed.
End Kron.
