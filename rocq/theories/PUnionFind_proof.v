(* PersistentUnionFind used linearly behaves like UnionFind *)
From Verif Require Import Base BaseLemmas ListZ Hist PArray_model PArray_proof PArray_proof2 UnionFind_model UnionFind_spec UnionFind_run UnionFind_proof PUnionFind_model.

Definition live (m : list (pnode Z)) (a : parray) (s : uf) : Prop :=
  pa_n a = uf_n s /\ zlen (uf_dat s) = uf_n s /\ exists L K, wf 4 m L K /\ vers 4 m L K a (uf_dat s).
Lemma h4 : 0 <= 4. Proof. lia. Qed.

Lemma live_get m a s x d : live m a s -> vget (uf_dat s) x = Ok d -> node_val 4 m (pa_root a) x = Ok d.
Proof. intros (_ & _ & L & K & W & (_ & _ & _ & V)) E. rewrite V; auto. apply vget_range in E. lia. Qed.
Lemma live_mut m a s x y d : live m a s -> vset (uf_dat s) x y = Ok d ->
  exists o m', node_mut_set 4 m (pa_root a) x y = Ok (o, m') /\ live m' a (mkUF (uf_n s) d).
Proof.
  intros (Hn & Hl & L & K & W & V) E. unfold vset in E. destruct ((0 <=? x) && (x <? zlen (uf_dat s)))%bool eqn:C; [|discriminate]. injection E as <-.
  assert (Hx : 0 <= x < zlen (uf_dat s)) by lia. pose proof V as (H1 & H2 & H3 & H4).
  destruct (vget_Ok _ _ Hx) as (z & Ez).
  destruct (nv_cases 4 h4 m L K (pa_root a) x W ltac:(lia) H2) as [Q|(c & nd & Eg & Ec & Ev)]; [rewrite H4 in Q by lia; congruence|].
  unfold node_mut_set. rewrite Eg. cbn [bind]. rewrite Ec. cbn [bind]. destruct (set_val_ok 4 h4 m L K c nd y W Ec) as (Es & _ & _). rewrite Es. cbn [bind].
  eexists. eexists. split; [reflexivity|].
  assert (Lc : L c = x). { pose proof (vget_range _ _ _ Ec). destruct (label 4 h4 m L K W x ltac:(lia) _ _ H2 Eg) as [|(_ & Hr & Lj)]; [lia|]. destruct (H3 ltac:(lia)) as (L0 & K0). rewrite L0, K0, Z.pow_0_r in Lj. lia. }
  destruct (mut_each 4 h4 m L K c nd x y a (uf_dat s) W Ec Lc ltac:(lia) V) as (A' & V' & _ & M). rewrite (M Eg) in V'.
  split; auto. cbn [uf_n uf_dat]. split; [now rewrite zlen_zupd|]. exists L, K. split; auto. now apply wf_val.
Qed.
Lemma live_set m a s x y d : live m a s -> vset (uf_dat s) x y = Ok d ->
  exists m' r, node_set 4 m (pa_root a) x y = Ok (m', r) /\ live m' (PA (pa_n a) r) (mkUF (uf_n s) d).
Proof.
  intros (Hn & Hl & L & K & W & V) E. unfold vset in E. destruct ((0 <=? x) && (x <? zlen (uf_dat s)))%bool eqn:C; [|discriminate]. injection E as <-.
  assert (Hx : 0 <= x < zlen (uf_dat s)) by lia. pose proof V as (H1 & H2 & H3 & H4).
  destruct (set_ok 4 h4 m L K (pa_root a) x y W ltac:(lia) H2 H3) as [(O & Q)|(m' & r & L' & K' & O & NU & W' & Z & G & LK & Hr & L0 & K0 & V')].
  - rewrite H4 in Q by lia. destruct (vget_Ok _ _ Hx) as (z & Ez). congruence.
  - exists m', r. split; auto. split; auto. cbn [uf_n uf_dat]. split; [now rewrite zlen_zupd|]. exists L', K'. split; auto.
    split; [cbn; now rewrite zlen_zupd|]. split; [right; auto|]. split; auto. cbn [pa_root]. apply list_ext_upd; auto.
    intros j Hj. rewrite V' by auto. destruct (j =? x); auto.
Qed.
Lemma live_climb m a s : live m a s -> forall f x buf r b, root_climb f (uf_dat s) x buf = Ok (r, b) ->
  loop f (fun '(x, buf) => let* r := node_val 4 m (pa_root a) x in if r >=? 0 then Ok (inl (r, x :: buf)) else Ok (inr (x, buf))) (x, buf) = Ok (r, b).
Proof.
  intro V. induction f as [|f IH]; intros x buf r b E; cbn [root_climb loop] in *; [discriminate|].
  destruct (vget_cases (uf_dat s) x) as [(d & Ed)|Ed]; rewrite Ed in E; cbn [bind] in E; [|discriminate].
  rewrite (live_get _ _ _ _ _ V Ed). cbn [bind]. replace (d >=? 0) with (0 <=? d) by lia. destruct (0 <=? d); [apply IH; exact E|exact E].
Qed.
Lemma live_compress a r : forall buf m s d, live m a s -> root_compress (uf_dat s) buf r = Ok d ->
  exists m', for_each buf (fun y m => let* (_, m) := node_mut_set 4 m (pa_root a) y r in Ok m) m = Ok m' /\ live m' a (mkUF (uf_n s) d).
Proof.
  unfold root_compress. induction buf as [|y buf IH]; intros m s d V E; cbn [for_each] in *.
  - injection E as <-. exists m. destruct s. auto.
  - destruct (vset (uf_dat s) y r) as [d1| | |] eqn:E1; try discriminate E. cbn [bind] in E. destruct (live_mut _ _ _ _ _ _ V E1) as (o & m1 & Em & V1).
    rewrite Em. cbn [bind]. apply (IH m1 _ d V1 E).
Qed.
Lemma live_root m a s x r s' : live m a s -> uf_root s x = Ok (r, s') -> exists m', puf_root m a x = Ok (r, m') /\ live m' a s'.
Proof.
  intros V E. unfold uf_root in E. destruct (root_climb _ _ _ _) as [(r0, b)| | |] eqn:E1; try discriminate E. cbn [bind] in E.
  destruct (root_compress _ _ _) as [d| | |] eqn:E2; try discriminate E. cbn [bind] in E. injection E as <- <-.
  unfold puf_root. replace (Z.to_nat (pa_n a)) with (length (uf_dat s)) by (destruct V as (-> & <- & _); unfold zlen; lia).
  rewrite (live_climb m a s V _ _ _ _ _ E1). cbn [bind]. destruct (live_compress a r0 b m s d V E2) as (m' & Em & V'). rewrite Em. cbn [bind]. eauto.
Qed.
Lemma live_step m a s o r s' : live m a s -> uf_step s o = Ok (r, s') -> exists m' a', puf_newest (m, a) o = Ok (r, (m', a')) /\ live m' a' s'.
Proof.
  intros V E. destruct o as [x y|x y|x|x]; cbn [uf_step puf_newest] in *.
  - unfold puf_merge. unfold uf_merge in E. destruct (uf_root s x) as [(rx, s1)| | |] eqn:E1; try discriminate E. cbn [bind] in E.
    destruct (live_root _ _ _ _ _ _ V E1) as (m1 & -> & V1). cbn [bind].
    destruct (uf_root s1 y) as [(ry, s2)| | |] eqn:E2; try discriminate E. cbn [bind] in E.
    destruct (live_root _ _ _ _ _ _ V1 E2) as (m2 & -> & V2). cbn [bind].
    destruct (rx =? ry). { cbn [bind] in *. injection E as <- <-. eauto. }
    destruct (vget (uf_dat s2) rx) as [dx| | |] eqn:Ex; try discriminate E. cbn [bind] in E. rewrite (live_get _ _ _ _ _ V2 Ex). cbn [bind].
    destruct (vget (uf_dat s2) ry) as [dy| | |] eqn:Ey; try discriminate E. cbn [bind] in E. rewrite (live_get _ _ _ _ _ V2 Ey). cbn [bind].
    destruct (dx >? dy); rewrite Ex, Ey in E; cbn [bind] in E.
    + destruct (vset (uf_dat s2) ry (dy + dx)) as [d1| | |] eqn:F1; try discriminate E. cbn [bind] in E.
      destruct (live_set _ _ _ _ _ _ V2 F1) as (m3 & r3 & -> & V3). cbn [bind].
      destruct (vset d1 rx ry) as [d2| | |] eqn:F2; try discriminate E. cbn [bind] in E. injection E as <- <-.
      destruct (live_set _ _ _ _ _ _ V3 F2) as (m4 & r4 & Q & V4). cbn [pa_root pa_n uf_n] in *. rewrite Q. cbn [bind]. eauto.
    + destruct (vset (uf_dat s2) rx (dx + dy)) as [d1| | |] eqn:F1; try discriminate E. cbn [bind] in E.
      destruct (live_set _ _ _ _ _ _ V2 F1) as (m3 & r3 & -> & V3). cbn [bind].
      destruct (vset d1 ry rx) as [d2| | |] eqn:F2; try discriminate E. cbn [bind] in E. injection E as <- <-.
      destruct (live_set _ _ _ _ _ _ V3 F2) as (m4 & r4 & Q & V4). cbn [pa_root pa_n uf_n] in *. rewrite Q. cbn [bind]. eauto.
  - unfold puf_same. unfold uf_same in E. destruct (uf_root s x) as [(rx, s1)| | |] eqn:E1; try discriminate E. cbn [bind] in E.
    destruct (live_root _ _ _ _ _ _ V E1) as (m1 & -> & V1). cbn [bind].
    destruct (uf_root s1 y) as [(ry, s2)| | |] eqn:E2; try discriminate E. cbn [bind] in E.
    destruct (live_root _ _ _ _ _ _ V1 E2) as (m2 & -> & V2). cbn [bind]. injection E as <- <-. eauto.
  - unfold puf_size. unfold uf_size in E. destruct (uf_root s x) as [(rx, s1)| | |] eqn:E1; try discriminate E. cbn [bind] in E.
    destruct (live_root _ _ _ _ _ _ V E1) as (m1 & -> & V1). cbn [bind].
    destruct (vget (uf_dat s1) rx) as [dx| | |] eqn:Ex; try discriminate E. cbn [bind] in E. rewrite (live_get _ _ _ _ _ V1 Ex). cbn [bind]. injection E as <- <-. eauto.
  - destruct (uf_root s x) as [(rx, s1)| | |] eqn:E1; try discriminate E. cbn [bind] in E.
    destruct (live_root _ _ _ _ _ _ V E1) as (m1 & -> & V1). cbn [bind]. injection E as <- <-. eauto.
Qed.
Lemma puf_linear n ops : 0 <= n -> Forall (uop_ok n) ops ->
  exists m root rs, build 4 [] (vrep n (-1)) = Ok (m, root) /\ run puf_newest (m, PA n root) ops = (rs, Ok tt) /\ uanswers n [] ops rs.
Proof.
  intros Hn F. destruct (build_ok 4 h4 (vrep n (-1)) [] (fun _ => 0) (fun _ => 0)) as (m & root & L & K & E & W & _ & _ & _ & P & R & V).
  { intros i nd E. apply vget_range in E. change (zlen (@nil (pnode Z))) with 0 in E. lia. }
  exists m, root.
  assert (Lv : live m (PA n root) (uf_init n)).
  { split; auto. cbn [uf_dat uf_init uf_n]. split; [apply zlen_vrep; auto|]. exists L, K. split; auto. split; [cbn; now rewrite zlen_vrep|]. auto. }
  assert (Uk : UOk n (uf_init n) []) by (split; auto; exists (fun x => x); now apply UInv_init).
  enough (X : forall ops s E0 m a, Forall (uop_ok n) ops -> live m a s -> UOk n s E0 -> exists rs, run puf_newest (m, a) ops = (rs, Ok tt) /\ uanswers n E0 ops rs).
  { destruct (X ops _ _ _ _ F Lv Uk) as (rs & E1 & E2). exists rs. auto. }
  clear. induction ops as [|o ops IH]; intros s E0 m a F Lv Uk; cbn [run]; [exists []; cbn; auto|]. inversion F; subst.
  destruct (uf_step_ok n s E0 o Uk ltac:(auto)) as (r & s' & E1 & Uk' & A). destruct (live_step _ _ _ _ _ _ Lv E1) as (m' & a' & -> & Lv').
  destruct (IH s' _ m' a' ltac:(auto) Lv' Uk') as (rs & -> & A'). exists (r :: rs). cbn. auto.
Qed.
