From Verif Require Import Base BaseLemmas AffC_spec AffC_model.
Definition val (f : ac) (x : Z) : Z := clamp_affine (ca f) (cb f) (cl f) (cr f) x.
Lemma eval_ok f x : cl f <= cr f -> affine_clamp f x = Ok (val f x).
Proof.
  intros H. unfold affine_clamp, val, clamp_affine. rewrite (proj2 (Z.ltb_ge _ _)) by lia. cbv zeta. f_equal.
  destruct (Z.ltb_spec (ca f * x + cb f) (cl f)); [lia|]. destruct (Z.ltb_spec (cr f) (ca f * x + cb f)); lia.
Qed.
Lemma i64_ok x : in64 x -> i64 x = Ok x.
Proof. intros H. unfold i64, in64 in *. now rewrite (proj2 (Z.leb_le _ _)), (proj2 (Z.ltb_lt _ _)) by lia. Qed.
Lemma i64_ub x : ~ in64 x -> i64 x = UB.
Proof. intros H. unfold i64, in64 in *. destruct (Z.leb_spec (- 2 ^ 63) x), (Z.ltb_spec x (2 ^ 63)); try reflexivity. lia. Qed.
Lemma val_bounds f x : cl f <= cr f -> cl f <= val f x <= cr f.
Proof. unfold val, clamp_affine. lia. Qed.
(* a clamped affine function of a clamped value: the bounds are the images of the bounds *)
Lemma clamp_comp a b L R l r u : L <= R -> l <= r ->
  Z.max L (Z.min R (a * Z.max l (Z.min r u) + b)) =
  Z.max (Z.min (Z.max L (Z.min R (a * l + b))) (Z.max L (Z.min R (a * r + b)))) (Z.min (Z.max (Z.max L (Z.min R (a * l + b))) (Z.max L (Z.min R (a * r + b)))) (a * u + b)).
Proof.
  intros H1 H2. destruct (Z.le_gt_cases 0 a) as [A|A].
  - destruct (Z.le_gt_cases u l); [|destruct (Z.le_gt_cases u r)].
    + replace (Z.max l (Z.min r u)) with l by lia. assert (a * u <= a * l) by nia. assert (a * l <= a * r) by nia. lia.
    + replace (Z.max l (Z.min r u)) with u by lia. assert (a * l <= a * u) by nia. assert (a * u <= a * r) by nia. lia.
    + replace (Z.max l (Z.min r u)) with r by lia. assert (a * l <= a * r) by nia. assert (a * r <= a * u) by nia. lia.
  - destruct (Z.le_gt_cases u l); [|destruct (Z.le_gt_cases u r)].
    + replace (Z.max l (Z.min r u)) with l by lia. assert (a * u >= a * l) by nia. assert (a * l >= a * r) by nia. lia.
    + replace (Z.max l (Z.min r u)) with u by lia. assert (a * l >= a * u) by nia. assert (a * u >= a * r) by nia. lia.
    + replace (Z.max l (Z.min r u)) with r by lia. assert (a * l >= a * r) by nia. assert (a * r >= a * u) by nia. lia.
Qed.
Lemma compose_ok f g : fits f -> fits g -> in64 (ca f * ca g) -> in64 (ca f * cb g) -> in64 (ca f * cb g + cb f) ->
  exists h, ac_compose f g = Ok h /\ fits h /\ forall x, val h x = val f (val g x).
Proof.
  intros (F1 & F2 & F3 & F4 & F5) (G1 & G2 & G3 & G4 & G5) H1 H2 H3. unfold ac_compose, affine_T.
  rewrite (i64_ok _ H1). cbn [bind]. rewrite (i64_ok _ H2). cbn [bind]. rewrite (i64_ok _ H3). cbn [bind]. rewrite !eval_ok by auto. cbn [bind].
  pose proof (val_bounds f (cl g) F5) as B1. pose proof (val_bounds f (cr g) F5) as B2.
  assert (K : forall x, val f (val g x) = Z.max (Z.min (val f (cl g)) (val f (cr g))) (Z.min (Z.max (val f (cl g)) (val f (cr g))) (ca f * ca g * x + (ca f * cb g + cb f)))).
  { intros x. unfold val, clamp_affine. rewrite clamp_comp by auto. f_equal. f_equal. ring. }
  unfold fits, in64 in *. destruct (Z.ltb_spec (val f (cr g)) (val f (cl g))); eexists; (split; [reflexivity|]); (split; [cbn; lia|]); intros x; rewrite K; unfold val at 1, clamp_affine; cbn [ca cb cl cr]; lia.
Qed.
Lemma compose_ub f g : ~ (in64 (ca f * ca g) /\ in64 (ca f * cb g) /\ in64 (ca f * cb g + cb f)) -> ac_compose f g = UB.
Proof.
  intros H. unfold ac_compose, affine_T.
  assert (D : forall x, in64 x \/ ~ in64 x) by (intros x; unfold in64; lia).
  destruct (D (ca f * ca g)) as [H1|H1]; [rewrite (i64_ok _ H1)|now rewrite (i64_ub _ H1)]. cbn [bind].
  destruct (D (ca f * cb g)) as [H2|H2]; [rewrite (i64_ok _ H2)|now rewrite (i64_ub _ H2)]. cbn [bind].
  destruct (D (ca f * cb g + cb f)) as [H3|H3]; [tauto|now rewrite (i64_ub _ H3)].
Qed.
Lemma compose_inv f g h : fits f -> fits g -> ac_compose f g = Ok h -> fits h /\ forall x, val h x = val f (val g x).
Proof.
  intros F G E. assert (D : forall x, in64 x \/ ~ in64 x) by (intros x; unfold in64; lia).
  destruct (D (ca f * ca g)) as [H1|H1], (D (ca f * cb g)) as [H2|H2], (D (ca f * cb g + cb f)) as [H3|H3]; try (rewrite compose_ub in E by tauto; discriminate).
  destruct (compose_ok f g F G H1 H2 H3) as (h' & E' & R). rewrite E in E'. injection E' as <-. exact R.
Qed.
Lemma id_fits : fits ac_id. Proof. unfold fits, in64, ac_id. cbn. lia. Qed.
Lemma id_val x : in64 x -> val ac_id x = x.
Proof. unfold in64, val, clamp_affine, ac_id. cbn [ca cb cl cr]. lia. Qed.
Lemma fold_ok fs : forall h0 h, fits h0 -> Forall fits fs -> for_each fs (fun f h => ac_compose f h) h0 = Ok h ->
  fits h /\ forall x, val h x = fold_left (fun y f => val f y) fs (val h0 x).
Proof.
  induction fs as [|f fs IH]; intros h0 h H0 F E; cbn in E.
  - injection E as <-. auto.
  - inversion F as [|? ? Ff F']; subst. destruct (ac_compose f h0) as [h1| | |] eqn:E1; cbn in E; try discriminate.
    destruct (compose_inv f h0 h1 Ff H0 E1) as [K1 K2]. destruct (IH h1 h K1 F' E) as [R1 R2]. split; [exact R1|]. intros x. rewrite R2. cbn. now rewrite K2.
Qed.
