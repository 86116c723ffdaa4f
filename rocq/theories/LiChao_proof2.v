From Coq Require Import Permutation Sorted.
From Verif Require Import Base BaseLemmas ListZ Seq Hist Sorting Compress_model Compress_proof SegTree_model SegTree_proof LiChao_model LiChao_spec LiChao_proof.

Definition sgn (neg : bool) (v : Z) : Z := if neg then - v else v.
Definition mn (l : list Z) : Z := fold_left Z.min l tmax.
Lemma fold_min l : forall a, fold_left Z.min l a <= a.
Proof. induction l as [|x l IH]; intro a; cbn [fold_left]; [lia|]. specialize (IH (Z.min a x)). lia. Qed.
Lemma fold_min_in l : forall a, fold_left Z.min l a = a \/ In (fold_left Z.min l a) l.
Proof. induction l as [|x l IH]; intro a; cbn [fold_left]; [auto|]. destruct (IH (Z.min a x)) as [E|E]; cbn [In]; [|auto]. rewrite E. destruct (Z.min_dec a x) as [Q|Q]; rewrite Q; auto. Qed.
Lemma fold_minmax l : forall a, - fold_left Z.min (map Z.opp l) (- a) = fold_left Z.max l a.
Proof. induction l as [|x l IH]; intro a; cbn [fold_left map]; [lia|]. replace (Z.min (- a) (- x)) with (- Z.max a x) by lia. apply IH. Qed.
Lemma values_app x ss s : values_at x (ss ++ [s]) = values_at x ss ++ (if covers x s then [value_at x s] else []).
Proof. unfold values_at. rewrite filter_app, map_app. cbn [filter]. destruct (covers x s); auto. Qed.

Section LCT.
  Variables (neg : bool) (xs c : list Z) (h : Z) (fill : Z).
  Hypothesis Hc : incr c.
  Hypothesis Hin : forall x, In x c <-> In x xs.
  Hypothesis Hn : 0 < zlen c.
  Hypothesis Hh : 0 <= h.
  Hypothesis Hm : zlen c <= 2 ^ h.
  Hypothesis Hf : vget c (zlen c - 1) = Ok fill.
  Notation m := (2 ^ h).
  Notation n := (zlen c).
  Definition P := c ++ vrep (m - n) fill.
  Definition px (p : Z) : Z := nth (Z.to_nat p) P 0.

  Lemma P_len : zlen P = m. Proof. unfold P. rewrite zlen_app, zlen_vrep by lia. lia. Qed.
  Lemma P_rep : rep P m px.
  Proof. split; [apply P_len|]. intros i Hi. apply vget_nth. rewrite P_len. lia. Qed.
  Lemma px_lo p : 0 <= p < n -> vget c p = Ok (px p).
  Proof. intro H. rewrite <- (rep_get P m px p P_rep) by lia. unfold P. symmetry. apply vget_app1. lia. Qed.
  Lemma px_hi p : n <= p < m -> px p = fill.
  Proof. intro H. pose proof (rep_get P m px p P_rep ltac:(lia)) as E. unfold P in E. rewrite vget_app2, vget_vrep in E by lia. now injection E. Qed.
  Lemma px_last : px (n - 1) = fill.
  Proof. pose proof (px_lo (n - 1) ltac:(lia)) as E. rewrite Hf in E. now injection E. Qed.
  Lemma px_mono p q : 0 <= p <= q -> q < m -> px p <= px q.
  Proof.
    assert (A : forall p q, 0 <= p <= q -> q < n -> px p <= px q).
    { intros p' q' H1 H2. destruct (Z.eq_dec p' q') as [->|N]; [lia|]. pose proof (incr_get c p' q' _ _ Hc (px_lo p' ltac:(lia)) (px_lo q' ltac:(lia)) ltac:(lia)). lia. }
    intros H1 H2. destruct (Z.lt_ge_cases q n); [auto|]. rewrite (px_hi q) by lia. destruct (Z.lt_ge_cases p n); [|rewrite (px_hi p) by lia; lia].
    rewrite <- px_last. apply A; lia.
  Qed.
  Lemma px_in p : 0 <= p < m -> In (px p) xs.
  Proof.
    intro H. apply Hin. destruct (Z.lt_ge_cases p n).
    - eapply vget_In. apply px_lo. lia.
    - rewrite px_hi by lia. eapply vget_In. eauto.
  Qed.
  Lemma in_px x : In x xs -> exists p, 0 <= p < n /\ px p = x.
  Proof.
    intro H. apply Hin in H. destruct (In_vget _ _ H) as (p & B & E). exists p. split; auto. rewrite px_lo in E by auto. now injection E.
  Qed.
  (* the first position where an upward closed property holds *)
  Lemma fp_iff (f : Z -> bool) : (forall x y, x <= y -> f x = true -> f y = true) -> forall p, 0 <= p < m -> (first_pos f P <= p <-> f (px p) = true).
  Proof.
    intros U p Hp. pose proof (rep_get P m px p P_rep Hp) as E. split; intro H.
    - pose proof (first_pos_range f P). apply U with (px (first_pos f P)); [apply px_mono; lia|]. apply (first_pos_at f P). apply (rep_get P m px _ P_rep). lia.
    - destruct (Z.le_gt_cases (first_pos f P) p); auto. rewrite (first_pos_lt f P p _ E) in H by lia. discriminate.
  Qed.
  Lemma ub_n v : upper_bound P v = n -> n = m.
  Proof.
    intro E. destruct (Z.eq_dec n m) as [|Nm]; auto. exfalso. unfold upper_bound in E.
    assert (U : forall x y, x <= y -> (v <? x) = true -> (v <? y) = true) by (intros; lia).
    pose proof (fp_iff (fun x => v <? x) U n ltac:(lia)) as A. pose proof (fp_iff (fun x => v <? x) U (n - 1) ltac:(lia)) as B.
    rewrite px_hi in A by lia. rewrite px_last in B. destruct A as [A _]. specialize (A ltac:(lia)). apply B in A. lia.
  Qed.

  Definition Inv (s : lichao) (ss : list segment) : Prop :=
    (exists g, is P px h n s g /\ forall p, 0 <= p < m -> best px h g p = mn (map (sgn neg) (values_at (px p) ss))) /\
    forall t, In t ss -> fits neg xs t = true.

  Lemma fits_at t x : fits neg xs t = true -> In x xs -> covers x t = true ->
    okl (sgn neg (sg_a t), sgn neg (sg_b t)) x /\ val (sgn neg (sg_a t), sgn neg (sg_b t)) x = sgn neg (value_at x t) /\ sgn neg (value_at x t) < tmax /\ rep64 (value_at x t) = true.
  Proof.
    unfold fits. intros H Hx C. apply andb_true_iff in H as [H _]. rewrite forallb_forall in H. specialize (H x Hx). rewrite C in H.
    unfold rep64, value_at in *. unfold okl, val. cbn [fst snd].
    assert (V : sgn neg (sg_a t) * x + sgn neg (sg_b t) = sgn neg (sg_a t * x + sg_b t)) by (destruct neg; cbn [sgn]; ring).
    assert (B : - 2 ^ 63 <= sgn neg (sg_a t) * x < 2 ^ 63 /\ - 2 ^ 63 <= sgn neg (sg_a t * x + sg_b t) < tmax /\ (- 2 ^ 63 <=? sg_a t * x + sg_b t) && (sg_a t * x + sg_b t <? 2 ^ 63) = true).
    { unfold tmax. destruct neg; cbn [sgn]; lia. }
    destruct B as (B1 & B2 & B3).
    assert (N : line_eqb (sgn neg (sg_a t), sgn neg (sg_b t)) line_e = false).
    { unfold line_eqb, line_e. cbn [fst snd]. destruct (sgn neg (sg_a t) =? 0) eqn:E0; auto. cbn [andb]. apply Z.eqb_neq. intro E1.
      apply Z.eqb_eq in E0. rewrite E0, E1 in V. lia. }
    rewrite N, V. split; [right; auto|]. split; [auto|]. split; [lia|auto].
  Qed.

  Lemma add_ok s ss lo hi a b : Inv s ss -> fits neg xs (Seg lo hi a b) = true -> exists s', lc_add neg s lo hi a b = Ok s' /\ Inv s' (ss ++ [Seg lo hi a b]).
  Proof.
    intros ((g & I & HB) & HF) F. set (t := Seg lo hi a b) in *. unfold lc_add.
    assert (E : (if neg then line_neg (a, b) else Ok (a, b)) = Ok (sgn neg a, sgn neg b)).
    { unfold fits, rep64 in F. apply andb_true_iff in F as [_ F]. destruct neg; auto. unfold line_neg, i64. cbn [fst snd sgn sg_a sg_b t] in *.
      replace ((- 2 ^ 63 <=? - a) && (- a <? 2 ^ 63)) with true by lia. replace ((- 2 ^ 63 <=? - b) && (- b <? 2 ^ 63)) with true by lia. auto. }
    rewrite E. cbn [bind]. pose proof I as (I1 & I2 & I3 & _). rewrite I1, I2, I3.
    assert (Er : (if upper_bound P hi =? n then m else upper_bound P hi) = upper_bound P hi).
    { destruct (upper_bound P hi =? n) eqn:B; auto. pose proof (ub_n hi ltac:(lia)). lia. }
    cbv zeta. rewrite Er.
    assert (C : forall p, 0 <= p < m -> (lower_bound P lo <=? p) && (p <? upper_bound P hi) = covers (px p) t).
    { intros p Hp. unfold lower_bound, upper_bound, covers. cbn [sg_lo sg_hi t].
      pose proof (fp_iff (fun x => negb (x <? lo)) ltac:(intros; lia) p Hp). pose proof (fp_iff (fun x => hi <? x) ltac:(intros; lia) p Hp). cbv beta in *. lia. }
    pose proof (first_pos_range (fun x => negb (x <? lo)) P) as RL. pose proof (first_pos_range (fun x => hi <? x) P) as RR. rewrite P_len in RL, RR.
    destruct (walk_ok P px h Hh P_rep px_mono n (sgn neg a, sgn neg b) (lower_bound P lo) (upper_bound P hi) s g I RL RR) as (s' & g' & E' & I' & B').
    { unfold lower_bound, upper_bound in *. intros p Hp. specialize (C p ltac:(lia)). apply (fits_at t (px p)); auto; [apply px_in; lia|]. rewrite <- C. lia. }
    rewrite E'. exists s'. split; auto. split.
    - exists g'. split; auto. intros p Hp. rewrite B', C, HB by auto. rewrite values_app, map_app. unfold mn. rewrite fold_left_app.
      destruct (covers (px p) t) eqn:Cv; auto. cbn [map fold_left]. f_equal. now apply (fits_at t (px p) F (px_in p Hp)).
    - intros u Hu. apply in_app_iff in Hu as [Hu|[<-|[]]]; auto.
  Qed.

  Lemma query_ok s ss x : Inv s ss ->
    lc_query neg s x = (if existsb (Z.eqb x) xs then Ok (if neg then greatest (values_at x ss) else least (values_at x ss))
      else if existsb (fun y => x <? y) xs then Abort else lc_query neg s x).
  Proof.
    intros ((g & I & HB) & HF). pose proof I as (I1 & I2 & I3 & _). unfold lc_query. rewrite I1, I3.
    assert (U : forall u v, u <= v -> negb (u <? x) = true -> negb (v <? x) = true) by (intros; lia).
    pose proof (first_pos_range (fun v => negb (v <? x)) P) as R. fold (lower_bound P x) in R.
    destruct (existsb (Z.eqb x) xs) eqn:Q.
    - assert (Hx : In x xs). { apply existsb_exists in Q as (y & Hy & Ey). assert (x = y) by lia. now subst. }
      destruct (in_px x Hx) as (i & Hi & Ei).
      assert (L : lower_bound P x <= i). { apply (fp_iff _ U); [lia|]. rewrite Ei. lia. }
      assert (Ep : px (lower_bound P x) = x).
      { assert (negb (px (lower_bound P x) <? x) = true) by (apply (fp_iff _ U); [lia|]; unfold lower_bound; lia). pose proof (px_mono (lower_bound P x) i ltac:(lia) ltac:(lia)). lia. }
      rewrite (rep_get P m px _ P_rep) by lia. cbn [bind]. rewrite Ep, Z.eqb_refl. cbn [assert_ bind].
      set (p := lower_bound P x) in *. assert (Hp : 0 <= p < m) by lia. rewrite <- Ep at 1. rewrite (up_ok P px h Hh px_mono n s g p I Hp). cbn [bind]. rewrite HB by auto. rewrite Ep.
      assert (G : forall v, In v (values_at x ss) -> sgn neg v < tmax /\ rep64 v = true).
      { intros v Hv. unfold values_at in Hv. apply in_map_iff in Hv as (t & <- & Ht). apply filter_In in Ht as [Ht Ct].
        destruct (fits_at t x (HF t Ht) Hx Ct) as (_ & _ & B1 & B2). auto. }
      unfold mn. destruct (values_at x ss) as [|v l] eqn:Ev.
      + cbn [map fold_left]. rewrite Z.eqb_refl. destruct neg; auto.
      + cbn [map fold_left]. destruct (G v ltac:(now left)) as [G1 _]. replace (Z.min tmax (sgn neg v)) with (sgn neg v) by lia.
        pose proof (fold_min (map (sgn neg) l) (sgn neg v)). replace (_ =? tmax) with false by lia.
        assert (G2 : In (fold_left Z.min (map (sgn neg) l) (sgn neg v)) (map (sgn neg) (v :: l))).
        { cbn [map In]. destruct (fold_min_in (map (sgn neg) l) (sgn neg v)) as [->|]; auto. }
        apply in_map_iff in G2 as (w & E & Hw). destruct (G w Hw) as [_ Gw]. cbn [greatest least]. destruct neg; cbn [sgn] in *.
        * rewrite <- E. unfold i64. rewrite Z.opp_involutive. unfold rep64 in Gw. rewrite Gw. cbn [bind]. do 2 f_equal. rewrite <- fold_minmax. rewrite (map_ext (sgn true) Z.opp) in E by auto. lia.
        * do 2 f_equal. f_equal. rewrite (map_ext (sgn false) (fun z => z)) by auto. apply map_id.
    - destruct (existsb (fun y => x <? y) xs) eqn:Q2; auto. apply existsb_exists in Q2 as (y & Hy & Lt). destruct (in_px y Hy) as (i & Hi & Ei).
      assert (L : lower_bound P x <= i). { apply (fp_iff _ U); [lia|]. rewrite Ei. lia. }
      rewrite (rep_get P m px _ P_rep) by lia. cbn [bind].
      replace (px (lower_bound P x) =? x) with false; auto. symmetry. apply Z.eqb_neq. intro E.
      assert (existsb (Z.eqb x) xs = true); [|congruence]. apply existsb_exists. exists x. split; [|lia]. rewrite <- E. apply px_in. lia.
  Qed.

  Lemma lc_sim s ss o : Inv s ss ->
    match lc_spec neg xs ss o with
    | Ok (r, ss') => exists s', lc_step neg s o = Ok (r, s') /\ Inv s' ss'
    | Abort => lc_step neg s o = Abort
    | OutOfFuel => False
    | UB => True
    end.
  Proof.
    intro I. destruct o as [lo hi a b|a b|x]; cbn [lc_spec lc_step].
    - destruct (fits neg xs (Seg lo hi a b)) eqn:F; [|auto]. destruct (add_ok _ _ _ _ _ _ I F) as (s' & E & I'). rewrite E. cbn [bind]. eauto.
    - destruct (fits neg xs _) eqn:F; [|auto]. unfold lc_add_line. destruct (add_ok _ _ _ _ _ _ I F) as (s' & E & I'). unfold tmin, tmax. rewrite E. cbn [bind]. eauto.
    - pose proof (query_ok s ss x I) as E. destruct (existsb (Z.eqb x) xs).
      + rewrite E. cbn [bind]. eauto.
      + destruct (existsb (fun y => x <? y) xs); [now rewrite E|auto].
  Qed.
End LCT.

Lemma li_chao_ neg xs ops : xs <> [] -> snd (run (lc_spec neg xs) [] ops) <> UB ->
  exists s, lc_new xs = Ok s /\ run (lc_step neg) s ops = run (lc_spec neg xs) [] ops.
Proof.
  intros Hx H. unfold lc_new. destruct (Compress_proof.build_ok xs) as (c & E & Hc & Hin). unfold Compress_model.build, compressor in E.
  destruct (is_strictly_sorted (unique (isort Z.leb xs))); [|discriminate]. cbn [assert_ bind] in E. injection E as ->.
  assert (Hn : 0 < zlen c). { destruct xs as [|x xs]; [congruence|]. destruct c as [|y c]; [|rewrite zlen_cons; pose proof (zlen_nonneg c); lia]. destruct (proj2 (Hin x)). now left. }
  destruct (ceil_pow2_ok (zlen c)) as (h & Hh & E & Hm). rewrite E. cbn [bind]. pose proof (Z.pow_pos_nonneg 2 h ltac:(lia) Hh).
  unfold lc_floor_log2. replace (0 <? 2 ^ h) with true by lia. cbn [bind]. rewrite Z.log2_pow2 by lia. replace (zlen c =? 0) with false by lia.
  destruct (vget_Ok c (zlen c - 1) ltac:(lia)) as [fill Hf]. rewrite Hf. cbn [bind]. eexists; split; [reflexivity|].
  apply (run_sim _ _ (Inv neg xs c h fill)); auto.
  - intros s a o I. now apply (lc_sim neg xs c h fill).
  - split; [|intros t []]. exists (fun _ => line_e). split.
    + unfold is. cbn. split; [reflexivity|]. do 3 (split; [reflexivity|]). split; [apply rep_vrep; lia|]. intros p j _ _. left. reflexivity.
    + intros p Hp. change (mn _) with tmax. unfold best. generalize (p + 2 ^ h). generalize (S (Z.to_nat h)). intro k. induction k as [|k IH]; intro q; cbn [bestn]; [reflexivity|]. rewrite IH. reflexivity.
Qed.
Lemma beyond_ neg xs x : xs <> [] -> (forall y, In y xs -> y < x) -> exists s, lc_new xs = Ok s /\ lc_query neg s x = UB.
Proof.
  intros Hx H. unfold lc_new. destruct (Compress_proof.build_ok xs) as (c & E & Hc & Hin). unfold Compress_model.build, compressor in E.
  destruct (is_strictly_sorted (unique (isort Z.leb xs))); [|discriminate]. cbn [assert_ bind] in E. injection E as ->.
  assert (Hn : 0 < zlen c). { destruct xs as [|y xs]; [congruence|]. destruct c as [|z c]; [|rewrite zlen_cons; pose proof (zlen_nonneg c); lia]. destruct (proj2 (Hin y)). now left. }
  destruct (ceil_pow2_ok (zlen c)) as (h & Hh & E & Hm). rewrite E. cbn [bind]. pose proof (Z.pow_pos_nonneg 2 h ltac:(lia) Hh).
  unfold lc_floor_log2. replace (0 <? 2 ^ h) with true by lia. cbn [bind]. replace (zlen c =? 0) with false by lia.
  destruct (vget_Ok c (zlen c - 1) ltac:(lia)) as [fill Hf]. rewrite Hf. cbn [bind]. eexists; split; [reflexivity|].
  unfold lc_query. cbn [lc_pos]. change (c ++ vrep (2 ^ h - zlen c) fill) with (P c h fill).
  pose proof (first_pos_range (fun v => negb (v <? x)) (P c h fill)) as R. fold (lower_bound (P c h fill) x) in R. rewrite (P_len xs) in R by auto.
  assert (L : lower_bound (P c h fill) x = 2 ^ h).
  { destruct (Z.eq_dec (lower_bound (P c h fill) x) (2 ^ h)); auto. exfalso.
    pose proof (rep_get _ _ _ (lower_bound (P c h fill) x) (P_rep xs c h fill Hin Hm) ltac:(lia)) as G. apply (first_pos_at (fun v => negb (v <? x))) in G.
    pose proof (H _ (px_in xs c h fill Hin Hn Hh Hm Hf (lower_bound (P c h fill) x) ltac:(lia))). lia. }
  rewrite L. destruct (vget (P c h fill) (2 ^ h)) eqn:G.
  - apply vget_range in G. rewrite (P_len xs) in G by auto. lia.
  - reflexivity.
  - unfold vget in G. destruct (2 ^ h <? 0); [discriminate|]. destruct (nth_error _ _); discriminate.
  - unfold vget in G. destruct (2 ^ h <? 0); [discriminate|]. destruct (nth_error _ _); discriminate.
Qed.
