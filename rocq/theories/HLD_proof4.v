(* Heavy-light decomposition: chains *)
From Verif Require Import Base BaseLemmas ListZ ListMore Seq Graph_spec Tree_spec BFS_proof Tree_proof Tree_proof2 Tree_proof3 Tree_proof4 Tree_proof5 HLD_model HLD_proof HLD_proof2 HLD_proof3 HLD_spec.
From Coq Require Import Sorted Permutation.

Lemma slice_nil {A} l r (a : list A) : r <= l -> slice l r a = [].
Proof. intros H. unfold slice. replace (Z.to_nat (r - l)) with O by lia. reflexivity. Qed.
Lemma slice_snoc {A} (d : A) l r (a : list A) : 0 <= l <= r -> r < zlen a -> slice l (r + 1) a = slice l r a ++ [gv d a r].
Proof.
  intros H1 H2. unfold slice, gv. replace (Z.to_nat (r + 1 - l)) with (Z.to_nat (r - l) + 1)%nat by lia.
  replace (nth (Z.to_nat r) a d) with (nth (Z.to_nat (r - l)) (skipn (Z.to_nat l) a) d).
  - assert (B : (Z.to_nat (r - l) < length (skipn (Z.to_nat l) a))%nat) by (rewrite skipn_length; unfold zlen in H2; lia).
    revert B. generalize (skipn (Z.to_nat l) a). generalize (Z.to_nat (r - l)). clear. induction n as [|n IH]; intros [|x s] B; cbn in *; try lia; [now destruct s|]. f_equal. apply IH. lia.
  - replace (Z.to_nat r) with (Z.to_nat l + Z.to_nat (r - l))%nat by lia. generalize (Z.to_nat (r - l)). generalize (Z.to_nat l). clear. intros n m. revert a. induction n as [|n IH]; intros [|x a]; cbn; auto. now destruct m.
Qed.
Lemma slice_len {A} l r (a : list A) : 0 <= l <= r -> r <= zlen a -> zlen (slice l r a) = r - l.
Proof. intros. unfold slice, zlen in *. rewrite firstn_length, skipn_length. lia. Qed.
Lemma slice_gv {A} (d : A) l (a b : list A) : 0 <= l -> l + zlen b <= zlen a -> (forall i, 0 <= i < zlen b -> gv d a (l + i) = gv d b i) -> slice l (l + zlen b) a = b.
Proof.
  intros Hl. induction b as [|x b IH] using rev_ind; intros Hr H; [apply slice_nil; unfold zlen; cbn [length]; lia|].
  rewrite zlen_app, zlen_one in *. pose proof (size_nonneg b) as Z0. rewrite Z.add_assoc, (slice_snoc d) by lia. rewrite IH.
  - f_equal. rewrite H by lia. f_equal. unfold gv, zlen. rewrite Nat2Z.id, app_nth2, Nat.sub_diag by lia. reflexivity.
  - lia.
  - intros i Hi. rewrite H by lia. unfold gv. rewrite app_nth1; auto. unfold zlen in *. lia.
Qed.

Section Chains.
  Variables (g0 g : list (list Z)) (pf dep rt : Z -> Z) (h : hld).
  Hypothesis R : rooted g0 pf.
  Hypothesis D : dep_ok g0 pf dep rt.
  Hypothesis HF : hfacts g0 pf dep rt g h.
  Notation n := (zlen g0).
  Notation ga := (gv (-1)).
  Notation V := (ga (h_visit h)).
  Notation L := (ga (h_leave h)).
  Notation H := (ga (h_head h)).
  Notation O_ := (ga (h_ord h)).
  Notation vtx := (vertex g0).
  Lemma f_n : h_n h = n. Proof. apply HF. Qed.
  Lemma f_placed v : vtx v -> placed g pf (h_visit h, h_leave h, h_head h, h_ord h, n) 0 n v.
  Proof. intros Hv. now apply HF. Qed.
  Lemma f_ord k : 0 <= k < n -> vtx (O_ k) /\ V (O_ k) = k. Proof. now apply HF. Qed.
  Lemma f_visit v : vtx v -> visit_ h v = Ok (V v). Proof. intros Hv. unfold visit_. apply vget_gv. destruct HF as (_ & -> & _). exact Hv. Qed.
  Lemma f_leave v : vtx v -> leave_ h v = Ok (L v). Proof. intros Hv. unfold leave_. apply vget_gv. destruct HF as (_ & _ & -> & _). exact Hv. Qed.
  Lemma f_head v : vtx v -> head_ h v = Ok (H v). Proof. intros Hv. unfold head_. apply vget_gv. destruct HF as (_ & _ & _ & -> & _). exact Hv. Qed.
  Lemma f_olen : zlen (h_ord h) = n. Proof. apply HF. Qed.
  Lemma f_ordk k : 0 <= k < n -> vget (h_ord h) k = Ok (O_ k). Proof. intros Hv. apply vget_gv. rewrite f_olen. exact Hv. Qed.
  Lemma f_par v : vtx v -> par_ h v = Ok (pf v).
  Proof. intros Hv. unfold par_. destruct HF as (_ & _ & _ & _ & _ & _ & Z1 & _ & _ & _ & _ & _ & F & _). rewrite (vget_gv (-1)) by (rewrite Z1; exact Hv). f_equal. now apply F. Qed.
  Lemma f_dep v : vtx v -> dep_ h v = Ok (dep v).
  Proof. intros Hv. unfold dep_. destruct HF as (_ & _ & _ & _ & _ & _ & _ & Z1 & _ & _ & _ & _ & F & _). rewrite (vget_gv (-1)) by (rewrite Z1; exact Hv). f_equal. now apply F. Qed.
  Lemma f_siz v : vtx v -> exists s, vget (h_siz h) v = Ok s /\ subsize g0 pf v s.
  Proof. intros Hv. destruct HF as (_ & _ & _ & _ & _ & Z1 & _ & _ & _ & _ & _ & _ & F & _). exists (ga (h_siz h) v). rewrite (vget_gv (-1)) by (rewrite Z1; exact Hv). split; auto. now apply F. Qed.
  Lemma f_gok : rooted g pf /\ dep_ok g pf dep rt /\ zlen g = n. Proof. split; [apply HF|]. split; apply HF. Qed.
  Lemma vtx_g v : vertex g v <-> vtx v. Proof. unfold vertex. destruct f_gok as (_ & _ & ->). reflexivity. Qed.
  Lemma sub_g a s : subsize g pf a s <-> subsize g0 pf a s.
  Proof. unfold subsize. split; intros (l & N & I & E); exists l; split; auto; split; auto; intros x; rewrite I, vtx_g; reflexivity. Qed.
  (* the subtree of v is the block of visit times starting at V v *)
  Lemma block v : vtx v -> exists t, root t = v /\ (forall w, In w (nodes t) <-> vtx w /\ ancestor pf v w) /\ NoDup (nodes t) /\
     0 <= V v /\ V v + zlen (nodes t) <= n /\ L v = V v + zlen (nodes t) /\ slice (V v) (L v) (h_ord h) = nodes t /\ subsize g0 pf v (zlen (nodes t)).
  Proof.
    intros Hv. destruct (f_placed v Hv) as (t & Ft & Rt & B1 & B2 & El & Eo & _). destruct f_gok as (R' & D' & Zg). exists t. split; auto.
    assert (De : forall w, In w (nodes t) <-> vtx w /\ ancestor pf v w). { intros w. rewrite (fits_desc g pf dep rt R' D' t Ft), Rt, vtx_g. reflexivity. }
    assert (Nd := fits_nodup g pf dep rt R' D' t Ft).
    split; [exact De|]. split; [exact Nd|]. split; [exact B1|]. split; [exact B2|]. split; [exact El|]. split.
    - rewrite El. apply (slice_gv (-1)); auto. now rewrite f_olen.
    - exists (nodes t). auto.
  Qed.
  Lemma V_range v : vtx v -> 0 <= V v < n /\ O_ (V v) = v.
  Proof.
    intros Hv. destruct (f_placed v Hv) as (t & Ft & Rt & B1 & B2 & El & Eo & _). pose proof (size_pos t). split; [lia|].
    rewrite <- (Z.add_0_r (V v)), Eo by lia. destruct t as [u cs]. cbn in *. exact Rt.
  Qed.
  Lemma anc_V a v : vtx a -> vtx v -> (ancestor pf a v <-> V a <= V v < L a).
  Proof.
    intros Ha Hv. destruct (f_placed a Ha) as (t & Ft & Rt & B1 & B2 & El & Eo & _). destruct f_gok as (R' & D' & Zg).
    assert (De : forall w, In w (nodes t) <-> vtx w /\ ancestor pf a w). { intros w. rewrite (fits_desc g pf dep rt R' D' t Ft), Rt, vtx_g. reflexivity. }
    rewrite El. split.
    - intros A. assert (I : In v (nodes t)) by (apply De; auto). apply In_vget in I as (i & Ri & I). pose proof (gv_vget (-1) _ _ _ I) as G. specialize (Eo i Ri). destruct (f_ord (V a + i) ltac:(lia)) as (_ & E). rewrite Eo, G in E. lia.
    - intros X. apply De. rewrite <- (proj2 (V_range v Hv)). replace (V v) with (V a + (V v - V a)) by lia. rewrite Eo by lia. apply ga_In. lia.
  Qed.
  Lemma V_inj u v : vtx u -> vtx v -> V u = V v -> u = v.
  Proof. intros Hu Hv E. rewrite <- (proj2 (V_range u Hu)), <- (proj2 (V_range v Hv)), E. reflexivity. Qed.
  Lemma V_par v : vtx v -> pf v <> -1 -> V (pf v) < V v.
  Proof.
    intros Hv N. assert (Hp := par_vertex g0 pf R v Hv N). pose proof (anc_par pf v N) as A. apply anc_V in A; auto.
    assert (V (pf v) <> V v); [|lia]. intros E. apply V_inj in E; auto. now apply (par_neq g0 pf dep rt D v Hv).
  Qed.
  Lemma head_cases v : vtx v -> (pf v <> -1 /\ vget (row g (pf v)) 0 = Ok v /\ H v = H (pf v) /\ V v = V (pf v) + 1) \/ (~ front g pf v /\ H v = v).
  Proof. intros Hv. destruct (f_placed v Hv) as (t & _ & _ & _ & _ & _ & _ & [((F1 & F2) & F3)|X]); [left; split; auto; split; auto|right; auto]. Qed.
  Lemma dep_ind (P : Z -> Prop) : (forall v, vtx v -> (pf v <> -1 -> P (pf v)) -> P v) -> forall v, vtx v -> P v.
  Proof.
    intros F. assert (G : forall k, 0 <= k -> forall v, vtx v -> dep v <= k -> P v).
    - intros k Hk. pattern k. apply natlike_ind; auto.
      + intros v Hv Hd. apply F; auto. intros N. pose proof (dep_par g0 pf dep rt D v Hv N). pose proof (dep_nonneg g0 pf dep rt D (pf v) (par_vertex g0 pf R v Hv N)). lia.
      + intros k' Hk' IH v Hv Hd. apply F; auto. intros N. apply IH; [now apply (par_vertex g0 pf R)|]. pose proof (dep_par g0 pf dep rt D v Hv N). lia.
    - intros v Hv. apply (G (dep v)); [now apply (dep_nonneg g0 pf dep rt D)|auto|lia].
  Qed.
  Definition chainp (v : Z) : Prop := vtx (H v) /\ V (H v) <= V v /\ H (H v) = H v /\
    forall j, 0 <= j <= V v - V (H v) -> climb pf j v (O_ (V v - j)) /\ H (O_ (V v - j)) = H v.
  Lemma chain v : vtx v -> chainp v.
  Proof.
    revert v. apply dep_ind. intros v Hv IH. unfold chainp. destruct (head_cases v Hv) as [(N & _ & Eh & Ev)|(_ & Eh)].
    - destruct (IH N) as (I1 & I2 & I3 & I4). rewrite Eh. split; auto. split; [lia|]. split; auto. intros j Hj. destruct (Z.eq_dec j 0) as [->|Nj].
      + rewrite Z.sub_0_r, (proj2 (V_range v Hv)). split; [constructor|auto].
      + destruct (I4 (j - 1) ltac:(lia)) as (C & E). replace (V v - j) with (V (pf v) - (j - 1)) by lia. split; auto. replace j with (j - 1 + 1) by lia. replace (V (pf v) - (j - 1 + 1 - 1)) with (V (pf v) - (j - 1)) by lia. now constructor.
    - rewrite !Eh. split; auto. split; [lia|]. split; auto. intros j Hj. assert (j = 0) by lia. subst j. rewrite Z.sub_0_r, (proj2 (V_range v Hv)). split; [constructor|auto].
  Qed.
  Lemma same_chain x y : vtx x -> vtx y -> H x = H y -> V x <= V y -> climb pf (V y - V x) y x.
  Proof.
    intros Hx Hy E Le. destruct (chain x Hx) as (_ & X & _). destruct (chain y Hy) as (_ & _ & _ & C). rewrite E in X.
    destruct (C (V y - V x) ltac:(lia)) as (C' & _). replace (V y - (V y - V x)) with (V x) in C' by lia. now rewrite (proj2 (V_range x Hx)) in C'.
  Qed.
  Lemma head_climb y : vtx y -> climb pf (V y - V (H y)) y (H y).
  Proof. intros Hy. destruct (chain y Hy) as (A & B & C & _). apply same_chain; auto. Qed.
  Lemma head_anc y : vtx y -> ancestor pf (H y) y. Proof. intros Hy. eexists. now apply head_climb. Qed.
  Lemma not_over x y : vtx x -> vtx y -> H x <> H y -> V x <= V y -> ~ ancestor pf (H y) x.
  Proof.
    intros Hx Hy N Le A. destruct (chain y Hy) as (Hh & B & C & F). apply anc_V in A; auto.
    destruct (F (V y - V x) ltac:(lia)) as (_ & E). replace (V y - (V y - V x)) with (V x) in E by lia. rewrite (proj2 (V_range x Hx)) in E. auto.
  Qed.
  Lemma lift_anc x y b : vtx x -> vtx y -> H x <> H y -> V x <= V y -> ancestor pf b x -> ancestor pf b y -> pf (H y) <> -1 /\ ancestor pf b (pf (H y)).
  Proof.
    intros Hx Hy N Le A B. pose proof (not_over x y Hx Hy N Le) as No. destruct (anc_compare pf y b (H y) B (head_anc y Hy)) as [X|X].
    - destruct (anc_inv pf b (H y) X) as [->|X']; [contradiction|]. exact X'.
    - exfalso. apply No. now apply (anc_trans pf _ b).
  Qed.
  Lemma lift_lca x y a : vtx x -> vtx y -> H x <> H y -> V x <= V y -> is_lca pf x y a ->
    pf (H y) <> -1 /\ vtx (pf (H y)) /\ is_lca pf x (pf (H y)) a /\ V (pf (H y)) < V y.
  Proof.
    intros Hx Hy N Le (A1 & A2 & A3). destruct (lift_anc x y a Hx Hy N Le A1 A2) as (Np & Ap). destruct (chain y Hy) as (Hh & B & C & F).
    split; auto. split; [now apply (par_vertex g0 pf R)|]. split.
    - split; auto. split; auto. intros b B1 B2. apply A3; auto. apply (anc_trans pf _ (pf (H y))); auto. apply (anc_trans pf _ (H y)); [now apply anc_par|now apply head_anc].
    - pose proof (V_par (H y) Hh Np). lia.
  Qed.
  (* a stretch of a chain, as a block of visit times *)
  Lemma stretch x y : vtx x -> vtx y -> H x = H y -> V x <= V y ->
    slice (V x + 1) (V y + 1) (h_ord h) = rev (ups pf (Z.to_nat (V y - V x)) y) /\ slice (V x) (V y + 1) (h_ord h) = x :: rev (ups pf (Z.to_nat (V y - V x)) y).
  Proof.
    intros Hx Hy E Le. destruct (chain x Hx) as (_ & X & _). destruct (chain y Hy) as (_ & _ & _ & C). rewrite E in X. pose proof (proj1 (V_range y Hy)) as Ry. pose proof (proj1 (V_range x Hx)) as Rx.
    assert (G : forall k, 0 <= k -> forall m w, 0 <= m -> V x + k + m = V y -> climb pf m y w -> slice (V x + 1) (V x + 1 + k) (h_ord h) = rev (ups pf (Z.to_nat k) w) /\ slice (V x) (V x + 1 + k) (h_ord h) = x :: rev (ups pf (Z.to_nat k) w)).
    { intros k Hk. pattern k. apply natlike_ind; auto.
      - intros m w Hm Ek Cw. rewrite Z.add_0_r. split; [apply slice_nil; lia|]. rewrite (slice_snoc (-1)) by (rewrite ?f_olen; lia). rewrite slice_nil by lia. cbn. f_equal. apply (V_range x Hx).
      - intros k' Hk' IH m w Hm Ek Cw. replace (V x + 1 + Z.succ k') with (V x + 1 + k' + 1) by lia.
        rewrite !(slice_snoc (-1)) by (rewrite ?f_olen; lia). destruct (C m ltac:(lia)) as (Cm & _). pose proof (climb_fun pf _ _ _ _ Cw Cm) as Ew. destruct (C (m + 1) ltac:(lia)) as (Cm1 & _).
        destruct (climb_split pf m 1 y _ Hm ltac:(lia) Cm1) as (w' & C1 & C2). pose proof (climb_fun pf _ _ _ _ C1 Cw). subst w'. apply climb_inv in C2 as [C2|(_ & Nw & C2)]; [lia|].
        destruct (IH (m + 1) (pf w)) as (I1 & I2); [lia|lia|now apply climb_snoc|]. rewrite I1, I2. rewrite Z2Nat.inj_succ by lia. cbn [ups rev].
        replace (O_ (V x + 1 + k')) with w by (rewrite Ew; f_equal; lia). split; reflexivity. }
    destruct (G (V y - V x) ltac:(lia) 0 y) as (G1 & G2); [lia|lia|constructor|]. replace (V x + 1 + (V y - V x)) with (V y + 1) in * by lia. auto.
  Qed.
End Chains.
