From Verif Require Import Base BaseLemmas ListZ PFen_spec PFen_model PFen_proof.

Lemma build_rec_ok n A k : (forall m, psum A m = 0) -> forall fuel off h nodes, (k < fuel)%nat -> 0 <= off -> zlen nodes = n + 1 ->
  exists q h' nodes', build_rec fuel n (hp k) (off + hp k) h nodes = Ok (q, h', nodes') /\ zlen h <= zlen h' /\ (forall j, j < zlen h -> vget h' j = vget h j) /\ repb h' n (zlen h) (zlen h') k off q A /\
    (forall j c, zlen h <= j -> vget h' j = Ok c -> snd c = 0) /\ zlen nodes' = n + 1 /\
    (forall j, off < j < off + 2 ^ Z.of_nat k -> j <= n -> exists x, vget nodes' j = Ok x /\ zlen h <= x < zlen h') /\ (forall j, ~ off < j < off + 2 ^ Z.of_nat k -> vget nodes' j = vget nodes j).
Proof.
  intros Z0. induction k as [|k IH]; intros fuel off h nodes F Ho Ln; destruct fuel as [|fuel]; try lia; cbn [build_rec hp].
  - exists (-1), h, nodes. cbn [Z.eqb]. split; auto. split; [lia|]. split; auto. split; [exact I|]. split; [intros j c Hj E; apply vget_range in E; lia|]. split; auto. split; auto. intros j Hj. change (2 ^ Z.of_nat 0) with 1 in Hj. lia.
  - set (p := 2 ^ Z.of_nat k). assert (Pp : 0 < p) by apply pow_pos. assert (P2 : 2 ^ Z.of_nat (S k) = 2 * p) by apply pow_S. destruct (Z.eqb_spec p 0); [lia|].
    assert (Hh : p / 2 = hp k) by apply hp_half. assert (Hk : p = 1 /\ hp k = 0 \/ p = 2 * hp k) by (unfold p; destruct k; [left; auto|right; apply pow_S]). rewrite Hh. pose proof (zlen_nonneg h) as Hh0.
    set (h1 := h ++ [fresh]). assert (L1 : zlen h1 = zlen h + 1) by (unfold h1; rewrite zlen_app; reflexivity).
    destruct (IH fuel off h1 nodes ltac:(lia) Ho Ln) as (c0 & h2 & nd2 & E2 & L2 & F2 & R2 & Z2 & Ln2 & N2 & N2').
    assert (E2' : build_rec fuel n (hp k) (off + p - hp k) h1 nodes = Ok (c0, h2, nd2)). { destruct Hk as [(Q1 & Q2)|Q]; [|replace (off + p - hp k) with (off + hp k) by lia; exact E2]. rewrite Q2 in *. destruct fuel; [lia|]. cbn [build_rec Z.eqb] in *. exact E2. }
    rewrite E2'. cbn [bind]. assert (Eq : vget h2 (zlen h) = Ok fresh) by (rewrite F2 by lia; apply vget_snoc). rewrite Eq. cbn [bind]. unfold fresh at 1 2. cbn [fst snd]. rewrite vset_ok by lia. cbn [bind].
    set (h3 := zupd h2 (zlen h) (c0, -1, 0)). assert (L3 : zlen h3 = zlen h2) by apply zlen_zupd. assert (E3 : vget h3 (zlen h) = Ok (c0, -1, 0)) by (apply vget_zupd_same; lia). assert (F3 : forall j, j <> zlen h -> vget h3 j = vget h2 j) by (intros j N; apply vget_zupd_diff; lia).
    match goal with |- context [let* r := ?X in _] => set (second := X) end.
    assert (S5 : exists h5 nd5 cr, second = Ok (h5, nd5) /\ zlen h3 <= zlen h5 /\ vget h5 (zlen h) = Ok (c0, cr, 0) /\ (forall j, j <> zlen h -> j < zlen h3 -> vget h5 j = vget h3 j) /\ (off + p + 1 <= n -> repb h5 n (zlen h3) (zlen h5) k (off + p) cr A) /\
      (forall j c, zlen h3 <= j -> vget h5 j = Ok c -> snd c = 0) /\ zlen nd5 = n + 1 /\ (forall j, off + p < j < off + 2 * p -> j <= n -> exists x, vget nd5 j = Ok x /\ zlen h3 <= x < zlen h5) /\ (forall j, ~ off + p < j < off + 2 * p -> vget nd5 j = vget nd2 j)).
    { unfold second. destruct (Z.leb_spec (off + p + 1) n) as [L|L].
      - destruct (IH fuel (off + p) h3 nd2 ltac:(lia) ltac:(lia) Ln2) as (c1 & h4 & nd4 & E4 & L4 & F4 & R4 & Z4 & Ln4 & N4 & N4'). rewrite E4. cbn [bind]. assert (E4h : vget h4 (zlen h) = Ok (c0, -1, 0)) by (rewrite F4 by lia; auto). rewrite E4h. cbn [bind fst snd]. rewrite vset_ok by lia. cbn [bind].
        assert (Fr : forall j, j <> zlen h -> vget (zupd h4 (zlen h) (c0, c1, 0)) j = vget h4 j) by (intros j N; apply vget_zupd_diff; lia).
        eexists _, nd4, c1. split; [reflexivity|]. rewrite zlen_zupd. split; [lia|]. split; [apply vget_zupd_same; lia|]. split; [intros j N Hj; rewrite Fr by auto; now apply F4|]. split; [intros _; apply (repb_frame h4 _ n (zlen h3) (zlen h3) (zlen h4) (zlen h4)); try lia; auto; intros q Hq; apply Fr; lia|]. split; [intros j c Hj; rewrite Fr by lia; now apply Z4|]. split; auto. fold p in N4, N4'. split; [intros j Hj Hn; apply N4; lia|intros j Hj; apply N4'; lia].
      - exists h3, nd2, (-1). split; auto. split; [lia|]. split; auto. split; auto. split; [lia|]. split; [intros j c Hj E; apply vget_range in E; lia|]. split; auto. split; [intros j Hj Hn; lia|auto]. }
    destruct S5 as (h5 & nd5 & cr & E5 & L5 & E5h & F5 & R5 & Z5 & Ln5 & N5 & N5'). rewrite E5. cbn [bind].
    assert (S6 : exists nd6, (if off + p <=? n then vset nd5 (off + p) (zlen h) else Ok nd5) = Ok nd6 /\ zlen nd6 = n + 1 /\ (forall j, j <> off + p -> vget nd6 j = vget nd5 j) /\ (off + p <= n -> vget nd6 (off + p) = Ok (zlen h))).
    { destruct (Z.leb_spec (off + p) n) as [L|L]; [|exists nd5; split; auto; split; auto; split; auto; lia]. rewrite vset_ok by lia. eexists. split; [reflexivity|]. rewrite zlen_zupd. split; auto. split; [intros j N; apply vget_zupd_diff; lia|intros _; apply vget_zupd_same; lia]. }
    destruct S6 as (nd6 & E6 & Ln6 & F6 & P6). rewrite E6. cbn [bind]. exists (zlen h), h5, nd6. split; auto. split; [lia|]. split; [|split; [|split; [|split; [auto|split]]]].
    + intros j Hj. rewrite F5 by lia. rewrite F3 by lia. rewrite F2 by lia. apply vget_old. auto.
    + rewrite rep_S. fold p. split; [lia|]. exists c0, cr, 0. split; auto. split; [now rewrite !Z0|]. split; [|intros L; apply (repb_frame h5 _ n (zlen h3) _ (zlen h5)); auto; lia].
      apply (repb_frame h2 _ n (zlen h1) _ (zlen h2)); auto; try lia. intros q Hq. rewrite F5 by lia. apply F3. lia.
    + intros j c Hj E. destruct (Z.eq_dec j (zlen h)) as [->|Nj]; [rewrite E5h in E; now injection E as <-|]. destruct (Z_lt_le_dec j (zlen h3)) as [Lt|Lt]; [rewrite F5, F3 in E by lia; apply (Z2 j c); auto; lia|apply (Z5 j c); auto].
    + intros j Hj Hn. rewrite P2 in Hj. destruct (Z.eq_dec j (off + p)) as [->|Nj]; [exists (zlen h); split; [now apply P6|lia]|]. rewrite F6 by auto. destruct (Z_lt_le_dec j (off + p)) as [Lt|Lt].
      * rewrite N5' by lia. destruct (N2 j ltac:(fold p; lia) Hn) as (x & Ex & Hx). exists x. split; auto. lia.
      * destruct (N5 j ltac:(lia) Hn) as (x & Ex & Hx). exists x. split; auto. lia.
    + intros j Hj. rewrite P2 in Hj. rewrite F6 by lia. rewrite N5' by lia. apply N2'. fold p. lia.
Qed.
Lemma land_neg i : 1 <= i -> 0 <= Z.land i (- i).
Proof. intros H. apply Z.land_nonneg. lia. Qed.
Lemma upd_same {X} (l : list X) i x : vget l i = Ok x -> zupd l i x = l.
Proof.
  intros E. pose proof (vget_range _ _ _ E) as R. apply vget_ext; [apply zlen_zupd|]. intros j _. destruct (Z.eq_dec j i) as [->|N]; [rewrite vget_zupd_same; auto|rewrite vget_zupd_diff; auto; lia].
Qed.
Lemma build_ok h dat : 1 <= zlen dat -> exists h' root, build h dat (2 ^ Z.log2 (zlen dat)) = Ok (h', root) /\ zlen h <= zlen h' /\ (forall j, j < zlen h -> vget h' j = vget h j) /\ rep h' (zlen dat) (zlen h') (S (Z.to_nat (Z.log2 (zlen dat)))) 0 root (vrep (zlen dat) 0).
Proof.
  intros H. unfold build. cbv zeta. set (n := zlen dat) in *. set (k := Z.to_nat (Z.log2 n)). assert (Ek : 2 ^ Z.log2 n = hp (S k)) by (cbn [hp]; unfold k; rewrite Z2Nat.id by apply Z.log2_nonneg; reflexivity). pose proof (zlen_nonneg h) as Hh0.
  destruct (build_rec_ok n (vrep n 0) (S k) (psum_zero n) (k + 2) 0 h (vrep (n + 1) (-1))) as (q & h' & nd & E & L & F & R & Z1 & Ln & N & _); try lia; [apply zlen_vrep; lia|].
  rewrite Ek. rewrite Z.add_0_l in E. rewrite E. cbn [bind]. destruct (Z.log2_spec n ltac:(lia)) as (_ & Lg). rewrite Z.pow_succ_r in Lg by apply Z.log2_nonneg. rewrite Ek in Lg. cbn [hp] in Lg. rewrite pow_S in N.
  match goal with |- context [for_ 1 (n + 1) ?b _] => set (body := b) end.
  destruct (for_inv (fun _ s => s = h') 1 (n + 1) body h' ltac:(lia) eq_refl) as (s & Es & ->).
  - intros i s Hi ->. unfold body. cbv zeta. pose proof (land_neg i ltac:(lia)) as Hl. destruct (Z.leb_spec (i + Z.land i (- i)) n) as [Lp|Lp]; [|eauto].
    destruct (N (i + Z.land i (- i)) ltac:(lia) Lp) as (a & Ea & Ha). destruct (N i ltac:(lia) ltac:(lia)) as (b & Eb & Hb). rewrite Ea. cbn [bind]. rewrite Eb. cbn [bind]. destruct (vget_Ok h' a ltac:(lia)) as (((x1 & x2) & x3) & Ex). destruct (vget_Ok h' b ltac:(lia)) as (((y1 & y2) & y3) & Ey). rewrite Ex, Ey. cbn [bind fst snd].
    pose proof (Z1 a _ ltac:(lia) Ex) as X0. pose proof (Z1 b _ ltac:(lia) Ey) as Y0. cbn [snd] in X0, Y0. subst x3 y3. rewrite vset_ok by lia. eexists. split; [reflexivity|]. apply upd_same. rewrite Ex. f_equal.
  - rewrite Es. cbn [bind]. exists h', q. split; auto. split; auto. split; auto. apply (repb_frame h' _ n (zlen h) 0 (zlen h')); auto; lia.
Qed.

(* a tree in the pool stands for an array *)
Definition stands (h : pool) (t : tree) (A : list Z) : Prop :=
  1 <= zlen A /\ fst t = 2 ^ Z.log2 (zlen A) /\ rep h (zlen A) (zlen h) (S (Z.to_nat (Z.log2 (zlen A)))) 0 (snd t) A.
Lemma hp_log n : 1 <= n -> 2 ^ Z.log2 n = hp (S (Z.to_nat (Z.log2 n))) /\ Z.log2 (2 ^ Z.log2 n) = Z.log2 n /\ n < 2 ^ Z.of_nat (S (Z.to_nat (Z.log2 n))).
Proof.
  intros H. pose proof (Z.log2_nonneg n) as L. split; [cbn [hp]; now rewrite Z2Nat.id|]. split; [now apply Z.log2_pow2|]. rewrite Nat2Z.inj_succ, Z2Nat.id by auto. now apply Z.log2_spec; lia.
Qed.
Lemma stands_frame h h' t A : (forall j, j < zlen h -> vget h' j = vget h j) -> zlen h <= zlen h' -> stands h t A -> stands h' t A.
Proof. intros F L (H1 & H2 & H3). split; auto. split; auto. now apply (rep_frame h h' (zlen A) (zlen h)). Qed.
Lemma of_values_ok h dat : 1 <= zlen dat -> exists h' t, of_values h dat = Ok (h', t) /\ zlen h <= zlen h' /\ (forall j, j < zlen h -> vget h' j = vget h j) /\ stands h' t (vrep (zlen dat) 0).
Proof.
  intros H. unfold of_values, floor_pow2. destruct (Z.leb_spec (zlen dat) 0); [lia|]. cbn [bind]. destruct (build_ok h dat H) as (h' & root & E & L & F & R). rewrite E. cbn [bind]. exists h', (2 ^ Z.log2 (zlen dat), root). split; auto. split; auto. split; auto. unfold stands. cbn [fst snd]. rewrite zlen_vrep by lia. auto.
Qed.
Lemma add_stands h t A i x v : stands h t A -> vget A i = Ok x -> exists h' t', add h t i v = Ok (h', t') /\ zlen h <= zlen h' /\ (forall j, j < zlen h -> vget h' j = vget h j) /\ stands h' t' (zupd A i (x + v)).
Proof.
  intros (H1 & H2 & H3) E. destruct t as (p & root). cbn [fst snd] in *. subst p. destruct (hp_log (zlen A) H1) as (P1 & P2 & P3). pose proof (vget_range _ _ _ E) as Ri. unfold add. rewrite P2. set (k := Z.to_nat (Z.log2 (zlen A))) in *. rewrite rep_S in H3. destruct H3 as (Hr & l & r & d & Er & Ed & Rl & Rr). unfold clone. rewrite Er. cbn [bind]. rewrite P1. cbn [hp].
  assert (Lh : zlen (h ++ [(l, r, d)]) = zlen h + 1) by (rewrite zlen_app; reflexivity).
  destruct (add_ok (zlen A) k (k + 2) (h ++ [(l, r, d)]) 0 (i + 1) v (zlen h) A x l r d (zlen h)) as (h' & E' & L' & F' & R'); try lia.
  - replace (0 + (i + 1) - 1) with i by lia. auto.
  - apply vget_snoc.
  - apply (rep_frame h _ (zlen A) (zlen h)); auto; [|lia]. intros q Hq. now apply vget_old.
  - intros X. apply (rep_frame h _ (zlen A) (zlen h)); auto; [|lia]. intros q Hq. now apply vget_old.
  - rewrite E'. cbn [bind]. eexists _, _. split; [reflexivity|]. split; [lia|]. split; [intros j Hj; rewrite F' by auto; now apply vget_old|]. replace (0 + (i + 1) - 1) with i in R' by lia. unfold stands. rewrite zlen_zupd. cbn [fst snd]. split; auto.
Qed.
Lemma sum_stands h t A l r : stands h t A -> 0 <= l <= r -> r <= zlen A -> sum h t l r = Ok (psum A r - psum A l).
Proof.
  intros (H1 & H2 & H3) Hl Hr. destruct t as (p & root). cbn [fst snd] in *. subst p. destruct (hp_log (zlen A) H1) as (P1 & P2 & P3). unfold sum. rewrite P2. rewrite P1.
  assert (S1 : forall m, 0 <= m <= zlen A -> sum_loop (Z.to_nat (Z.log2 (zlen A)) + 2) h root (hp (S (Z.to_nat (Z.log2 (zlen A))))) m 0 = Ok (psum A m)).
  { intros m Hm. rewrite (sum_ok h (zlen A) (zlen h) A (S (Z.to_nat (Z.log2 (zlen A)))) _ 0) by (auto; lia). f_equal. rewrite psum_0, !Z.add_0_l. lia. }
  rewrite !S1 by lia. reflexivity.
Qed.
Definition hinv (s : pool * list tree) (vs : list (list Z)) : Prop := zlen (snd s) = zlen vs /\ forall k t A, vget (snd s) k = Ok t -> vget vs k = Ok A -> stands (fst s) t A.
Lemma hinv_snoc h h' ts vs t A : hinv (h, ts) vs -> zlen h <= zlen h' -> (forall j, j < zlen h -> vget h' j = vget h j) -> stands h' t A -> hinv (h', ts ++ [t]) (vs ++ [A]).
Proof.
  intros (L & H) Lh F S. cbn [fst snd] in *. split; cbn [fst snd]; [rewrite !zlen_app, L; reflexivity|]. intros k t' A' Et EA. pose proof (vget_range _ _ _ Et) as R. rewrite zlen_app in R. change (zlen [t]) with 1 in R. destruct (Z.eq_dec k (zlen ts)) as [->|N].
  - rewrite vget_app2, Z.sub_diag, vget_cons0 in Et by lia. injection Et as <-. rewrite L in EA. rewrite vget_app2, Z.sub_diag, vget_cons0 in EA by lia. now injection EA as <-.
  - rewrite vget_app1 in Et by lia. rewrite vget_app1 in EA by lia. apply (stands_frame h); auto. now apply (H k).
Qed.
Theorem pf_history_ok ops : forall s vs l, hinv s vs -> spec_history ops vs = Some l -> pf_history ops s = Ok l.
Proof.
  induction ops as [|o ops IH]; intros (h & ts) vs l I H; cbn [spec_history pf_history] in *; [now injection H as <-|].
  assert (St : forall vs' x, spec_step o vs = Some (vs', x) -> exists s', pf_step o (h, ts) = Ok (s', x) /\ hinv s' vs').
  { intros vs' x Es. pose proof I as (L & Hs). cbn [fst snd] in L, Hs. destruct o; cbn [spec_step pf_step] in *.
    - destruct (Z.leb_spec 1 n) as [Ln|]; [|discriminate]. injection Es as <- <-. unfold of_size. destruct (of_values_ok h (vrep n 0)) as (h' & t & E & Lh & F & S); [rewrite zlen_vrep; lia|]. rewrite E. cbn [bind]. rewrite zlen_vrep in S by lia. rewrite L. eexists. split; [reflexivity|]. now apply (hinv_snoc h).
    - destruct (vget vs k) as [A| | |] eqn:EA; try discriminate. destruct (vget A i) as [y| | |] eqn:Ey; try discriminate. injection Es as <- <-. destruct (vget_Ok ts k) as (t & Et); [rewrite L; now apply vget_range in EA|]. rewrite Et. cbn [bind]. destruct (add_stands h t A i y v (Hs k t A Et EA) Ey) as (h' & t' & E & Lh & F & S). rewrite E. cbn [bind]. rewrite L. eexists. split; [reflexivity|]. now apply (hinv_snoc h).
    - destruct (vget vs k) as [A| | |] eqn:EA; try discriminate. destruct ((0 <=? l0) && (l0 <=? r) && (r <=? zlen A)) eqn:C; [|discriminate]. injection Es as <- <-. rewrite !andb_true_iff, !Z.leb_le in C. destruct (vget_Ok ts k) as (t & Et); [rewrite L; now apply vget_range in EA|]. rewrite Et. cbn [bind]. rewrite (sum_stands h t A l0 r (Hs k t A Et EA)) by lia. cbn [bind]. rewrite psum_range by lia. eauto. }
  destruct (spec_step o vs) as [(vs' & x)|]; [|discriminate]. destruct (St vs' x eq_refl) as (s' & E & I'). rewrite E. cbn [bind]. destruct (spec_history ops vs') as [m|] eqn:Em; [|discriminate]. injection H as <-. rewrite (IH s' vs' m I' Em). reflexivity.
Qed.
