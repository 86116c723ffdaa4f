From Verif Require Import Base BaseLemmas Bits Seq Hist Fenwick_model Fenwick_spec Fenwick_run.

(* ---------- index arithmetic ---------- *)
(* node j covers the 0-based positions j - lowbit j .. j-1 *)
Definition cov (j p : Z) : Prop := j - lowbit j <= p < j.
Definition covb (j p : Z) : bool := (j - lowbit j <=? p) && (p <? j).

Lemma lowbit_next i : 0 < i -> i + lowbit i - lowbit (i + lowbit i) <= i - lowbit i.
Proof.
  intro H. destruct (ctz_decomp i H) as (q & Hq & E). pose proof (lowbit_ctz i H) as L.
  pose proof (ctz_nonneg i) as Hc. pose proof (Z.pow_pos_nonneg 2 (ctz i) ltac:(lia) Hc) as P.
  assert (H' : 0 < i + lowbit i) by lia.
  assert (ctz i + 1 <= ctz (i + lowbit i)).
  { apply ctz_mod; try lia. rewrite L, Z.pow_add_r, Z.pow_1_r by lia.
    replace (i + 2 ^ ctz i) with ((q + 1) * (2 ^ ctz i * 2)) by (clear - E; set (w := 2 ^ ctz i) in *; clearbody w; nia). apply Z.mod_mul. lia. }
  rewrite (lowbit_ctz (i + lowbit i)) by auto.
  assert (2 ^ (ctz i + 1) <= 2 ^ ctz (i + lowbit i)) by (apply Z.pow_le_mono_r; lia).
  rewrite Z.pow_add_r, Z.pow_1_r in H1 by lia. lia.
Qed.
Lemma lowbit_add i d : 0 < i -> 0 < d < lowbit i -> lowbit (i + d) = lowbit d.
Proof.
  intros H Hd. destruct (ctz_decomp i H) as (q & Hq & E). rewrite (lowbit_ctz i H) in Hd.
  destruct (ctz_decomp d) as (q' & Hq' & E'); [lia|].
  pose proof (ctz_nonneg i) as Hc. pose proof (ctz_nonneg d) as Hc'.
  assert (Hlt : ctz d < ctz i).
  { destruct (Z.le_gt_cases (ctz i) (ctz d)) as [C|C]; auto. exfalso.
    assert (2 ^ ctz i <= 2 ^ ctz d) by (apply Z.pow_le_mono_r; lia).
    pose proof (Z.pow_pos_nonneg 2 (ctz d) ltac:(lia) Hc'). nia. }
  rewrite !lowbit_ctz by lia. f_equal.
  assert (Hs : i + d = 2 ^ ctz d * (2 * (2 ^ (ctz i - ctz d - 1) * (2 * q + 1) + q') + 1)).
  { rewrite E at 1. rewrite E' at 1. replace (ctz i) with (ctz d + (1 + (ctz i - ctz d - 1))) at 1 by lia.
    rewrite (Z.pow_add_r 2 (ctz d)) by lia. rewrite (Z.pow_add_r 2 1) by lia. change (2 ^ 1) with 2. ring. }
  rewrite Hs. apply ctz_unique; auto.
  pose proof (Z.pow_pos_nonneg 2 (ctz i - ctz d - 1) ltac:(lia) ltac:(lia)). nia.
Qed.
Lemma cov_next i p : 0 < i -> cov i p -> cov (i + lowbit i) p.
Proof. intros H [A B]. pose proof (lowbit_next i H). pose proof (lowbit_bound i H). unfold cov. lia. Qed.
Lemma cov_gap i j p : 0 < i -> cov i p -> i < j < i + lowbit i -> ~ cov j p.
Proof.
  intros H [A B] Hj [C D].
  assert (L : lowbit (i + (j - i)) = lowbit (j - i)) by (apply lowbit_add; lia).
  replace (i + (j - i)) with j in L by lia.
  pose proof (lowbit_bound (j - i) ltac:(lia)). lia.
Qed.
Lemma cov_self p : 0 <= p -> cov (p + 1) p.
Proof. intro H. pose proof (lowbit_bound (p + 1) ltac:(lia)). unfold cov. lia. Qed.
Lemma covb_spec j p : covb j p = true <-> cov j p.
Proof. unfold covb, cov. lia. Qed.

(* ---------- commutative monoid nodes ---------- *)
Section Node.
  Context {T : Type}.
  Variables (op : T -> T -> T) (e : T).
  Hypothesis M : is_monoid op e.
  Hypothesis C : forall a b, op a b = op b a.

  Definition node (a : Z -> T) (j : Z) : T := prod_ op e a (j - lowbit j) j.

  Lemma node_upd a p v j : node (fun k => if k =? p then op (a k) v else a k) j =
    if covb j p then op (node a j) v else node a j.
  Proof.
    unfold node. destruct (covb j p) eqn:Cv.
    - apply covb_spec in Cv. apply prod_add_at; auto.
    - apply prod_add_out; auto. intro H. assert (covb j p = true) by (now apply covb_spec). congruence.
  Qed.

  (* off: where node j is stored (1 for FenwickTree, 0 for FenwickTreePrefix) *)
  Variable off : Z.
  Definition FInv (n : Z) (data : list T) (a : Z -> T) : Prop :=
    zlen data = n + 1 - off /\ forall j, 1 <= j <= n -> vget data (j - off) = Ok (node a j).

  Hypothesis Hoff : 0 <= off <= 1.

  Lemma add_loop_ok n data a p v : FInv n data a -> 0 <= p < n ->
    exists data', loop (S (Z.to_nat n)) (fun '(i, data) =>
      if i <=? n then
        let* x := vget data (i - off) in
        let* data := vset data (i - off) (op x v) in
        Ok (inl (i + lowbit i, data))
      else Ok (inr data)) (p + 1, data) = Ok data' /\
      FInv n data' (fun k => if k =? p then op (a k) v else a k).
  Proof.
    intros [L H] Hp.
    apply (loop_inv (fun '(i, d) => cov i p /\ p + 1 <= i /\ zlen d = n + 1 - off /\
       forall j, 1 <= j <= n -> vget d (j - off) = Ok (if covb j p && (j <? i) then op (node a j) v else node a j))
      (fun '(i, _) => Z.to_nat (n + 1 - i))).
    - split; [apply cov_self; lia|]. split; [lia|]. split; auto. intros j Hj. rewrite H by auto.
      replace (covb j p && (j <? p + 1)) with false; auto. symmetry. unfold covb. lia.
    - lia.
    - intros (i, d) (Cv & Hi & Ld & Hd). pose proof (lowbit_bound i ltac:(lia)) as Lb. destruct (i <=? n) eqn:B.
      + rewrite Hd by lia. replace (i <? i) with false by lia. rewrite andb_false_r. cbn [bind].
        rewrite vset_ok by lia. cbn [bind]. eexists; split; [reflexivity|]. cbn. split; [|lia].
        split; [apply cov_next; auto; lia|]. split; [lia|]. split; [now rewrite zlen_zupd|].
        intros j Hj. rewrite vget_zupd by lia. destruct (i - off =? j - off) eqn:E.
        * replace j with i by lia. replace (covb i p) with true by (symmetry; now apply covb_spec).
          replace (i <? i + lowbit i) with true by lia. auto.
        * rewrite Hd by auto. destruct (covb j p) eqn:Cj; auto. cbn [andb].
          apply covb_spec in Cj. replace (j <? i) with (j <? i + lowbit i); auto.
          assert (~ i < j < i + lowbit i) by (intro; eapply (cov_gap i j p); eauto; lia). lia.
      + eexists; split; [reflexivity|]. cbn. split; auto. intros j Hj. rewrite Hd by auto.
        rewrite node_upd. replace (j <? i) with true by lia. now rewrite andb_true_r.
  Qed.

  Lemma sum_loop_ok n data a r acc : FInv n data a -> 0 <= r <= n ->
    loop (S (Z.to_nat r)) (fun '(r, acc) =>
      if r =? 0 then Ok (inr acc) else
      let* x := vget data (r - off) in
      Ok (inl (r - lowbit r, op acc x))) (r, acc) = Ok (op acc (prod_ op e a 0 r)).
  Proof.
    intros [L H] Hr.
    destruct (loop_inv (fun '(i, x) => 0 <= i <= n /\ op x (prod_ op e a 0 i) = op acc (prod_ op e a 0 r))
      (fun '(i, _) => Z.to_nat i) (fun y => y = op acc (prod_ op e a 0 r))
      (fun '(r, acc) => if r =? 0 then Ok (inr acc) else
         let* x := vget data (r - off) in Ok (inl (r - lowbit r, op acc x))) (S (Z.to_nat r)) (r, acc)) as (y & E & Hy).
    - auto.
    - lia.
    - intros (i, x) (Hi & E). destruct (i =? 0) eqn:B.
      + eexists; split; [reflexivity|]. cbn. rewrite <- E. replace i with 0 by lia.
        rewrite prod_nil by lia. symmetry. apply M.
      + rewrite H by lia. cbn [bind]. eexists; split; [reflexivity|]. cbn.
        pose proof (lowbit_bound i ltac:(lia)). split; [|lia]. split; [lia|].
        rewrite <- E. rewrite (prod_split op e M a 0 (i - lowbit i) i) by lia.
        rewrite <- (mon_assoc _ _ M). f_equal. apply C.
    - now rewrite E, Hy.
  Qed.

  (* construction: children of j *)
  Lemma lowbit_sub j d : 0 < j -> 0 < d < lowbit j -> lowbit (j - d) = lowbit d.
  Proof.
    intros H Hd. destruct (ctz_decomp j H) as (q & Hq & E). rewrite (lowbit_ctz j H) in Hd.
    destruct (ctz_decomp d) as (q' & Hq' & E'); [lia|].
    pose proof (ctz_nonneg j) as Hc. pose proof (ctz_nonneg d) as Hc'.
    assert (Hlt : ctz d < ctz j).
    { destruct (Z.le_gt_cases (ctz j) (ctz d)) as [Cc|Cc]; auto. exfalso.
      assert (2 ^ ctz j <= 2 ^ ctz d) by (apply Z.pow_le_mono_r; lia).
      pose proof (Z.pow_pos_nonneg 2 (ctz d) ltac:(lia) Hc'). nia. }
    assert (P := Z.pow_pos_nonneg 2 (ctz d) ltac:(lia) Hc').
    assert (P' := Z.pow_pos_nonneg 2 (ctz j) ltac:(lia) Hc).
    assert (0 < j - d) by nia.
    rewrite !lowbit_ctz by lia. f_equal.
    set (w := 2 ^ (ctz j - ctz d - 1) * (2 * q + 1)).
    assert (Hs : j - d = 2 ^ ctz d * (2 * (w - q' - 1) + 1)).
    { unfold w. rewrite E at 1. rewrite E' at 1. replace (ctz j) with (ctz d + (1 + (ctz j - ctz d - 1))) at 1 by lia.
      rewrite (Z.pow_add_r 2 (ctz d)) by lia. rewrite (Z.pow_add_r 2 1) by lia. change (2 ^ 1) with 2. ring. }
    rewrite Hs. apply ctz_unique; auto. nia.
  Qed.
  Lemma no_child_below i j : 0 < i -> 0 < j -> i <= j - lowbit j -> i + lowbit i <> j.
  Proof.
    intros Hi Hj L E. pose proof (lowbit_bound i Hi). destruct (Z.eq_dec i (j - lowbit j)) as [Ei|Ni].
    - assert (lowbit i = lowbit j) by lia.
      pose proof (lowbit_next i Hi) as N. rewrite E in N. lia.
    - assert (lowbit i > lowbit j) by lia. pose proof (lowbit_next i Hi) as N. rewrite E in N. lia.
  Qed.
  Definition isum (f : Z -> T) (l r : Z) := prod_ op e f l r.
  Lemma children_sum a j c : 0 < j -> 0 <= c <= ctz j ->
    prod_ op e (fun i => if i + lowbit i =? j then node a i else e) (j - 2 ^ c + 1) j = prod_ op e a (j - 2 ^ c) (j - 1).
  Proof.
    intros Hj [Hc0 Hc1]. revert c Hc0 Hc1. apply (natlike_ind (fun c => c <= ctz j -> 
      prod_ op e (fun i => if i + lowbit i =? j then node a i else e) (j - 2 ^ c + 1) j = prod_ op e a (j - 2 ^ c) (j - 1))).
    - intros _. change (2 ^ 0) with 1. rewrite !prod_nil by lia. auto.
    - intros c Hc IH Hc1. specialize (IH ltac:(lia)).
      assert (P := Z.pow_pos_nonneg 2 c ltac:(lia) Hc).
      assert (Lj : 2 ^ Z.succ c <= lowbit j) by (rewrite lowbit_ctz by auto; apply Z.pow_le_mono_r; lia).
      pose proof (lowbit_bound j Hj) as Bj.
      rewrite Z.pow_succ_r in * by auto.
      assert (Lb : lowbit (j - 2 ^ c) = 2 ^ c).
      { rewrite lowbit_sub by lia. rewrite lowbit_ctz by lia. f_equal.
        replace (2 ^ c) with (2 ^ c * (2 * 0 + 1)) by ring. apply ctz_unique; lia. }
      rewrite (prod_split op e M _ (j - 2 * 2 ^ c + 1) (j - 2 ^ c) j) by lia.
      rewrite (prod_cons op e _ (j - 2 ^ c) j) by lia. rewrite IH.
      replace (j - 2 ^ c + lowbit (j - 2 ^ c) =? j) with true by lia.
      rewrite (prod_e op e M _ (j - 2 * 2 ^ c + 1)).
      + rewrite (mon_l _ _ M). unfold node. rewrite Lb.
        rewrite (prod_split op e M a (j - 2 * 2 ^ c) (j - 2 ^ c) (j - 1)) by lia.
        do 2 f_equal. lia.
      + intros i Hi. destruct (i + lowbit i =? j) eqn:B; auto. exfalso.
        assert (Li : lowbit i = lowbit (j - i)) by (rewrite <- (lowbit_sub j (j - i)) by lia; f_equal; lia).
        set (d := j - i) in *. assert (Hd : lowbit d = d) by lia.
        assert (Hdr : 2 ^ c < d < 2 * 2 ^ c) by lia.
        rewrite lowbit_ctz in Hd by lia. pose proof (ctz_nonneg d) as Hcd.
        destruct (Z.le_gt_cases (ctz d) c) as [Q|Q].
        * assert (2 ^ ctz d <= 2 ^ c) by (apply Z.pow_le_mono_r; lia). lia.
        * assert (2 ^ (c + 1) <= 2 ^ ctz d) by (apply Z.pow_le_mono_r; lia).
          rewrite Z.pow_add_r in H by lia. change (2 ^ 1) with 2 in H. lia.
  Qed.
  Lemma node_children a j : 0 < j ->
    node a j = op (a (j - 1)) (prod_ op e (fun i => if i + lowbit i =? j then node a i else e) 1 j).
  Proof.
    intro Hj. pose proof (lowbit_bound j Hj) as B. pose proof (ctz_nonneg j) as Hc.
    rewrite (prod_split op e M _ 1 (j - lowbit j + 1) j) by lia.
    rewrite (prod_e op e M _ 1).
    2:{ intros i Hi. pose proof (no_child_below i j ltac:(lia) Hj ltac:(lia)).
        destruct (i + lowbit i =? j) eqn:Q; auto; lia. }
    rewrite (mon_l _ _ M).
    assert (CS := children_sum a j (ctz j) Hj ltac:(lia)). rewrite <- lowbit_ctz in CS by auto. rewrite CS.
    unfold node. rewrite (prod_snoc op e M a (j - lowbit j) j) by lia. apply C.
  Qed.
End Node.

Lemma build_loop_ok {T} (op : T -> T -> T) e (M : is_monoid op e) (C : forall a b, op a b = op b a) n data a :
  zlen data = n -> (forall j, 1 <= j <= n -> vget data (j - 1) = Ok (a (j - 1))) ->
  exists data', for_ 1 (n + 1) (fun i data =>
      let p := i + lowbit i in
      if p <=? n then
        let* x := vget data (p - 1) in
        let* y := vget data (i - 1) in
        vset data (p - 1) (op x y)
      else Ok data) data = Ok data' /\ FInv op e 1 n data' a.
Proof.
  intros L H. pose proof (zlen_nonneg data) as Ln.
  set (ch := fun j i => if i + lowbit i =? j then node op e a i else e).
  destruct (for_inv (fun t d => zlen d = n /\
      forall j, 1 <= j <= n -> vget d (j - 1) = Ok (op (a (j - 1)) (prod_ op e (ch j) 1 (Z.min t j)))) 1 (n + 1) (fun i data =>
      let p := i + lowbit i in
      if p <=? n then
        let* x := vget data (p - 1) in
        let* y := vget data (i - 1) in
        vset data (p - 1) (op x y)
      else Ok data) data) as (d & E & Ld & Hd).
  - lia.
  - split; auto. intros j Hj. rewrite H by auto. rewrite prod_nil by lia. f_equal. symmetry; apply M.
  - intros i d Hi (Ld & Hd). pose proof (lowbit_bound i ltac:(lia)) as Lb. cbv zeta.
    destruct (i + lowbit i <=? n) eqn:B.
    + rewrite (Hd (i + lowbit i)) by lia. rewrite (Hd i) by lia. cbn [bind]. rewrite vset_ok by lia.
      eexists; split; [reflexivity|]. split; [now rewrite zlen_zupd|].
      intros j Hj. rewrite vget_zupd by lia. destruct (i + lowbit i - 1 =? j - 1) eqn:Q.
      * assert (j = i + lowbit i) by lia. subst j. f_equal.
        rewrite (Z.min_l i i), (Z.min_l i (i + lowbit i)), (Z.min_l (i + 1) (i + lowbit i)) by lia.
        rewrite <- (mon_assoc _ _ M). f_equal.
        rewrite (prod_snoc op e M (ch (i + lowbit i)) 1 (i + 1)) by lia.
        replace (i + 1 - 1) with i by lia. f_equal.
        unfold ch at 2. rewrite Z.eqb_refl. symmetry. apply node_children; auto; lia.
      * rewrite Hd by auto. f_equal. f_equal. destruct (Z.le_gt_cases j i).
        { now rewrite !Z.min_r by lia. }
        rewrite !Z.min_l by lia. rewrite (prod_snoc op e M (ch j) 1 (i + 1)) by lia.
        replace (i + 1 - 1) with i by lia. unfold ch at 3. destruct (i + lowbit i =? j) eqn:R; [lia|].
        symmetry; apply M.
    + eexists; split; [reflexivity|]. split; auto. intros j Hj. rewrite Hd by auto. f_equal. f_equal.
      destruct (Z.le_gt_cases j i).
      { now rewrite !Z.min_r by lia. }
      rewrite !Z.min_l by lia. rewrite (prod_snoc op e M (ch j) 1 (i + 1)) by lia.
      replace (i + 1 - 1) with i by lia. unfold ch at 3. destruct (i + lowbit i =? j) eqn:R; [lia|].
      symmetry; apply M.
  - rewrite E. exists d; split; auto. split; [lia|]. intros j Hj. rewrite Hd by auto. f_equal.
    rewrite Z.min_r by lia. symmetry. apply node_children; auto; lia.
Qed.

(* ---------- FenwickTree ---------- *)
Section Fenwick.
  Context {T : Type}.
  Variables (zero : T) (add sub : T -> T -> T) (neg : T -> T).
  Hypothesis G : is_abgroup zero add sub neg.

  Lemma ab_monoid : is_monoid add zero.
  Proof. constructor; try apply G. intro a. rewrite (ab_comm _ _ _ _ G). apply G. Qed.
  Let M := ab_monoid.
  Let C := ab_comm _ _ _ _ G.
  Lemma ab_zero_r a : add a zero = a. Proof. apply M. Qed.
  Lemma ab_cancel a b : sub (add a b) a = b.
  Proof. rewrite (ab_sub _ _ _ _ G), (C a b), <- (ab_assoc _ _ _ _ G), (ab_neg _ _ _ _ G). apply ab_zero_r. Qed.
  Lemma ab_cancel2 a b : add a (sub b a) = b.
  Proof. rewrite (ab_sub _ _ _ _ G), (C b), (ab_assoc _ _ _ _ G), (ab_neg _ _ _ _ G). apply G. Qed.

  Definition FI (s : fen T) (v : list T) : Prop :=
    fn_n s = zlen v /\ exists a, rep v (zlen v) a /\ FInv add zero 1 (zlen v) (fn_data s) a.

  Lemma fen_sum_ok s v a l r : fn_n s = zlen v -> rep v (zlen v) a -> FInv add zero 1 (zlen v) (fn_data s) a ->
    0 <= l <= r -> r <= zlen v -> fen_sum zero add sub s l r = Ok (prod_ add zero a l r).
  Proof.
    intros Hn R I Hl Hr. unfold fen_sum, fen_sum1.
    rewrite (sum_loop_ok add zero M C 1 (zlen v) _ a r zero I) by lia. cbn [bind].
    rewrite (sum_loop_ok add zero M C 1 (zlen v) _ a l zero I) by lia. cbn [bind].
    rewrite !(ab_zero _ _ _ _ G). rewrite (prod_split add zero M a 0 l r) by lia. now rewrite ab_cancel.
  Qed.
  Lemma fen_add_ok s v a i x : fn_n s = zlen v -> rep v (zlen v) a -> FInv add zero 1 (zlen v) (fn_data s) a ->
    0 <= i < zlen v -> exists s', fen_add add s i x = Ok s' /\ FI s' (zupd v i (add (a i) x)).
  Proof.
    intros Hn R I Hi. unfold fen_add. rewrite Hn.
    destruct (add_loop_ok add zero M C 1 ltac:(lia) (zlen v) _ a i x I Hi) as (d & E & I'). rewrite E; cbn [bind].
    eexists; split; [reflexivity|]. split; [cbn; now rewrite zlen_zupd|].
    rewrite zlen_zupd. exists (fun k => if k =? i then add (a k) x else a k). split; auto.
    eapply rep_ext; [apply rep_upd; eauto|]. intros k Hk. unfold fupd. destruct (k =? i) eqn:B; auto.
    now replace k with i by lia.
  Qed.

  Lemma fstep_sim s v o : FI s v ->
    match fspec zero add sub v o with
    | Ok (r, v') => exists s', fstep zero add sub neg s o = Ok (r, s') /\ FI s' v'
    | Abort => fstep zero add sub neg s o = Abort
    | OutOfFuel => False
    | UB => True
    end.
  Proof.
    intros (Hn & a & R & I).
    destruct o as [i x|i x|i x|l r|i]; cbn [fspec fstep].
    - destruct (Z.lt_ge_cases i 0) as [B|B]; [unfold vget; now replace (i <? 0) with true by lia|].
      destruct (Z.lt_ge_cases i (zlen v)) as [B'|B'].
      2:{ unfold vget. replace (i <? 0) with false by lia. unfold zlen in B'. rewrite (proj2 (nth_error_None _ _)) by lia. exact Logic.I. }
      rewrite (rep_get _ _ _ _ R) by lia. cbn [bind].
      destruct (fen_add_ok s v a i x Hn R I ltac:(lia)) as (s' & E & I'). rewrite E; cbn [bind]. eauto.
    - destruct (Z.lt_ge_cases i 0) as [B|B]; [unfold vget; now replace (i <? 0) with true by lia|].
      destruct (Z.lt_ge_cases i (zlen v)) as [B'|B'].
      2:{ unfold vget. replace (i <? 0) with false by lia. unfold zlen in B'. rewrite (proj2 (nth_error_None _ _)) by lia. exact Logic.I. }
      rewrite (rep_get _ _ _ _ R) by lia. cbn [bind]. unfold fen_sub. rewrite (ab_sub _ _ _ _ G).
      destruct (fen_add_ok s v a i (neg x) Hn R I ltac:(lia)) as (s' & E & I'). rewrite E; cbn [bind]. eauto.
    - destruct (Z.lt_ge_cases i 0) as [B|B]; [unfold vget; now replace (i <? 0) with true by lia|].
      destruct (Z.lt_ge_cases i (zlen v)) as [B'|B'].
      2:{ unfold vget. replace (i <? 0) with false by lia. unfold zlen in B'. rewrite (proj2 (nth_error_None _ _)) by lia. exact Logic.I. }
      rewrite (rep_get _ _ _ _ R) by lia. cbn [bind]. unfold fen_set.
      rewrite (fen_sum_ok s v a i (i + 1) Hn R I) by lia. cbn [bind]. rewrite prod_one by auto.
      destruct (fen_add_ok s v a i (sub x (a i)) Hn R I ltac:(lia)) as (s' & E & I'). rewrite E; cbn [bind].
      rewrite ab_cancel2 in I'. eauto.
    - destruct ((0 <=? l) && (l <=? r) && (r <=? zlen v)) eqn:B; auto.
      rewrite (fen_sum_ok s v a l r Hn R I) by lia. cbn [bind].
      rewrite (prod_rep add zero v (zlen v) a) by (auto; lia). eexists; split; eauto. split; eauto.
    - destruct (Z.lt_ge_cases i 0) as [B|B]; [unfold vget; now replace (i <? 0) with true by lia|].
      destruct (Z.lt_ge_cases i (zlen v)) as [B'|B'].
      2:{ unfold vget. replace (i <? 0) with false by lia. unfold zlen in B'. rewrite (proj2 (nth_error_None _ _)) by lia. exact Logic.I. }
      rewrite (rep_get _ _ _ _ R) by lia. cbn [bind]. unfold fen_get.
      rewrite (fen_sum_ok s v a i (i + 1) Hn R I) by lia. cbn [bind]. rewrite prod_one by auto.
      eexists; split; eauto. split; eauto.
  Qed.

  Lemma fen_of_ok v : exists s, fen_of add v = Ok s /\ FI s v.
  Proof.
    unfold fen_of. destruct v as [|x0 v0] eqn:Ev.
    - eexists; split; [reflexivity|]. split; auto. exists (fun _ => zero). split.
      + split; auto. intros i Hi. exfalso; unfold zlen in Hi; simpl in Hi; lia.
      + split; auto. intros j Hj. exfalso; unfold zlen in Hj; simpl in Hj; lia.
    - rewrite <- Ev. pose proof (rep_nth v x0) as R. set (a := fun i => nth (Z.to_nat i) v x0) in *.
      destruct (build_loop_ok add zero M C (zlen v) v a eq_refl) as (d & E & I).
      { intros j Hj. apply (rep_get _ _ _ _ R); lia. }
      cbv zeta in *. rewrite E; cbn [bind]. eexists; split; [reflexivity|]. split; auto. exists a; auto.
  Qed.
  Lemma fen_zero_ok n : 0 <= n -> FI (fen_zero zero n) (vrep n zero).
  Proof.
    intro H. split; [cbn; now rewrite zlen_vrep|]. exists (fun _ => zero). rewrite zlen_vrep by auto.
    split; [now apply rep_vrep|]. split; [cbn; rewrite zlen_vrep; lia|].
    intros j Hj. cbn. rewrite vget_vrep by lia. f_equal. symmetry. unfold node. apply prod_e; auto.
  Qed.
End Fenwick.

(* ---------- FenwickTreePrefix ---------- *)
Section Prefix.
  Context {T : Type}.
  Variables (op : T -> T -> T) (e : T).
  Hypothesis M : is_monoid op e.
  Hypothesis C : forall a b, op a b = op b a.
  Definition PI (s : fpre T) (v : list T) : Prop :=
    fp_n s = zlen v /\ exists a, rep v (zlen v) a /\ FInv op e 0 (zlen v) (fp_dat s) a.

  Lemma Z_sub_0 x : x - 0 = x. Proof. lia. Qed.

  Lemma pstep_sim s v o : PI s v ->
    match pspec op e v o with
    | Ok (r, v') => exists s', pstep op e s o = Ok (r, s') /\ PI s' v'
    | Abort => pstep op e s o = Abort
    | OutOfFuel => False
    | UB => True
    end.
  Proof.
    intros (Hn & a & R & I). destruct o as [i x|r]; cbn [pspec pstep].
    - destruct (Z.lt_ge_cases i 0) as [B|B]; [unfold vget; now replace (i <? 0) with true by lia|].
      destruct (Z.lt_ge_cases i (zlen v)) as [B'|B'].
      2:{ unfold vget. replace (i <? 0) with false by lia. unfold zlen in B'. rewrite (proj2 (nth_error_None _ _)) by lia. exact Logic.I. }
      rewrite (rep_get _ _ _ _ R) by lia. cbn [bind]. unfold fpre_apply. rewrite Hn.
      destruct (add_loop_ok op e M C 0 ltac:(lia) (zlen v) _ a i x I ltac:(lia)) as (d & E & I').
      assert (E2 : loop (S (Z.to_nat (zlen v))) (fun '(i0, dat) => if i0 <=? zlen v then
          let* x0 := vget dat i0 in let* dat0 := vset dat i0 (op x0 x) in Ok (inl (i0 + lowbit i0, dat0)) else Ok (inr dat)) (i + 1, fp_dat s) = Ok d).
      { rewrite <- E. generalize (i + 1, fp_dat s) as st. generalize (S (Z.to_nat (zlen v))) as k. induction k; intros [i0 d0]; auto.
        cbn [loop]. rewrite Z_sub_0. destruct (i0 <=? zlen v); cbn [bind]; auto.
        destruct (vget d0 i0); cbn [bind]; auto. destruct (vset d0 i0 (op a0 x)); cbn [bind]; auto. }
      rewrite E2; cbn [bind]. eexists; split; [reflexivity|]. split; [cbn; now rewrite zlen_zupd|].
      rewrite zlen_zupd. exists (fun k => if k =? i then op (a k) x else a k). split; auto.
      eapply rep_ext; [apply rep_upd; eauto; lia|]. intros k Hk. unfold fupd. destruct (k =? i) eqn:B2; auto.
      now replace k with i by lia.
    - destruct ((0 <=? r) && (r <=? zlen v)) eqn:B; auto. unfold fpre_query.
      pose proof (sum_loop_ok op e M C 0 (zlen v) _ a r e I ltac:(lia)) as E.
      assert (E2 : loop (S (Z.to_nat r)) (fun '(r, acc) => if r =? 0 then Ok (inr acc) else
          let* x := vget (fp_dat s) r in Ok (inl (r - lowbit r, op acc x))) (r, e) = Ok (op e (prod_ op e a 0 r))).
      { rewrite <- E. generalize (r, e) as st. generalize (S (Z.to_nat r)) as k. induction k; intros [i0 d0]; auto.
        cbn [loop]. rewrite Z_sub_0. destruct (i0 =? 0); cbn [bind]; auto.
        destruct (vget (fp_dat s) i0); cbn [bind]; auto. }
      rewrite E2; cbn [bind]. rewrite (mon_l _ _ M).
      rewrite (prod_rep op e v (zlen v) a) by (auto; lia). eexists; split; eauto. split; eauto.
  Qed.
  Lemma fpre_init_ok n : 0 <= n -> PI (fpre_init e n) (vrep n e).
  Proof.
    intro H. split; [cbn; now rewrite zlen_vrep|]. exists (fun _ => e). rewrite zlen_vrep by auto.
    split; [now apply rep_vrep|]. split; [cbn; rewrite zlen_vrep; lia|].
    intros j Hj. cbn. rewrite vget_vrep by lia. f_equal. symmetry. unfold node. apply prod_e; auto.
  Qed.
End Prefix.
