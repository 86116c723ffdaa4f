(* Proofs about step sums. *)
From Verif Require Import Base BaseLemmas ListZ ListMore Seq Fenwick_spec Modint_model Modint_proof2 CumSum_model CumSum_spec CumSum_proof.

Section Step.
  Context {T : Type}.
  Variables (zero : T) (add sub : T -> T -> T) (neg : T -> T).
  Hypothesis G : is_abgroup zero add sub neg.
  Variable a : list T.
  Variable step : Z.
  Hypothesis Hstep : 1 <= step < 2 ^ 31.
  Hypothesis Hlen : zlen a < 2 ^ 31.
  Let n := zlen a.
  Let f (i : Z) : T := nth (Z.to_nat i) a zero.
  Let M := ab_mon zero add sub neg G.

  (* a_k + a_{k+step} + ... (q terms) *)
  Definition col (k q : Z) : T := prod_ add zero (fun t => f (t * step + k)) 0 q.

  Definition ss_inv (s : list T) : Prop := zlen s = n /\ forall i, 0 <= i < n -> vget s i = Ok (col (i mod step) (i / step + 1)).

  Lemma col_snoc k q : 0 <= q -> col k (q + 1) = add (col k q) (f (q * step + k)).
  Proof. intro H. unfold col. rewrite (prod_snoc add zero M _ 0 (q + 1)) by lia. now replace (q + 1 - 1) with q by lia. Qed.
  Lemma divmod_at q k : 0 <= k < step -> (q * step + k) / step = q /\ (q * step + k) mod step = k.
  Proof.
    intro H. split; [symmetry; apply (Z.div_unique _ _ _ k); lia|symmetry; apply (Z.mod_unique _ _ q); lia].
  Qed.
  Lemma divmod_back i : step <= i -> (i - step) / step = i / step - 1 /\ (i - step) mod step = i mod step.
  Proof.
    intro H. pose proof (Z.div_mod i step ltac:(lia)) as E. pose proof (Z.mod_pos_bound i step ltac:(lia)).
    replace (i - step) with ((i / step - 1) * step + i mod step) by lia. now apply divmod_at.
  Qed.

  Lemma ss_of_ok : exists c, ss_of add a step = Ok c /\ ss_inv (ss_sum c) /\ ss_step c = step /\ ss_n c = n /\
    forall x, 0 <= x < 2 ^ 64 -> barrett_quo true (ss_br c) x = x / step.
  Proof.
    unfold ss_of. cbv zeta. fold n. assert (Eu : u32 step = step) by (unfold u32; rewrite Z.mod_small by lia; reflexivity). rewrite Eu.
    destruct (barrett_quorem_exact_ step 0 ltac:(lia) ltac:(lia)) as (b & Hb & _). rewrite Hb. cbn [bind].
    assert (Hq : forall x, 0 <= x < 2 ^ 64 -> barrett_quo true b x = x / step).
    { intros x Hx. destruct (barrett_quorem_exact_ step x ltac:(lia) Hx) as (b' & Hb' & _ & E & _). rewrite Hb in Hb'. now injection Hb' as <-. }
    pose (P := fun k (s : list T) => zlen s = n /\ forall i, 0 <= i < n -> vget s i = Ok (if i <? k then col (i mod step) (i / step + 1) else f i)).
    assert (Hf : forall i, 0 <= i < n -> vget a i = Ok (f i)) by (intros; apply vget_nth; auto).
    assert (Hc0 : forall i, 0 <= i < step -> col (i mod step) (i / step + 1) = f i).
    { intros i Hi. rewrite Z.mod_small, Z.div_small by lia. rewrite col_snoc by lia. rewrite Z.mul_0_l, Z.add_0_l.
      unfold col. rewrite (prod_nil add zero) by lia. apply G. }
    assert (H0 : P step a).
    { split; auto. intros i Hi. rewrite Hf by auto. destruct (Z.ltb_spec i step); auto. now rewrite Hc0 by lia. }
    assert (L : exists s, for_ step n (fun i s => let* x := vget s i in let* y := vget s (i - step) in vset s i (add x y)) a = Ok s /\ ss_inv s).
    { destruct (Z.le_gt_cases n step) as [C|C].
      - rewrite for_empty by lia. exists a. split; auto. destruct H0 as (L0 & H0). split; auto. intros i Hi. rewrite H0 by auto.
        now replace (i <? step) with true by lia.
      - destruct (for_inv P step n (fun i s => let* x := vget s i in let* y := vget s (i - step) in vset s i (add x y)) a) as (s & E & Ls & Hs); [lia|exact H0| |].
        + intros i s Hi (Ls & Hs). rewrite !Hs by lia. cbn [bind]. rewrite Z.ltb_irrefl.
          replace (i - step <? i) with true by lia. rewrite vset_ok by lia. eexists. split; [reflexivity|]. split; [now rewrite zlen_zupd|].
          intros j Hj. rewrite vget_zupd by lia. destruct (Z.eqb_spec i j) as [<-|N].
          * replace (i <? i + 1) with true by lia. f_equal. destruct (divmod_back i) as (-> & ->); [lia|].
            replace (i / step - 1 + 1) with (i / step) by lia.
            assert (0 <= i / step) by (apply Z.div_pos; lia). rewrite col_snoc by auto. rewrite (ab_comm _ _ _ _ G). do 2 f_equal.
            rewrite (Z.div_mod i step) at 1 by lia. lia.
          * rewrite Hs by lia. now replace (j <? i + 1) with (j <? i) by lia.
        + exists s. split; auto. split; auto. intros i Hi. rewrite Hs by auto. now replace (i <? n) with true by lia. }
    destruct L as (s & -> & Is). cbn [bind]. eexists. split; [reflexivity|]. cbn [ss_sum ss_step ss_n ss_br]. auto.
  Qed.

  (* ---- counting *)
  Variable k : Z.
  Hypothesis Hk : 0 <= k < step.
  Let g (i : Z) : T := if i mod step =? k then f i else zero.
  Let cnt (x : Z) : Z := (x - 1 - k + step) / step.

  Lemma cnt_S x : 0 <= x -> cnt (x + 1) = if x mod step =? k then x / step + 1 else cnt x.
  Proof.
    intro Hx. unfold cnt. pose proof (Z.div_mod x step ltac:(lia)) as E. pose proof (Z.mod_pos_bound x step ltac:(lia)) as B.
    set (q := x / step) in *. set (r := x mod step) in *.
    destruct (Z.eqb_spec r k) as [D|D].
    - symmetry. apply (Z.div_unique _ _ _ 0); lia.
    - destruct (Z.lt_ge_cases r k) as [C|C].
      + transitivity q; [symmetry; apply (Z.div_unique _ _ _ (step + r - k)); lia|apply (Z.div_unique _ _ _ (step + r - k - 1)); lia].
      + transitivity (q + 1); [symmetry; apply (Z.div_unique _ _ _ (r - k)); lia|apply (Z.div_unique _ _ _ (r - k - 1)); lia].
  Qed.
  Lemma cnt_at x : 0 <= x -> x mod step = k -> cnt x = x / step.
  Proof.
    intros Hx E. unfold cnt. pose proof (Z.div_mod x step ltac:(lia)) as E2. symmetry. apply (Z.div_unique _ _ _ (step - 1)); lia.
  Qed.
  Lemma sum_col x : 0 <= x -> prod_ add zero g 0 x = col k (cnt x).
  Proof.
    intro Hx. pattern x. apply natlike_ind; auto.
    - unfold cnt. rewrite Z.div_small by lia. reflexivity.
    - clear x Hx. intros x Hx IH. replace (Z.succ x) with (x + 1) by lia. rewrite (prod_snoc add zero M g 0 (x + 1)) by lia.
      replace (x + 1 - 1) with x by lia. rewrite IH, cnt_S by auto. unfold g. destruct (Z.eqb_spec (x mod step) k) as [E|E].
      + rewrite cnt_at by auto. rewrite col_snoc by (apply Z.div_pos; lia). do 2 f_equal.
        rewrite (Z.div_mod x step) at 1 by lia. lia.
      + apply (ab_zero_r zero add sub neg G).
  Qed.

  Lemma step_sum_prod l r : step_sum zero add a step k l r = prod_ add zero g (Z.max 0 l) (Z.min n r).
  Proof.
    unfold step_sum. fold n. pose proof (zlen_nonneg a) as Hn. fold n in Hn.
    rewrite (fold_filter zero add sub neg G), (prod_zrange zero add sub neg G) by auto.
    assert (C : Z.max 0 l <= Z.min n r \/ Z.min n r < Z.max 0 l) by lia. destruct C as [C|C].
    - rewrite (prod_split add zero M _ 0 (Z.max 0 l) n) by lia. rewrite (prod_split add zero M _ (Z.max 0 l) (Z.min n r) n) by lia.
      rewrite (prod_e add zero M _ 0) by (intros i Hi; replace (l <=? i) with false by lia; now rewrite andb_false_r).
      rewrite (prod_e add zero M _ (Z.min n r)) by (intros i Hi; replace (i <? r) with false by lia; now rewrite andb_false_r).
      rewrite (ab_zero _ _ _ _ G), (ab_zero_r zero add sub neg G). apply prod_ext. intros i Hi. unfold g.
      replace (l <=? i) with true by lia. replace (i <? r) with true by lia. now rewrite !andb_true_r.
    - rewrite (prod_nil add zero g) by lia. apply (prod_e add zero M). intros i Hi.
      destruct (Z.leb_spec l i), (Z.ltb_spec i r); rewrite ?andb_false_r; auto; lia.
  Qed.

  Lemma i32_ok x : - 2 ^ 31 <= x < 2 ^ 31 -> i32 x = Ok x.
  Proof. intro H. unfold i32. now replace ((- 2 ^ 31 <=? x) && (x <? 2 ^ 31)) with true by lia. Qed.

  Lemma quo_int (c : stepsum T) x : (forall x, 0 <= x < 2 ^ 64 -> barrett_quo true (ss_br c) x = x / step) -> 0 <= x < 2 ^ 31 ->
    to_i32 (barrett_quo true (ss_br c) (u64 x)) = x / step.
  Proof.
    intros Hq Hx. unfold u64. rewrite Z.mod_small by lia. rewrite Hq by lia. unfold to_i32.
    assert (0 <= x / step <= x). { split; [apply Z.div_pos; lia|]. apply Z.div_le_upper_bound; nia. }
    rewrite Z.mod_small by lia. cbv zeta. now replace (x / step <? 2 ^ 31) with true by lia.
  Qed.

  (* the element x of the residue class that lies at or before position y *)
  Lemma class_at (c : stepsum T) s y : (forall x, 0 <= x < 2 ^ 64 -> barrett_quo true (ss_br c) x = x / step) -> ss_inv s -> ss_step c = step ->
    k <= y < n ->
    (let* d1 := i32 y in
     let* d := i32 (d1 - k) in
     let t := to_i32 (barrett_quo true (ss_br c) (u64 d)) in
     let* ts := i32 (t * ss_step c) in
     let* p := i32 (ts + k) in vget s p) = Ok (col k (cnt (y + 1))).
  Proof.
    intros Hq (Ls & Hs) Es Hy. rewrite i32_ok by lia. cbn [bind]. rewrite i32_ok by lia. cbn [bind]. cbv zeta.
    rewrite quo_int by (auto; lia). rewrite Es. pose proof (Z.div_mod (y - k) step ltac:(lia)) as E. pose proof (Z.mod_pos_bound (y - k) step ltac:(lia)) as B.
    assert (0 <= (y - k) / step) by (apply Z.div_pos; lia). set (q := (y - k) / step) in *.
    rewrite i32_ok by nia. cbn [bind]. rewrite i32_ok by nia. cbn [bind].
    rewrite Hs by nia. f_equal. destruct (divmod_at q k Hk) as (-> & ->). f_equal. unfold cnt.
    apply (Z.div_unique _ _ _ ((y - k) mod step)); lia.
  Qed.

  Lemma ss_get_ok c l r : ss_inv (ss_sum c) -> ss_step c = step -> ss_n c = n ->
    (forall x, 0 <= x < 2 ^ 64 -> barrett_quo true (ss_br c) x = x / step) ->
    - 2 ^ 31 < l < 2 ^ 31 -> - 2 ^ 31 < r < 2 ^ 31 -> (r <= k \/ r <= l \/ n <= l \/ k < n) ->
    ss_get zero sub c k l r = Ok (step_sum zero add a step k l r).
  Proof.
    intros Is Es En Hq Hl Hr D. rewrite step_sum_prod. pose proof (zlen_nonneg a) as Hn. fold n in Hn.
    unfold ss_get. rewrite En. destruct ((r <=? k) || (r <=? l) || (n <=? l)) eqn:E.
    - f_equal. symmetry. destruct (Z.le_gt_cases r l); [apply prod_nil; lia|]. destruct (Z.le_gt_cases n l); [apply prod_nil; lia|].
      apply (prod_e add zero M). intros i Hi. unfold g. rewrite Z.mod_small by lia. replace (i =? k) with false by lia. reflexivity.
    - assert (k < n) by lia.
      pose proof (class_at c (ss_sum c) (Z.min n r - 1) Hq Is Es ltac:(lia)) as A1.
      destruct (i32 (Z.min n r - 1)) as [d1| | |]; try discriminate A1. cbn [bind] in *.
      destruct (i32 (d1 - k)) as [d| | |]; try discriminate A1. cbn [bind] in *. cbv zeta in *.
      destruct (i32 (to_i32 (barrett_quo true (ss_br c) (u64 d)) * ss_step c)) as [ts| | |]; try discriminate A1. cbn [bind] in *.
      destruct (i32 (ts + k)) as [p| | |]; try discriminate A1. cbn [bind] in *. rewrite A1. cbn [bind].
      replace (Z.min n r - 1 + 1) with (Z.min n r) by lia. clear A1 d1 d ts p.
      assert (Ex : k < l \/ l <= k) by lia. destruct Ex as [X|X].
      + replace (k <? l) with true by lia.
        pose proof (class_at c (ss_sum c) (l - 1) Hq Is Es ltac:(lia)) as A2.
        destruct (i32 (l - 1)) as [d1| | |]; try discriminate A2. cbn [bind] in *.
        destruct (i32 (d1 - k)) as [d| | |]; try discriminate A2. cbn [bind] in *. cbv zeta in *.
        destruct (i32 (to_i32 (barrett_quo true (ss_br c) (u64 d)) * ss_step c)) as [ts| | |]; try discriminate A2. cbn [bind] in *.
        destruct (i32 (ts + k)) as [p| | |]; try discriminate A2. cbn [bind] in *. rewrite A2. cbn [bind].
        replace (l - 1 + 1) with l by lia. f_equal. rewrite <- !sum_col by lia. replace (Z.max 0 l) with l by lia.
        rewrite (prod_split add zero M g 0 l (Z.min n r)) by lia. apply (ab_cancel zero add sub neg G).
      + replace (k <? l) with false by lia. f_equal. rewrite <- sum_col by lia.
        rewrite (prod_split add zero M g 0 (Z.max 0 l) (Z.min n r)) by lia.
        rewrite (prod_e add zero M g 0 (Z.max 0 l)); [apply G|]. intros i Hi. unfold g. rewrite Z.mod_small by lia.
        now replace (i =? k) with false by lia.
  Qed.
End Step.
