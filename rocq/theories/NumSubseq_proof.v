(* Proofs about NumSubseq_model. *)
From Coq Require Import Permutation Sorted.
From Verif Require Import Base BaseLemmas ListZ SpSeg_proof NumTheory NumSubseq_model NumSubseq_spec.

Lemma vget_combine {X Y} (a : list X) (b : list Y) k x y : vget a k = Ok x -> vget b k = Ok y -> vget (combine a b) k = Ok (x, y).
Proof.
  intros Ea Eb. pose proof (vget_range _ _ _ Ea) as R. apply vget_nth_error in Ea, Eb. unfold vget. destruct (Z.ltb_spec k 0); [lia|].
  assert (E : nth_error (combine a b) (Z.to_nat k) = Some (x, y)); [|now rewrite E].
  revert b Ea Eb. generalize (Z.to_nat k) as j. clear. induction a as [|u a IH]; intros [|j] [|v b] Ea Eb; cbn in *; try discriminate; [congruence|auto].
Qed.
(* ---- subsequences ---- *)
Lemma subseq_nil a : subseq [] a. Proof. induction a; constructor; auto. Qed.
Lemma subseq_app_l s a b : subseq s b -> subseq s (a ++ b). Proof. induction a; cbn; [auto|]. constructor; auto. Qed.
Lemma subseq_app_r s a b : subseq s a -> subseq s (a ++ b).
Proof. induction 1; cbn; [apply subseq_nil|apply sub_skip; auto|apply sub_take; auto]. Qed.
Lemma subseq_snoc s a x : subseq s (a ++ [x]) <-> subseq s a \/ exists s', s = s' ++ [x] /\ subseq s' a.
Proof.
  split.
  - revert s. induction a as [|y a IH]; intros s H; cbn [app] in H.
    + inversion H; subst.
      * auto.
      * right. exists []. inversion H2; subst. split; [auto|constructor].
    + inversion H; subst.
      * destruct (IH _ H2) as [G|(s' & -> & G)]; [left; now apply sub_skip|right; exists s'; split; [auto|now apply sub_skip]].
      * destruct (IH _ H2) as [G|(s' & -> & G)]; [left; now apply sub_take|right; exists (y :: s'); split; [auto|now apply sub_take]].
  - intros [H|(s' & -> & H)]; [now apply subseq_app_r|]. induction H; cbn [app]; [apply sub_take, sub_nil|now apply sub_skip|now apply sub_take].
Qed.

Section A.
  Variable a : list Z.
  Let n := zlen a.
  Notation pre k := (firstn (Z.to_nat k) a).
  Lemma pre_S k x : 0 <= k -> vget a k = Ok x -> pre (k + 1) = pre k ++ [x].
  Proof.
    intros Hk E. pose proof (vget_range _ _ _ E) as R. apply vget_nth_error in E.
    replace (Z.to_nat (k + 1)) with (S (Z.to_nat k)) by lia. revert E. generalize (Z.to_nat k) as j. clear. revert a. induction a as [|y l IH]; intros j E; [destruct j; discriminate|].
    destruct j; cbn in *; [injection E as ->; auto|]. f_equal. now apply IH.
  Qed.
  Lemma pre_le j k : 0 <= j <= k -> exists r, pre k = pre j ++ r.
  Proof.
    intro H. exists (skipn (Z.to_nat j) (pre k)). rewrite <- (firstn_skipn (Z.to_nat j) (pre k)) at 1. f_equal.
    rewrite firstn_firstn. f_equal. lia.
  Qed.
  (* a sequence ending in x is a subsequence of a prefix iff the rest fits before some x *)
  Lemma subseq_end s x : forall i k, Z.of_nat i = k -> k <= n -> subseq (s ++ [x]) (pre k) <-> exists p, 0 <= p < k /\ vget a p = Ok x /\ subseq s (pre p).
  Proof.
    induction i as [|i IH]; intros k E Hk.
    - subst k. cbn. split; [|intros (p & Q & _); lia]. intro S. exfalso. inversion S. destruct s; discriminate.
    - destruct (vget_Ok a (k - 1)) as (y & Ey); [unfold n in Hk; lia|].
      replace k with (k - 1 + 1) at 1 by lia. rewrite (pre_S (k - 1) y) by (auto; lia). rewrite subseq_snoc, (IH (k - 1)) by lia. split.
      + intros [(p & P1 & P2 & P3)|(s' & Q & P)]; [exists p; split; [lia|auto]|].
        apply app_inj_tail in Q. destruct Q as (<- & <-). exists (k - 1). split; [lia|auto].
      + intros (p & P1 & P2 & P3). destruct (Z.eq_dec p (k - 1)) as [->|]; [|left; exists p; split; [lia|auto]].
        right. exists s. rewrite Ey in P2. injection P2 as ->. auto.
  Qed.
  Definition counts_all (k c : Z) : Prop := exists l, NoDup l /\ (forall s, In s l <-> subseq s (pre k)) /\ zlen l = c.
  Definition lastocc (c p : Z) : Prop :=
    -1 <= p < c /\ (0 <= p -> vget a p = vget a c) /\ forall j, p < j < c -> 0 <= j -> vget a j <> vget a c.
  Lemma filter_length_compl {X} (f : X -> bool) l : (length (filter f l) + length (filter (fun x => negb (f x)) l) = length l)%nat.
  Proof. induction l as [|x l IH]; cbn; [auto|]. destruct (f x); cbn; lia. Qed.
  Lemma counts_step k c p c' : 0 <= k < n -> counts_all k c -> lastocc k p -> (p = -1 -> c' = 0) -> (0 <= p -> counts_all p c') -> counts_all (k + 1) (c + c - c').
  Proof.
    intros Hk (l & ND & Il & Ec) (P1 & P2 & P3) Z0 CP. destruct (vget_Ok a k) as (x & Ex); [exact Hk|].
    assert (G : exists l', NoDup l' /\ (forall s, In s l' <-> subseq (s ++ [x]) (pre k)) /\ zlen l' = c').
    { destruct (Z.eq_dec p (-1)) as [Q|Q].
      - exists []. split; [constructor|]. split; [|rewrite Z0; auto]. intro s. split; [intros []|]. rewrite (subseq_end s x (Z.to_nat k) k) by lia.
        intros (q & Q1 & Q2 & _). apply (P3 q); [lia|lia|congruence].
      - destruct (CP ltac:(lia)) as (l' & ND' & Il' & Ec'). exists l'. split; [auto|]. split; [|auto]. intro s. rewrite Il', (subseq_end s x (Z.to_nat k) k) by lia. split.
        + intro Sp. exists p. split; [lia|]. split; [rewrite P2 by lia; auto|auto].
        + intros (q & Q1 & Q2 & Sq). destruct (Z.le_gt_cases q p) as [L|L].
          * destruct (pre_le q p ltac:(lia)) as (r & ->). now apply subseq_app_r.
          * exfalso. apply (P3 q); [lia|lia|congruence]. }
    destruct G as (l' & ND' & Il' & Ec').
    set (old := fun s => if in_dec (list_eq_dec Z.eq_dec) s l' then true else false).
    assert (Old : forall s, old s = true <-> In s l') by (intro s; unfold old; destruct (in_dec _ s l'); split; auto; discriminate).
    exists (l ++ map (fun s => s ++ [x]) (filter (fun s => negb (old s)) l)). split; [|split].
    - apply NoDup_app3. split; [auto|]. split.
      + apply NoDup_map_inj'; [|now apply NoDup_filter]. intros s t _ _ Q. apply app_inj_tail in Q. tauto.
      + intros s I1 I2. apply in_map_iff in I2. destruct I2 as (t & <- & I2). apply filter_In in I2. destruct I2 as (_ & N).
        apply Il in I1. apply Il' in I1. apply Old in I1. rewrite I1 in N. discriminate.
    - intro s. rewrite (pre_S k x) by (auto; lia). rewrite subseq_snoc, in_app_iff, Il, in_map_iff. split.
      + intros [I|(t & <- & I)]; [auto|]. right. exists t. split; [auto|]. apply filter_In in I. apply Il. tauto.
      + intros [I|(t & -> & I)]; [auto|]. destruct (old t) eqn:E.
        * left. apply Il', Old. auto.
        * right. exists t. split; [auto|]. apply filter_In. rewrite E. split; [apply Il; auto|auto].
    - rewrite zlen_app, zlen_map. pose proof (filter_length_compl old l) as F.
      assert (Q : length (filter old l) = length l').
      { apply Permutation_length, NoDup_Permutation; [now apply NoDup_filter|auto|]. intro s. rewrite filter_In, Old. split; [tauto|]. intro I. split; [|auto].
        apply Il. apply Il' in I. apply (subseq_end s x (Z.to_nat k) k) in I; [|lia|lia]. destruct I as (q & Q1 & _ & I). destruct (pre_le q k ltac:(lia)) as (r & ->). now apply subseq_app_r. }
      unfold zlen in *. lia.
  Qed.

  (* ---- last occurrences ---- *)
  Variable s : list (Z * Z).
  Hypothesis Hp : Permutation s (combine a (zrange n)).
  Hypothesis Hs : StronglySorted lex_le s.
  Definition V (t : Z) : Z := fst (nth (Z.to_nat t) s (0, 0)).
  Definition I (t : Z) : Z := snd (nth (Z.to_nat t) s (0, 0)).
  Lemma nn : 0 <= n. Proof. apply zlen_nonneg. Qed.
  Lemma s_len : zlen s = n.
  Proof.
    apply Permutation_length in Hp. rewrite combine_length in Hp. pose proof (zlen_zrange n nn) as L. unfold n in *. unfold zlen in *. lia.
  Qed.
  Lemma s_get t : 0 <= t < n -> vget s t = Ok (V t, I t).
  Proof. intro H. rewrite (vget_nth (0, 0)) by (rewrite s_len; auto). unfold V, I. now rewrite <- surjective_pairing. Qed.
  Lemma snds : map snd (combine a (zrange n)) = zrange n.
  Proof.
    assert (L : length a = length (zrange n)). { pose proof (zlen_zrange n nn) as L. unfold n, zlen in *. lia. }
    revert L. generalize (zrange n). clear. induction a as [|x a' IH]; intros [|y l] L; cbn in *; try discriminate; auto. f_equal. apply IH. lia.
  Qed.
  Lemma s_in v i : In (v, i) s <-> 0 <= i < n /\ vget a i = Ok v.
  Proof.
    assert (L : zlen a = zlen (zrange n)) by (rewrite zlen_zrange; [auto|apply nn]).
    split.
    - intro H. apply (Permutation_in _ Hp) in H. apply In_vget in H. destruct H as (k & _ & E).
      pose proof (vget_range _ _ _ E) as R. unfold zlen in R. rewrite combine_length in R.
      destruct (vget_Ok a k) as (x & Ex); [unfold zlen in *; lia|]. destruct (vget_Ok (zrange n) k) as (y & Ey); [unfold zlen in *; lia|].
      rewrite (vget_combine _ _ _ _ _ Ex Ey) in E. injection E as -> ->. rewrite vget_zrange in Ey by (unfold n, zlen in *; lia). injection Ey as <-. split; [unfold n, zlen in *; lia|auto].
    - intros (Hi & E). apply (Permutation_in _ (Permutation_sym Hp)). apply vget_In with i. apply vget_combine; [auto|]. apply vget_zrange. auto.
  Qed.
  Lemma I_get t : 0 <= t < n -> 0 <= I t < n /\ vget a (I t) = Ok (V t).
  Proof. intro H. apply s_in. eapply vget_In. now apply s_get. Qed.
  Lemma I_inj t t' : 0 <= t < n -> 0 <= t' < n -> I t = I t' -> t = t'.
  Proof.
    intros H H' E. assert (ND : NoDup (map snd s)).
    { apply (Permutation_NoDup (l := map snd (combine a (zrange n)))); [apply Permutation_map, Permutation_sym, Hp|]. rewrite snds. apply NoDup_zrange. }
    assert (L : length (map snd s) = Z.to_nat n) by (rewrite map_length; pose proof s_len; unfold zlen in *; lia).
    assert (Z.to_nat t = Z.to_nat t'); [|lia]. apply (proj1 (NoDup_nth (map snd s) 0) ND); [lia|lia|].
    change 0 with (snd (0, 0)). rewrite !map_nth. exact E.
  Qed.
  Lemma I_surj i : 0 <= i < n -> exists t, 0 <= t < n /\ I t = i.
  Proof.
    intro H. destruct (vget_Ok a i H) as (v & E). assert (J : In (v, i) s) by (apply s_in; auto). apply In_vget in J. destruct J as (t & R & G).
    rewrite s_len in R. rewrite s_get in G by auto. injection G as _ G. eauto.
  Qed.
  Lemma ss_get {X} (R : X -> X -> Prop) l i j x y : StronglySorted R l -> vget l i = Ok x -> vget l j = Ok y -> i < j -> R x y.
  Proof.
    intros S Ei Ej L. destruct (vget_split _ _ _ Ei) as (b & c & -> & Eb).
    assert (In y c).
    { pose proof (vget_range _ _ _ Ei). replace (b ++ x :: c) with ((b ++ [x]) ++ c) in Ej by (now rewrite <- app_assoc).
      rewrite vget_app2 in Ej by (rewrite zlen_app; change (zlen [x]) with 1; lia). apply vget_In in Ej. auto. }
    clear - S H. induction b as [|z b IH]; cbn [app] in S; inversion S; subst; [|auto]. rewrite Forall_forall in *. auto.
  Qed.
  Lemma VI_lt t t' : 0 <= t -> t < t' < n -> V t < V t' \/ V t = V t' /\ I t < I t'.
  Proof.
    intros H H'. destruct (ss_get lex_le s t t' (V t, I t) (V t', I t') Hs) as [L|(E & L)]; [apply s_get; lia|apply s_get; lia|lia|cbn in *; auto|].
    cbn [fst snd] in *. right. split; [auto|]. destruct (Z.eq_dec (I t) (I t')) as [Q|]; [|lia]. apply I_inj in Q; lia.
  Qed.
  Definition prevf (t : Z) : Z := if (0 <? t) && (V (t - 1) =? V t) then I (t - 1) else -1.
  Definition upto (k : Z) (last : list Z) : Prop :=
    zlen last = n /\ forall t, 0 <= t < n -> vget last (I t) = Ok (if t <? k then prevf t else -1).
  Lemma upto_S k last : 0 <= k < n -> upto k last -> prevf k = -1 -> upto (k + 1) last.
  Proof.
    intros Hk (L & G) E. split; [auto|]. intros t T. rewrite G by auto. destruct (Z.eq_dec t k) as [->|].
    - destruct (Z.ltb_spec k k), (Z.ltb_spec k (k + 1)); try lia. congruence.
    - destruct (Z.ltb_spec t k), (Z.ltb_spec t (k + 1)); auto; lia.
  Qed.
  Lemma upto_set k last p : 0 <= k < n -> upto k last -> prevf k = p -> vset last (I k) p = Ok (zupd last (I k) p) /\ upto (k + 1) (zupd last (I k) p).
  Proof.
    intros Hk (L & G) E. destruct (I_get k Hk) as (R & _). split; [apply vset_ok; lia|]. split; [rewrite zlen_zupd; auto|].
    intros t T. rewrite vget_zupd by lia. destruct (Z.eqb_spec (I k) (I t)) as [Q|Q].
    - apply I_inj in Q; auto. subst t. destruct (Z.ltb_spec k (k + 1)); [congruence|lia].
    - rewrite G by auto. assert (t <> k) by congruence. destruct (Z.ltb_spec t k), (Z.ltb_spec t (k + 1)); auto; lia.
  Qed.
  Lemma inner_ok i last : 0 <= i < n -> upto (i + 1) last ->
    exists j last', loop (S (length s)) (ns_inner s (V i)) (i, I i, last) = Ok (j, last') /\ i < j <= n /\ upto j last' /\ (j < n -> V j <> V (j - 1)).
  Proof.
    intros Hi U.
    destruct (loop_inv (fun st => let '(k, p, last) := st in i <= k < n /\ p = I k /\ V k = V i /\ upto (k + 1) last)
      (fun st => Z.to_nat (n - fst (fst st))) (fun r => i < fst r <= n /\ upto (fst r) (snd r) /\ (fst r < n -> V (fst r) <> V (fst r - 1)))
      (ns_inner s (V i)) (S (length s)) (i, I i, last)) as ((j, last') & E & Q).
    - split; [lia|auto].
    - cbn [fst]. pose proof s_len as L. unfold zlen in L. lia.
    - intros ((k, p), l) (K1 & -> & K2 & K3). unfold ns_inner. rewrite s_len. destruct (Z.ltb_spec (k + 1) n).
      + rewrite s_get by lia. cbn [bind]. destruct (Z.eqb_spec (V (k + 1)) (V i)) as [Ev|Ev].
        * destruct (upto_set (k + 1) l (I k)) as (-> & U'); [lia|auto| |].
          { unfold prevf. replace (k + 1 - 1) with k by lia. destruct (Z.ltb_spec 0 (k + 1)); [|lia]. destruct (Z.eqb_spec (V k) (V (k + 1))); [auto|congruence]. }
          cbn [bind]. eexists. split; [reflexivity|]. cbn [fst]. split; [|lia]. split; [lia|]. auto.
        * eexists. split; [reflexivity|]. cbn [fst snd]. split; [lia|]. split; [auto|]. intros _. replace (k + 1 - 1) with k by lia. congruence.
      + eexists. split; [reflexivity|]. cbn [fst snd]. split; [lia|]. split; [auto|lia].
    - exists j, last'. cbn [fst snd] in Q. tauto.
  Qed.
  Lemma last_ok : exists last, ns_last s = Ok last /\ zlen last = n /\ forall c, 0 <= c < n -> exists p, vget last c = Ok p /\ lastocc c p.
  Proof.
    unfold ns_last.
    destruct (loop_inv (fun st => 0 <= fst st <= n /\ upto (fst st) (snd st) /\ (0 < fst st < n -> V (fst st) <> V (fst st - 1)))
      (fun st => Z.to_nat (n - fst st)) (fun last => upto n last) (ns_outer s) (S (length s)) (0, vrep (zlen s) (-1))) as (last & E & U).
    - cbn [fst snd]. pose proof nn. split; [lia|]. split; [|lia]. rewrite s_len. split; [apply zlen_vrep; lia|]. intros t T.
      rewrite vget_vrep by (apply I_get; auto). destruct (Z.ltb_spec t 0); [lia|auto].
    - cbn [fst]. pose proof s_len as L. unfold zlen in L. lia.
    - intros (i, l) (Hi & U & St). cbn [fst snd] in *. unfold ns_outer. rewrite s_len. destruct (Z.ltb_spec i n).
      + rewrite s_get by lia. cbn [bind]. destruct (inner_ok i l) as (j & l' & -> & J1 & J2 & J3); [lia| |].
        { apply upto_S; [lia|auto|]. unfold prevf. destruct (Z.ltb_spec 0 i); [|auto]. destruct (Z.eqb_spec (V (i - 1)) (V i)); [|auto]. exfalso. apply St; [lia|congruence]. }
        cbn [bind]. eexists. split; [reflexivity|]. cbn [fst snd]. split; [|lia]. split; [lia|]. split; [auto|]. intro. apply J3. lia.
      + eexists. split; [reflexivity|]. replace n with i by lia. auto.
    - exists last. split; [auto|]. destruct U as (L & G). split; [auto|]. intros c Hc. destruct (I_surj c Hc) as (t & T & <-).
      exists (prevf t). rewrite G by auto. destruct (Z.ltb_spec t n); [|lia]. split; [auto|].
      destruct (I_get t T) as (It & Et). unfold prevf. destruct (Z.ltb_spec 0 t) as [Tp|Tp]; cbn [andb].
      + destruct (I_get (t - 1) ltac:(lia)) as (It' & Et'). pose proof (VI_lt (t - 1) t ltac:(lia) ltac:(lia)) as Lt. destruct (Z.eqb_spec (V (t - 1)) (V t)) as [Ev|Ev].
        * split; [lia|]. split; [intros _; rewrite Et, Et'; congruence|]. intros j J1 J2 Ej. destruct (I_surj j ltac:(lia)) as (t' & T' & <-).
          destruct (I_get t' T') as (_ & Ej'). rewrite Ej', Et in Ej. injection Ej as Ej.
          destruct (Z.lt_trichotomy t' t) as [Q|[Q|Q]]; [|subst; lia|destruct (VI_lt t t' ltac:(lia) ltac:(lia)); lia].
          destruct (Z.eq_dec t' (t - 1)) as [->|]; [lia|]. destruct (VI_lt t' (t - 1) ltac:(lia) ltac:(lia)); lia.
        * split; [lia|]. split; [lia|]. intros j J1 J2 Ej. destruct (I_surj j ltac:(lia)) as (t' & T' & <-).
          destruct (I_get t' T') as (_ & Ej'). rewrite Ej', Et in Ej. injection Ej as Ej.
          destruct (Z.lt_trichotomy t' t) as [Q|[Q|Q]]; [|subst; lia|destruct (VI_lt t t' ltac:(lia) ltac:(lia)); lia].
          destruct (Z.eq_dec t' (t - 1)) as [->|]; [lia|]. destruct (VI_lt t' (t - 1) ltac:(lia) ltac:(lia)); lia.
      + split; [lia|]. split; [lia|]. intros j J1 J2 Ej. destruct (I_surj j ltac:(lia)) as (t' & T' & <-).
        destruct (I_get t' T') as (_ & Ej'). rewrite Ej', Et in Ej. injection Ej as Ej.
        destruct (Z.lt_trichotomy t' t) as [Q|[Q|Q]]; [lia|subst; lia|destruct (VI_lt t t' ltac:(lia) ltac:(lia)); lia].
  Qed.
End A.

Lemma ns_int_step M c c' : ns_int M (ns_int M (ns_int M c + ns_int M c) - ns_int M c') = ns_int M (c + c - c').
Proof. unfold ns_int. destruct (M =? 0); [auto|]. rewrite <- Zplus_mod. now rewrite <- Zminus_mod. Qed.
Lemma ns_int_0 M : ns_int M 0 = 0. Proof. unfold ns_int. destruct (M =? 0); [auto|]. apply Zmod_0_l. Qed.

Lemma subseqs_ok M sort a : sorts_pairs sort ->
  exists r c, number_of_nonempty_subsequences M sort a = Ok r /\ counts_subseqs a c /\ r = ns_int M c.
Proof.
  intro Hs. unfold number_of_nonempty_subsequences. set (n := zlen a). pose proof (zlen_nonneg a) as NN. fold n in NN.
  destruct (Hs (combine a (zrange n))) as (P & So). destruct (last_ok a (sort (combine a (zrange n))) P So) as (last & -> & Ll & Gl). cbn [bind].
  rewrite vset_ok by (rewrite zlen_vrep; lia). cbn [bind].
  destruct (for_inv (fun i sdp => zlen sdp = n + 2 /\ vget sdp 0 = Ok 0 /\ forall k, 0 <= k <= i -> exists c, counts_all a k c /\ vget sdp (k + 1) = Ok (ns_int M c))
    0 n (ns_body M last) (zupd (vrep (n + 2) 0) 1 (ns_int M 1))) as (sdp & -> & L & _ & G).
  - lia.
  - assert (Lr : zlen (vrep (n + 2) 0) = n + 2) by (apply zlen_vrep; lia).
    split; [rewrite zlen_zupd; lia|]. split; [rewrite vget_zupd by lia; cbn [Z.eqb]; apply vget_vrep; lia|].
    intros k K. assert (k = 0) as -> by lia. exists 1. split.
    + exists [[]]. split; [repeat constructor; cbn; tauto|]. split; [|auto]. intro s. cbn. split.
      * intros [<-|[]]. constructor.
      * intro Q. inversion Q. auto.
    + rewrite vget_zupd by lia. reflexivity.
  - intros i sdp Hi (L & Z0 & G). unfold ns_body. destruct (G i ltac:(lia)) as (c & Cc & ->). cbn [bind].
    destruct (Gl i ltac:(auto)) as (p & -> & Lp). cbn [bind].
    assert (X : exists c', vget sdp (p + 1) = Ok (ns_int M c') /\ (p = -1 -> c' = 0) /\ (0 <= p -> counts_all a p c')).
    { destruct (Z.eq_dec p (-1)) as [->|].
      - exists 0. rewrite ns_int_0. split; [auto|]. split; [auto|lia].
      - destruct Lp as (Lp & _). destruct (G p ltac:(lia)) as (c' & Cc' & E). exists c'. split; [auto|]. split; [lia|auto]. }
    destruct X as (c' & -> & X1 & X2). cbn [bind]. rewrite ns_int_step. rewrite vset_ok by lia. eexists. split; [reflexivity|].
    split; [rewrite zlen_zupd; auto|]. split; [rewrite vget_zupd by lia; destruct (Z.eqb_spec (i + 2) 0); [lia|auto]|].
    intros k K. rewrite vget_zupd by lia. destruct (Z.eqb_spec (i + 2) (k + 1)) as [Q|Q].
    + assert (k = i + 1) as -> by lia. exists (c + c - c'). split; [|auto]. eapply counts_step; eauto.
    + apply G. lia.
  - cbn [bind]. destruct (G n ltac:(lia)) as (c & (l & ND & Il & Ec) & ->). cbn [bind]. exists (ns_int M (ns_int M c - 1)), (c - 1). split; [auto|].
    assert (Ea : firstn (Z.to_nat n) a = a) by (apply firstn_all2; unfold n, zlen; lia). rewrite Ea in Il.
    split; [|unfold ns_int; destruct (M =? 0); [auto|]; now rewrite Zminus_mod_idemp_l].
    assert (I0 : In [] l) by (apply Il, subseq_nil). apply in_split in I0. destruct I0 as (x & y & ->).
    exists (x ++ y). split; [now apply NoDup_remove_1 in ND|]. split; [|rewrite zlen_app in *; rewrite zlen_cons in Ec; lia].
    intro s. rewrite <- Il, !in_app_iff. cbn [In]. apply NoDup_remove_2 in ND. rewrite in_app_iff in ND. split.
    + intro Q. split; [intros ->; tauto|tauto].
    + intros (N & [Q|[Q|Q]]); [auto|congruence|auto].
Qed.
