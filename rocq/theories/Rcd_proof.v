From Verif Require Import Base BaseLemmas ListZ Centroid_proof CSort_proof Rcd_spec Rcd_model.
Lemma nodup_len_eq (s t : list Z) : (forall x, In x s <-> In x t) -> length (nodup Z.eq_dec s) = length (nodup Z.eq_dec t).
Proof.
  intros H. apply Nat.le_antisymm; apply NoDup_incl_length; try apply NoDup_nodup; intros x; rewrite !nodup_In; apply H.
Qed.
Lemma nodup_snoc s x : zlen (nodup Z.eq_dec (s ++ [x])) = zlen (nodup Z.eq_dec s) + if in_dec Z.eq_dec x s then 0 else 1.
Proof.
  unfold zlen. rewrite (nodup_len_eq (s ++ [x]) (x :: s)) by (intros y; rewrite in_app_iff; cbn; tauto). cbn [nodup]. destruct (in_dec Z.eq_dec x s); cbn [length]; lia.
Qed.
Lemma sum_upd : forall (v : list Z) i k y, nth_error v i = Some y -> fold_right Z.add 0 (firstn k (upd v i (y + 1))) = fold_right Z.add 0 (firstn k v) + if (i <? k)%nat then 1 else 0.
Proof.
  induction v as [|z v IH]; intros i k y E; [destruct i; discriminate|]. destruct k as [|k]; [cbn; destruct i; reflexivity|]. destruct i as [|i]; cbn [nth_error] in E.
  - injection E as ->. cbn. lia.
  - cbn [upd firstn fold_right]. rewrite (IH i k y E). change (S i <? S k)%nat with (i <? k)%nat. lia.
Qed.
Section Proof.
  Variable a : list Z. Variable qs : list (Z * Z).
  Notation n := (zlen a). Notation q := (zlen qs).
  Hypothesis Hqs : forall p, In p qs -> query_ok a p.
  Notation qk k := (nth (Z.to_nat k) qs (0, 0)).
  Notation sec k := (snd (qk k)).
  Notation av i := (nth (Z.to_nat i) a 0).
  Lemma qk_ok k : 0 <= k < q -> vget qs k = Ok (qk k) /\ 0 <= fst (qk k) <= sec k /\ sec k <= n.
  Proof. intros H. pose proof (vget_nth (0, 0) qs k H) as E. split; auto. apply vget_In in E. apply Hqs in E. exact E. Qed.
  (* 1 + the last position below i of the value v, or 0 *)
  Fixpoint locc (i : nat) (v : Z) : Z := match i with O => 0 | S i => if nth i a 0 =? v then Z.of_nat i + 1 else locc i v end.
  Lemma locc_range i v : 0 <= locc i v <= Z.of_nat i.
  Proof. induction i as [|i IH]; cbn [locc]; [lia|]. destruct (_ =? _); lia. Qed.
  Lemma locc_le i v l : 0 <= l -> (locc i v <= l <-> forall j, l <= j < Z.of_nat i -> av j <> v).
  Proof.
    intros Hl. induction i as [|i IH]; cbn [locc]; [split; intros; lia|]. destruct (Z.eqb_spec (nth i a 0) v) as [E|E].
    - split; [intros; lia|]. intros H. destruct (Z.le_gt_cases (Z.of_nat i + 1) l); auto. exfalso. apply (H (Z.of_nat i)); [lia|]. now rewrite Nat2Z.id.
    - rewrite IH. split; intros H j Hj; [|apply H; lia]. destruct (Z.eq_dec j (Z.of_nat i)) as [->|]; [now rewrite Nat2Z.id|apply H; lia].
  Qed.
  Notation P i := (locc (Z.to_nat i) (av i)).
  Lemma segment_snoc l r : 0 <= l <= r -> r < n -> segment a l (r + 1) = segment a l r ++ [av r].
  Proof.
    intros H1 H2. unfold segment. replace (Z.to_nat (r + 1 - l)) with (S (Z.to_nat (r - l))) by lia. assert (L : (Z.to_nat (r - l) < length (skipn (Z.to_nat l) a))%nat) by (rewrite skipn_length; unfold zlen in H2; lia).
    replace (av r) with (nth (Z.to_nat (r - l)) (skipn (Z.to_nat l) a) 0).
    - generalize dependent (skipn (Z.to_nat l) a). intros s. generalize (Z.to_nat (r - l)). clear. intros k. revert s. induction k as [|k IH]; intros [|x s] L; cbn in *; try lia; auto. f_equal. apply IH. lia.
    - rewrite <- (firstn_skipn (Z.to_nat l) a) at 2. rewrite app_nth2; rewrite firstn_length; unfold zlen in H2; [f_equal; lia|lia].
  Qed.
  Lemma In_segment l r x : 0 <= l <= r -> r <= n -> (In x (segment a l r) <-> exists j, l <= j < r /\ av j = x).
  Proof.
    intros H1. replace r with (l + Z.of_nat (Z.to_nat (r - l))) by lia. assert (Hl : 0 <= l) by lia. generalize (Z.to_nat (r - l)). intros k. clear r H1. induction k as [|k IH]; intros Hr.
    - unfold segment. replace (Z.to_nat _) with O by lia. cbn. split; [intros []|intros (j & Hj & _); lia].
    - replace (l + Z.of_nat (S k)) with (l + Z.of_nat k + 1) in * by lia. rewrite segment_snoc by lia. rewrite in_app_iff, IH by lia. cbn [In]. split.
      + intros [(j & Hj & E)|[E|[]]]; [exists j; split; auto; lia|exists (l + Z.of_nat k); split; auto; lia].
      + intros (j & Hj & E). destruct (Z.eq_dec j (l + Z.of_nat k)) as [->|]; [right; left; auto|left; exists j; split; auto; lia].
  Qed.
  Lemma count_ok l r : 0 <= l <= r -> r <= n -> cnt (fun j => P j <=? l) r - l = distinct a l r.
  Proof.
    intros H1. replace r with (l + Z.of_nat (Z.to_nat (r - l))) by lia. generalize (Z.to_nat (r - l)). intros k. induction k as [|k IH]; intros Hr.
    - rewrite Z.add_0_r. rewrite (cnt_ext _ (fun _ => true)) by (intros j Hj; pose proof (locc_range (Z.to_nat j) (av j)); lia). rewrite cnt_all by lia. unfold distinct, segment. rewrite Z.sub_diag. reflexivity.
    - replace (l + Z.of_nat (S k)) with (l + Z.of_nat k + 1) in * by lia. rewrite cnt_S by lia. unfold distinct. rewrite segment_snoc by lia. rewrite nodup_snoc. fold (distinct a l (l + Z.of_nat k)). rewrite <- IH by lia.
      set (r' := l + Z.of_nat k) in *. destruct (in_dec Z.eq_dec (av r') (segment a l r')) as [I|I]; destruct (Z.leb_spec (P r') l) as [L|L]; try lia; exfalso.
      + apply In_segment in I as (j & Hj & E); [|lia|lia]. pose proof (proj1 (locc_le (Z.to_nat r') (av r') l ltac:(lia)) L) as L2. apply (L2 j); auto. lia.
      + assert (L' : P r' <= l); [|lia]. apply (proj2 (locc_le (Z.to_nat r') (av r') l ltac:(lia))). intros j Hj E. apply I. apply In_segment; [lia|lia|]. exists j. split; auto. lia.
  Qed.
  Notation c t r := (cnt (fun k => sec k =? r) t).
  Notation C r := (cnt (fun k => sec k <=? r) q).
  Lemma C_step r : C r = C (r - 1) + c q r.
  Proof. rewrite <- cnt_or by (intros; lia). apply cnt_ext. intros k _. lia. Qed.
  Lemma C_neg : C (-1) = 0.
  Proof. rewrite (cnt_ext _ (fun _ => false)) by (intros k Hk; destruct (qk_ok k Hk); lia). unfold cnt. induction (zrange q) as [|x l IH]; cbn; auto. Qed.
  Lemma C_n : C n = q.
  Proof. rewrite (cnt_ext _ (fun _ => true)) by (intros k Hk; destruct (qk_ok k Hk); lia). apply cnt_all, zlen_nonneg. Qed.
  Lemma C_mono r s : r <= s -> C r <= C s. Proof. intros H. apply cnt_le. intros k _. lia. Qed.
  Lemma c_mono t r : 0 <= t <= q -> c t r <= c q r.
  Proof.
    intros H. replace q with (t + Z.of_nat (Z.to_nat (q - t))) by lia. induction (Z.to_nat (q - t)) as [|k IH]; [rewrite Z.add_0_r; lia|]. replace (t + Z.of_nat (S k)) with (t + Z.of_nat k + 1) by lia. rewrite cnt_S by lia. destruct (_ =? _); lia.
  Qed.
  Notation val k := (cnt (fun j => P j <=? fst (qk k)) (sec k) - fst (qk k)).
  Lemma solve_ok : rc_solve {| rc_q := q; rc_a := a; rc_qs := qs |} = Ok (map (fun p => distinct a (fst p) (snd p)) qs).
  Proof.
    pose proof (zlen_nonneg a) as Hn. pose proof (zlen_nonneg qs) as Hq. unfold rc_solve. cbn [rc_a rc_q rc_qs]. cbv zeta. rewrite !vrep_vec by lia.
    (* prv *)
    match goal with |- context [for_ 0 n ?b ([], _)] => destruct (for_inv (fun i r => exists last pf, r = (last, vec n pf) /\ (forall v, um_get last v = locc (Z.to_nat i) v) /\ forall j, 0 <= j < i -> pf j = P j) 0 n b ([], vec n (fun _ => 0))) as (r & E & last & pf & -> & _ & Hpf) end; auto.
    { do 2 eexists. split; [reflexivity|]. split; [reflexivity|intros; lia]. }
    { intros i r Hi (last & pf & -> & Hl & Hp). rewrite (vget_nth 0 a i) by lia. cbn [bind]. rewrite vset_vec by lia. cbn [bind]. eexists. split; [reflexivity|]. do 2 eexists. split; [reflexivity|]. split.
      - intros v. replace (Z.to_nat (i + 1)) with (S (Z.to_nat i)) by lia. cbn [um_get locc]. destruct (_ =? _); [lia|auto].
      - intros j Hj. unfold fput. destruct (Z.eqb_spec j i) as [->|]; auto. apply Hp. lia. }
    rewrite E. cbn [bind]. clear E last.
    (* index: counts *)
    match goal with |- context [for_each qs ?b ?s] => destruct (for_each_inv (fun dn r => exists f, r = vec (n + 2) f /\ forall x, 0 <= x <= n -> f x = c (zlen dn) x) qs b s) as (r & E & f & -> & Hf) end.
    { eexists. split; [reflexivity|]. intros. reflexivity. }
    { intros dn p todo r Eq (f & -> & Hf). assert (Ip : In p qs) by (rewrite Eq; apply in_app_iff; right; now left). apply Hqs in Ip as (Ip1 & Ip2). rewrite vget_vec by lia. cbn [bind]. rewrite vset_vec by lia. eexists. split; [reflexivity|]. eexists. split; [reflexivity|].
      assert (Es : qk (zlen dn) = p) by (unfold zlen; rewrite Nat2Z.id, Eq, app_nth2, Nat.sub_diag; auto). intros x Hx. rewrite zlen_app. change (zlen [p]) with 1. rewrite cnt_S by apply zlen_nonneg. rewrite Es. unfold fput. destruct (Z.eqb_spec x (snd p)) as [->|D].
      - rewrite Z.eqb_refl, Hf by lia. reflexivity.
      - rewrite Hf by lia. destruct (Z.eqb_spec (snd p) x); lia. }
    rewrite E. cbn [bind]. clear E.
    (* index: prefix sums *)
    match goal with |- context [for_ 1 (n + 1) ?b ?s] => destruct (for_inv (fun i r => exists f, r = vec (n + 2) f /\ forall x, 0 <= x <= n -> f x = if x <? i then C x else c q x) 1 (n + 1) b s) as (r & E & f2 & -> & Hf2) end; [lia| | |].
    { eexists. split; [reflexivity|]. intros x Hx. rewrite Hf by lia. destruct (Z.ltb_spec x 1); auto. replace x with 0 by lia. rewrite C_step. change (0 - 1) with (-1). rewrite C_neg. lia. }
    { intros i r Hi (g & -> & Hg). rewrite vget_vec by lia. cbn [bind]. rewrite vget_vec by lia. cbn [bind]. rewrite vset_vec by lia. eexists. split; [reflexivity|]. eexists. split; [reflexivity|]. intros x Hx. unfold fput. destruct (Z.eqb_spec x i) as [->|D].
      - rewrite !Hg by lia. rewrite Z.ltb_irrefl. rewrite (C_step i). destruct (Z.ltb_spec (i - 1) i); [|lia]. destruct (Z.ltb_spec i (i + 1)); lia.
      - rewrite Hg by lia. destruct (Z.ltb_spec x i), (Z.ltb_spec x (i + 1)); auto; lia. }
    rewrite E. cbn [bind]. clear E f Hf. rewrite vset_vec by lia. cbn [bind].
    assert (Hf3 : forall x, 0 <= x <= n -> fput f2 (n + 1) q x = C x) by (intros x Hx; rewrite fput_diff by lia; rewrite Hf2 by lia; destruct (Z.ltb_spec x (n + 1)); lia).
    assert (Hf4 : fput f2 (n + 1) q (n + 1) = q) by apply fput_same. revert Hf3 Hf4. generalize (fput f2 (n + 1) q). clear f2 Hf2. intros f0 Hf3 Hf4.
    (* bucket sort *)
    match goal with |- context [for_ 0 q ?b ?s] => destruct (for_inv (fun t r => exists f fo, r = (vec (n + 2) f, vec q fo) /\ (forall x, 0 <= x <= n -> f x = C x - c t x) /\ f (n + 1) = q /\
        (forall k, 0 <= k < t -> exists pos, f (sec k) <= pos < C (sec k) /\ fo pos = k) /\ forall x pos, 0 <= x <= n -> f x <= pos < C x -> 0 <= fo pos < q /\ sec (fo pos) = x) 0 q b s) as (r & E & f & fo & -> & Hf & Hfn & HA & HB) end; [lia| | |].
    { do 2 eexists. split; [reflexivity|]. split; [intros x Hx; rewrite Hf3 by lia; rewrite cnt_0; lia|]. split; auto. split; [intros; lia|]. intros x pos Hx Hp. rewrite Hf3 in Hp by lia. lia. }
    { intros t r Ht (f & fo & -> & Hf & Hfn & HA & HB). destruct (qk_ok t ltac:(lia)) as (Et & Bt1 & Bt2). rewrite Et. cbn [bind]. rewrite vget_vec by lia. cbn [bind]. rewrite vset_vec by lia. cbn [bind].
      set (r0 := sec t) in *. assert (Ec : c (t + 1) r0 = c t r0 + 1) by (rewrite cnt_S by lia; fold r0; rewrite Z.eqb_refl; reflexivity). pose proof (c_mono (t + 1) r0 ltac:(lia)) as M1. pose proof (C_step r0) as M2. pose proof (cnt_nonneg (fun k => sec k <=? r0 - 1) q) as M3. pose proof (C_mono r0 n Bt2) as M4. rewrite C_n in M4. pose proof (cnt_nonneg (fun k => sec k =? r0) t) as M5. pose proof (Hf r0 ltac:(lia)) as F0.
      assert (Hpos : 0 <= f r0 - 1 < q) by lia. rewrite vset_vec by lia. cbn [bind]. eexists. split; [reflexivity|]. do 2 eexists. split; [reflexivity|].
      assert (Other : forall x, 0 <= x <= n -> x <> r0 -> f r0 - 1 < f x \/ C x <= f r0 - 1). { intros x Hx D. destruct (Z.lt_ge_cases x r0) as [L|L]; [right; pose proof (C_mono x (r0 - 1) ltac:(lia)); lia|]. left. rewrite (Hf x) by lia. pose proof (C_step x). pose proof (C_mono r0 (x - 1) ltac:(lia)). pose proof (c_mono t x ltac:(lia)). lia. }
      split; [|split; [rewrite fput_diff by lia; auto|split]].
      - intros x Hx. unfold fput. destruct (Z.eqb_spec x r0) as [->|D]; [lia|]. rewrite Hf by lia. rewrite cnt_S by lia. fold r0. destruct (Z.eqb_spec r0 x); lia.
      - intros k Hk. destruct (Z.eq_dec k t) as [->|Dk].
        + exists (f r0 - 1). fold r0. rewrite !fput_same. split; auto. lia.
        + destruct (HA k ltac:(lia)) as (pos & Hp & Ep). exists pos. destruct (qk_ok k ltac:(lia)) as (_ & Bk1 & Bk2). split.
          * unfold fput. destruct (Z.eqb_spec (sec k) r0) as [Ek|]; auto. rewrite <- Ek. lia.
          * rewrite fput_diff; auto. destruct (Z.eq_dec (sec k) r0) as [Ek|Ek]; [rewrite Ek in Hp; lia|]. specialize (Other (sec k) ltac:(lia) Ek). lia.
      - intros x pos Hx Hp. unfold fput in Hp. destruct (Z.eqb_spec x r0) as [->|D].
        + destruct (Z.eq_dec pos (f r0 - 1)) as [->|]; [rewrite fput_same; auto|]. rewrite fput_diff by auto. apply HB; auto; lia.
        + specialize (Other x Hx D). rewrite fput_diff by lia. apply HB; auto; lia. }
    rewrite E. cbn [bind]. clear E f0 Hf3 Hf4.
    (* sweep *)
    match goal with |- context [for_ 0 (n + 1) ?b ?s] => destruct (for_inv (fun r st => exists ft fa, st = (ft, vec q fa) /\ zlen ft = n + 1 /\ (forall l, 0 <= l <= n -> fold_right Z.add 0 (firstn (Z.to_nat (l + 1)) ft) = cnt (fun j => P j <=? l) (Z.min r n)) /\
        forall k, 0 <= k < q -> sec k < r -> fa k = val k) 0 (n + 1) b s) as (r & E & ft & fa & -> & _ & _ & Hfa) end; [lia| | |].
    { do 2 eexists. split; [reflexivity|]. split; [rewrite zlen_vec; lia|]. split; [|intros k Hk Hs; destruct (qk_ok k Hk); lia]. intros l Hl. rewrite Z.min_l by lia. rewrite cnt_0. rewrite <- vrep_vec by lia. unfold vrep. generalize (Z.to_nat (l + 1)), (Z.to_nat (n + 1)). clear. intros k m. revert m. induction k as [|k IH]; intros [|m]; cbn; auto. }
    { intros r st Hr (ft & fa & -> & Lf & Hs & Hfa). rewrite !vget_vec by lia. cbn [bind]. rewrite Z.min_l in Hs by lia.
      assert (Ehi : f (r + 1) = C r). { destruct (Z.eq_dec r n) as [->|]; [rewrite Hfn, C_n; auto|]. rewrite (Hf (r + 1)) by lia. rewrite (C_step (r + 1)). replace (r + 1 - 1) with r by lia. lia. } rewrite Ehi.
      assert (Blo : 0 <= f r <= C r) by (rewrite (Hf r) by lia; pose proof (C_step r); pose proof (cnt_nonneg (fun k => sec k <=? r - 1) q); pose proof (cnt_nonneg (fun k => sec k =? r) q); lia). pose proof (C_mono r n ltac:(lia)) as Bhi. rewrite C_n in Bhi.
      match goal with |- context [for_ (f r) (C r) ?b ?s] => destruct (for_inv (fun i r' => exists fa, r' = vec q fa /\ forall k, 0 <= k < q -> sec k < r \/ (exists pos, f r <= pos < i /\ fo pos = k) -> fa k = val k) (f r) (C r) b s) as (r' & E & fa' & -> & Hfa') end; [lia| | |].
      { eexists. split; [reflexivity|]. intros k Hk [|(pos & Hp & _)]; [auto|lia]. }
      { intros i r' Hi (g & -> & Hg). rewrite vget_vec by lia. cbn [bind]. destruct (HB r i ltac:(lia) ltac:(lia)) as (Bo & So). destruct (qk_ok _ Bo) as (Eo & Bo1 & Bo2). rewrite Eo. cbn [bind]. rewrite So, Z.eqb_refl. cbn [assert_ bind]. unfold ft_sum. rewrite Lf. replace (_ && _ && _) with true by (symmetry; lia). cbn [assert_ bind]. rewrite Z.sub_0_r. cbn [skipn Z.to_nat]. rewrite Hs by lia. rewrite vset_vec by lia. eexists. split; [reflexivity|]. eexists. split; [reflexivity|].
        intros k Hk H. unfold fput. destruct (Z.eqb_spec k (fo i)) as [->|D]; [rewrite So; reflexivity|]. apply Hg; auto. destruct H as [|(pos & Hp & Ep)]; auto. right. exists pos. split; auto. assert (pos <> i) by (intros ->; congruence). lia. }
      rewrite E. cbn [bind].
      assert (Done : forall k, 0 <= k < q -> sec k < r + 1 -> fa' k = val k). { intros k Hk Hs'. apply Hfa'; auto. destruct (Z.eq_dec (sec k) r) as [Er|]; [|left; lia]. right. destruct (HA k Hk) as (pos & Hp & Ep). exists pos. rewrite Er in Hp. auto. }
      destruct (Z.ltb_spec r n) as [L|L].
      - rewrite vget_vec by lia. cbn [bind]. rewrite Hpf by lia. pose proof (locc_range (Z.to_nat r) (av r)) as Bp. unfold ft_add. rewrite Lf. replace (_ && _) with true by (symmetry; lia). cbn [assert_ bind]. destruct (vget_Ok ft (P r) ltac:(lia)) as (y & Ey). rewrite Ey. cbn [bind]. rewrite vset_ok by lia. cbn [bind]. eexists. split; [reflexivity|]. do 2 eexists. split; [reflexivity|]. split; [rewrite zlen_zupd; auto|]. split; auto.
        intros l Hl. unfold zupd. rewrite sum_upd by now apply vget_nth_error. rewrite Hs by lia. rewrite Z.min_l by lia. rewrite cnt_S by lia. f_equal. destruct (Nat.ltb_spec (Z.to_nat (P r)) (Z.to_nat (l + 1))), (Z.leb_spec (P r) l); auto; lia.
      - eexists. split; [reflexivity|]. do 2 eexists. split; [reflexivity|]. split; auto. split; auto. intros l Hl. rewrite Hs by lia. f_equal. lia. }
    rewrite E. cbn [bind snd]. f_equal. apply vget_ext; [rewrite zlen_vec, zlen_map; lia|]. intros k Hk. rewrite zlen_vec in Hk by lia. rewrite vget_vec by lia. destruct (qk_ok k Hk) as (Ek & Bk1 & Bk2). rewrite Hfa by lia. rewrite count_ok by lia. symmetry. rewrite (vget_nth 0) by (rewrite zlen_map; lia). f_equal. set (h := fun p : Z * Z => distinct a (fst p) (snd p)). rewrite (nth_indep _ 0 (h (0, 0))) by (rewrite map_length; unfold zlen in Hk; lia). rewrite map_nth. reflexivity.
  Qed.
End Proof.
Lemma run_ok a qs : (forall p, In p qs -> query_ok a p) -> rc_run a qs = Ok (zrange (zlen qs), map (fun p => distinct a (fst p) (snd p)) qs).
Proof.
  intros H. unfold rc_run.
  match goal with |- context [for_each qs ?b ?s] => destruct (for_each_inv (fun dn r => r = (zrange (zlen dn), {| rc_q := zlen dn; rc_a := a; rc_qs := dn |})) qs b s) as (r & E & ->) end.
  - reflexivity.
  - intros dn p todo r Eq ->. assert (Ip : In p qs) by (rewrite Eq; apply in_app_iff; right; now left). apply H in Ip as (I1 & I2). unfold rc_add_query. cbn [rc_a rc_q rc_qs]. replace (_ && _ && _) with true by (symmetry; lia). cbn [assert_ bind fst snd]. eexists. split; [reflexivity|]. rewrite zlen_app. change (zlen [p]) with 1. destruct p as [l r]. cbn [fst snd]. f_equal. unfold zrange, zlen. replace (Z.to_nat (Z.of_nat (length dn) + 1)) with (S (length dn)) by lia. rewrite Nat2Z.id, seq_S, map_app. reflexivity.
  - rewrite E. cbn [bind]. rewrite solve_ok by auto. reflexivity.
Qed.
Lemma run_bad a qs p qs' : (forall p, In p qs -> query_ok a p) -> ~ query_ok a p -> rc_run a (qs ++ p :: qs') = Abort.
Proof.
  intros H Np. unfold rc_run.
  match goal with |- context [for_each _ ?b ?s] => set (body := b); set (s0 := s) end.
  assert (K : for_each (qs ++ p :: qs') body s0 = Abort); [|now rewrite K].
  assert (G : forall l s, rc_a (snd s) = a -> (forall p, In p l -> query_ok a p) -> for_each (l ++ p :: qs') body s = Abort); [|now apply G].
  induction l as [|x l IH]; intros (ids & s) Es Hl; cbn [app for_each]; unfold body at 1, rc_add_query; cbn [snd] in Es; rewrite Es.
  - replace (_ && _ && _) with false; [reflexivity|]. symmetry. destruct (_ && _ && _) eqn:B; auto. elim Np. unfold query_ok. lia.
  - destruct (Hl x (or_introl eq_refl)) as (I1 & I2). replace (_ && _ && _) with true by (symmetry; lia). cbn [assert_ bind fst snd]. apply IH; auto. intros y Iy. apply Hl. now right.
Qed.
