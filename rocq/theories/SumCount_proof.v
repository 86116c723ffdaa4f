(* sum_count: proofs *)
From Verif Require Import Base BaseLemmas SumCount_spec SumCount_model.

Fixpoint zsum (l : list Z) : Z := match l with [] => 0 | x :: l => x + zsum l end.
Lemma zsum_app a b : zsum (a ++ b) = zsum a + zsum b. Proof. induction a; cbn [app zsum]; lia. Qed.
Lemma filter_map_zlen {A B} (f : A -> B) (P : B -> bool) l : zlen (filter P (map f l)) = zlen (filter (fun x => P (f x)) l).
Proof. induction l as [|x l IH]; [reflexivity|]. cbn [map filter]. destruct (P (f x)); rewrite ?zlen_cons, IH; auto. Qed.
Lemma prod_count {A B} (Q : A * B -> bool) (la : list A) (lb : list B) : zlen (filter Q (list_prod la lb)) = zsum (map (fun a => zlen (filter (fun b => Q (a, b)) lb)) la).
Proof. induction la as [|a la IH]; [reflexivity|]. cbn [list_prod map zsum]. rewrite filter_app, zlen_app, IH, filter_map_zlen. reflexivity. Qed.
Lemma interval_empty lo hi : hi < lo -> interval lo hi = [].
Proof. intros H. unfold interval, zrange. replace (Z.to_nat (hi - lo + 1)) with 0%nat by lia. reflexivity. Qed.
Lemma interval_snoc lo hi : lo <= hi -> interval lo hi = interval lo (hi - 1) ++ [hi].
Proof. intros H. unfold interval. replace (hi - lo + 1) with ((hi - 1 - lo + 1) + 1) by lia. rewrite zrange_S by lia. rewrite map_app. cbn [map]. f_equal. f_equal. lia. Qed.
Lemma interval_ind (P : Z -> Prop) lo : (forall hi, hi < lo -> P hi) -> (forall hi, lo <= hi -> P (hi - 1) -> P hi) -> forall hi, P hi.
Proof.
  intros H0 HS hi. destruct (Z.lt_ge_cases hi lo) as [L|L]; auto. replace hi with (lo - 1 + Z.of_nat (Z.to_nat (hi - lo + 1))) by lia. induction (Z.to_nat (hi - lo + 1)) as [|k IH]; [apply H0; lia|].
  apply HS; [lia|]. replace (lo - 1 + Z.of_nat (S k) - 1) with (lo - 1 + Z.of_nat k) by lia. exact IH.
Qed.
Lemma count_between c d lo : forall hi, zlen (filter (fun b => (c <=? b) && (b <=? d)) (interval lo hi)) = Z.max 0 (Z.min d hi - Z.max c lo + 1).
Proof.
  apply interval_ind with (lo := lo); intros hi L; [rewrite interval_empty by auto; change (zlen (filter (fun b => (c <=? b) && (b <=? d)) [])) with 0; lia|].
  intros IH. rewrite (interval_snoc lo hi L), filter_app, zlen_app, IH. cbn [filter]. destruct (Z.leb_spec c hi), (Z.leb_spec hi d); cbn [andb]; rewrite ?zlen_cons; change (zlen (@nil Z)) with 0; lia.
Qed.
Lemma zsum_ext {A} (f h : A -> Z) l : (forall a, In a l -> f a = h a) -> zsum (map f l) = zsum (map h l).
Proof. induction l as [|x l IH]; intros H; [reflexivity|]. cbn [map zsum]. rewrite (H x), IH; auto; [intros; apply H; now right|now left]. Qed.
Lemma filter_ext_zlen {A} (P Q : A -> bool) l : (forall a, In a l -> P a = Q a) -> zlen (filter P l) = zlen (filter Q l).
Proof. intros H. f_equal. now apply filter_ext_in. Qed.
Lemma In_interval lo hi x : In x (interval lo hi) <-> lo <= x <= hi.
Proof. unfold interval. rewrite in_map_iff. split; [intros (i & <- & I); apply In_zrange in I; lia|]. intros H. exists (x - lo). split; [lia|]. apply In_zrange. lia. Qed.
Lemma zsum_ind (P : Z -> bool) l : zsum (map (fun a => if P a then 1 else 0) l) = zlen (filter P l).
Proof. induction l as [|x l IH]; [reflexivity|]. cbn [map zsum filter]. destruct (P x); rewrite ?zlen_cons, IH; lia. Qed.

Lemma sum_count_ok a0 a1 b0 b1 s : sum_count a0 a1 b0 b1 s = how_many (fun x => x =? s) a0 a1 b0 b1.
Proof.
  unfold how_many, pairs. rewrite prod_count. cbn [fst snd].
  rewrite (zsum_ext _ (fun a => if (s - b1 <=? a) && (a <=? s - b0) then 1 else 0)).
  - rewrite zsum_ind, count_between. unfold sum_count. lia.
  - intros a _. rewrite (filter_ext_zlen _ (fun b => (s - a <=? b) && (b <=? s - a))), count_between.
    + destruct (Z.leb_spec (s - b1) a), (Z.leb_spec a (s - b0)); cbn [andb]; lia.
    + intros b _. destruct (Z.eqb_spec (a + b) s), (Z.leb_spec (s - a) b), (Z.leb_spec b (s - a)); cbn [andb]; auto; lia.
Qed.
Lemma half k f : 0 <= k -> 0 <= f -> 2 * Z.quot (k * (f + (f + k) - 1)) 2 = k * (f + (f + k) - 1).
Proof.
  intros Hk Hf. assert (E : exists q, k * (f + (f + k) - 1) = 2 * q).
  { destruct (Z.Even_or_Odd k) as [(j & ->)|(j & ->)]; [exists (j * (f + (f + 2 * j) - 1)); lia|exists ((2 * j + 1) * (f + j)); lia]. }
  destruct E as (q & ->). replace (2 * q) with (q * 2) at 1 by lia. rewrite Z.quot_mul; lia.
Qed.
Lemma leq_row c b0 b1 a : zlen (filter (fun b => a + b <=? c) (interval b0 b1)) = Z.max 0 (Z.min (c - a) b1 - b0 + 1).
Proof.
  rewrite (filter_ext_zlen _ (fun b => (b0 <=? b) && (b <=? c - a))), count_between; [lia|]. intros b I. apply In_interval in I. destruct (Z.leb_spec b0 b), (Z.leb_spec (a + b) c), (Z.leb_spec b (c - a)); cbn [andb]; auto; lia.
Qed.
Lemma leq_step a0 a1 b0 b1 c : a0 <= a1 -> sum_count_leq a0 a1 b0 b1 c = sum_count_leq a0 (a1 - 1) b0 b1 c + Z.max 0 (Z.min (c - a1) b1 - b0 + 1).
Proof.
  intros H. unfold sum_count_leq. cbv zeta. set (ra := a1 - a0). replace (a1 - 1 - a0) with (ra - 1) by lia. set (rb := b1 - b0). set (rs := c - (a0 + b0)). replace (Z.min (c - a1) b1 - b0 + 1) with (Z.min (rs - ra) rb + 1) by lia. assert (Hr : 0 <= ra) by lia. clearbody ra rb rs. clear - Hr.
  destruct (Z.ltb_spec ra 0); [lia|]. destruct (Z.ltb_spec rb 0); cbn [orb]; [rewrite orb_true_r; cbn [orb]; lia|]. rewrite orb_false_r. destruct (Z.ltb_spec rs 0); cbn [orb]; [rewrite orb_true_r; lia|]. rewrite orb_false_r.
  destruct (Z.ltb_spec (ra - 1) 0) as [L|L].
  - assert (ra = 0) as -> by lia. set (t := Z.max 0 (Z.min 0 (rs - rb) + 1)). pose proof (half (rs - t + 2 - (rs - Z.min 0 rs + 1)) (rs - Z.min 0 rs + 1) ltac:(lia) ltac:(lia)) as E. replace (rs - Z.min 0 rs + 1 + (rs - Z.min 0 rs + 1 + (rs - t + 2 - (rs - Z.min 0 rs + 1))) - 1) with (rs - Z.min 0 rs + 1 + (rs - t + 2) - 1) in E by lia.
    set (q := Z.quot _ 2) in *. clearbody q. destruct (Z.le_gt_cases rb rs).
    + assert (t = 1) by lia. clearbody t. subst t. rewrite Z.min_l in E by lia. rewrite (Z.min_r (rs - 0) rb) by lia. nia.
    + assert (t = 0) by lia. clearbody t. subst t. rewrite Z.min_l in E by lia. rewrite (Z.min_l (rs - 0) rb) by lia. nia.
  - set (t := Z.max 0 (Z.min ra (rs - rb) + 1)). set (t' := Z.max 0 (Z.min (ra - 1) (rs - rb) + 1)).
    pose proof (half (rs - t + 2 - (rs - Z.min ra rs + 1)) (rs - Z.min ra rs + 1) ltac:(lia) ltac:(lia)) as E. replace (rs - Z.min ra rs + 1 + (rs - Z.min ra rs + 1 + (rs - t + 2 - (rs - Z.min ra rs + 1))) - 1) with (rs - Z.min ra rs + 1 + (rs - t + 2) - 1) in E by lia.
    pose proof (half (rs - t' + 2 - (rs - Z.min (ra - 1) rs + 1)) (rs - Z.min (ra - 1) rs + 1) ltac:(lia) ltac:(lia)) as E'. replace (rs - Z.min (ra - 1) rs + 1 + (rs - Z.min (ra - 1) rs + 1 + (rs - t' + 2 - (rs - Z.min (ra - 1) rs + 1))) - 1) with (rs - Z.min (ra - 1) rs + 1 + (rs - t' + 2) - 1) in E' by lia.
    match type of E with 2 * ?x = _ => set (q := x) in * end. match type of E' with 2 * ?x = _ => set (q' := x) in * end. clearbody q q'.
    destruct (Z.lt_ge_cases rs ra) as [Lr|Lr].
    + (* the new row is empty *) assert (t = t') as Et by lia. rewrite <- Et in *. replace (Z.min (ra - 1) rs) with (Z.min ra rs) in E' by lia. nia.
    + replace (Z.min ra rs) with ra in E by lia. replace (Z.min (ra - 1) rs) with (ra - 1) in E' by lia. destruct (Z.le_gt_cases ra (rs - rb)).
      * assert (t = ra + 1) by lia. assert (t' = ra) by lia. clearbody t t'. subst t t'. rewrite (Z.min_r (rs - ra) rb) by lia. nia.
      * assert (t' = t) by lia. clearbody t t'. subst t'. rewrite (Z.min_l (rs - ra) rb) by lia. nia.
Qed.
Lemma sum_count_leq_ok a0 a1 b0 b1 c : sum_count_leq a0 a1 b0 b1 c = how_many (fun x => x <=? c) a0 a1 b0 b1.
Proof.
  unfold how_many, pairs. rewrite prod_count. cbn [fst snd]. revert a1. apply interval_ind with (lo := a0); intros a1 L.
  - rewrite (interval_empty a0 a1) by auto. cbn [map zsum]. unfold sum_count_leq. cbv zeta. destruct (Z.ltb_spec (a1 - a0) 0); [reflexivity|lia].
  - intros IH. rewrite leq_step, IH by auto. rewrite (interval_snoc a0 a1) by auto. rewrite map_app, zsum_app. cbn [map zsum]. rewrite leq_row. lia.
Qed.
Lemma how_many_not P a0 a1 b0 b1 : how_many P a0 a1 b0 b1 + how_many (fun x => negb (P x)) a0 a1 b0 b1 = Z.max 0 (a1 - a0 + 1) * Z.max 0 (b1 - b0 + 1).
Proof.
  unfold how_many. replace (Z.max 0 (a1 - a0 + 1) * Z.max 0 (b1 - b0 + 1)) with (zlen (pairs a0 a1 b0 b1)).
  - induction (pairs a0 a1 b0 b1) as [|x l IH]; [reflexivity|]. cbn [filter]. destruct (P (fst x + snd x)); cbn [negb]; rewrite !zlen_cons; lia.
  - unfold pairs, zlen. rewrite prod_length. unfold interval. rewrite !map_length. unfold zrange. rewrite !map_length, !seq_length. lia.
Qed.
Lemma how_many_ext P Q a0 a1 b0 b1 : (forall x, P x = Q x) -> how_many P a0 a1 b0 b1 = how_many Q a0 a1 b0 b1.
Proof. intros H. unfold how_many. f_equal. apply filter_ext. intros x. apply H. Qed.
Lemma sum_count_lt_ok a0 a1 b0 b1 c : sum_count_lt a0 a1 b0 b1 c = how_many (fun x => x <? c) a0 a1 b0 b1.
Proof. unfold sum_count_lt. rewrite sum_count_leq_ok. apply how_many_ext. intros x. destruct (Z.leb_spec x (c - 1)), (Z.ltb_spec x c); auto; lia. Qed.
Lemma sum_count_geq_ok a0 a1 b0 b1 c : sum_count_geq a0 a1 b0 b1 c = how_many (fun x => c <=? x) a0 a1 b0 b1.
Proof. unfold sum_count_geq. rewrite sum_count_lt_ok, <- (how_many_not (fun x => x <? c)). rewrite (how_many_ext (fun x => c <=? x) (fun x => negb (x <? c))) by (intros x; now rewrite Z.leb_antisym). lia. Qed.
Lemma sum_count_gt_ok a0 a1 b0 b1 c : sum_count_gt a0 a1 b0 b1 c = how_many (fun x => c <? x) a0 a1 b0 b1.
Proof. unfold sum_count_gt. rewrite sum_count_leq_ok, <- (how_many_not (fun x => x <=? c)). rewrite (how_many_ext (fun x => c <? x) (fun x => negb (x <=? c))) by (intros x; now rewrite Z.ltb_antisym). lia. Qed.
