From Coq Require Import Permutation Sorted.
From Verif Require Import Base BaseLemmas ListZ ListMore Sorting Compress_model Compress_spec.

Definition incr (l : list Z) : Prop := StronglySorted Z.lt l.

Lemma unique_in l x : In x (unique l) <-> In x l.
Proof.
  induction l as [|a l IH]; [reflexivity|]. cbn [unique]. destruct l as [|b l]; [reflexivity|].
  destruct (Z.eqb_spec a b) as [->|N].
  - rewrite IH. cbn [In]. tauto.
  - cbn [In] in *. rewrite IH. reflexivity.
Qed.
Lemma unique_sorted l : StronglySorted Z.le l -> incr (unique l).
Proof.
  intro HS. induction HS as [|a l S IH F]; [constructor|]. cbn [unique]. destruct l as [|b l]; [repeat constructor|].
  destruct (Z.eqb_spec a b) as [->|N]; auto. constructor; auto. apply Forall_forall. intros y Hy. apply (proj1 (unique_in _ _)) in Hy.
  rewrite Forall_forall in F. pose proof (F b ltac:(now left)). apply StronglySorted_inv in S. destruct S as (S & F2).
  destruct Hy as [<-|Hy]; [lia|]. rewrite Forall_forall in F2. pose proof (F2 y Hy). lia.
Qed.
Lemma strictly_ok l : incr l -> is_strictly_sorted l = true.
Proof.
  intro HS. unfold incr in HS. induction HS as [|a l S IH F]; [reflexivity|]. cbn [is_strictly_sorted]. destruct l as [|b l]; auto. rewrite IH, andb_true_r.
  rewrite Forall_forall in F. pose proof (F b ltac:(now left)). lia.
Qed.
Lemma build_ok xs : exists c, build xs = Ok c /\ incr c /\ forall x, In x c <-> In x xs.
Proof.
  unfold build. assert (S : incr (unique (isort Z.leb xs))).
  { apply unique_sorted. eapply StronglySorted_impl; [|apply isort_sorted].
    - intros x y H. now apply Z.leb_le.
    - intros x y. rewrite !Z.leb_le. lia.
    - intros x y z. rewrite !Z.leb_le. lia. }
  unfold compressor. rewrite strictly_ok by auto. cbn [assert_ bind]. eexists. split; [reflexivity|]. split; auto.
  intro x. rewrite unique_in. split; apply Permutation_in; [apply isort_perm|apply Permutation_sym, isort_perm].
Qed.
Lemma incr_nodup l : incr l -> NoDup l.
Proof.
  intro HS. unfold incr in HS. induction HS as [|a l S IH F]; constructor; auto. rewrite Forall_forall in F. intro H. specialize (F _ H). lia.
Qed.
Lemma count_distinct c xs p : incr c -> (forall x, In x c <-> In x xs) -> distinct_with p xs = zlen (filter p c).
Proof.
  intros S H. unfold distinct_with, zlen. f_equal. apply Permutation_length.
  assert (P : Permutation (nodup Z.eq_dec xs) c).
  { apply NoDup_Permutation; [apply NoDup_nodup|now apply incr_nodup|]. intro x. rewrite nodup_In. symmetry. apply H. }
  clear -P. induction P; cbn [filter]; auto.
  - destruct (p x); auto.
  - destruct (p x), (p y); auto. apply perm_swap.
  - etransitivity; eauto.
Qed.

(* a property that holds from some point on *)
Definition upward (p : Z -> bool) (l : list Z) : Prop := StronglySorted (fun x y => p x = true -> p y = true) l.

Lemma first_pos_range p l : 0 <= first_pos p l <= zlen l.
Proof.
  induction l as [|x l IH]; cbn [first_pos]; [change (zlen (@nil Z)) with 0; lia|]. rewrite zlen_cons. destruct (p x); lia.
Qed.
Lemma first_pos_filter p l : upward p l -> filter (fun x => negb (p x)) l = firstn (Z.to_nat (first_pos p l)) l.
Proof.
  intro HS. unfold upward in HS. induction HS as [|x l S IH F]; [reflexivity|]. cbn [first_pos filter]. destruct (p x) eqn:E; cbn [negb].
  - cbn [Z.to_nat firstn]. clear IH. rewrite Forall_forall in F. induction l as [|y l IHl]; auto. cbn [filter].
    rewrite (F y (or_introl eq_refl) eq_refl). cbn [negb]. apply IHl.
    + now apply StronglySorted_inv in S.
    + intros z Hz. apply F. now right.
  - pose proof (first_pos_range p l). rewrite Z2Nat.inj_add by lia. cbn [Z.to_nat Pos.to_nat Pos.iter_op plus firstn].
    now rewrite IH.
Qed.
Lemma first_pos_len p l : upward p l -> first_pos p l = zlen (filter (fun x => negb (p x)) l).
Proof. intro U. rewrite first_pos_filter by auto. pose proof (first_pos_range p l). rewrite zlen_firstn; lia. Qed.
Lemma first_pos_lt p l i x : vget l i = Ok x -> i < first_pos p l -> p x = false.
Proof.
  revert i. induction l as [|y l IH]; intros i H Hi.
  - apply vget_range in H. change (zlen (@nil Z)) with 0 in H. lia.
  - cbn [first_pos] in Hi. pose proof (vget_range _ _ _ H). destruct (p y) eqn:E; [lia|].
    destruct (Z.eq_dec i 0) as [->|N]; [rewrite vget_cons0 in H; injection H as <-; auto|].
    rewrite vget_consS in H by lia. apply (IH (i - 1)); auto. lia.
Qed.
Lemma first_pos_at p l x : vget l (first_pos p l) = Ok x -> p x = true.
Proof.
  induction l as [|y l IH]; intros H.
  - apply vget_range in H. cbn [first_pos] in H. change (zlen (@nil Z)) with 0 in H. lia.
  - cbn [first_pos] in H. destruct (p y) eqn:E; [rewrite vget_cons0 in H; injection H as <-; auto|].
    pose proof (first_pos_range p l). rewrite vget_consS in H by lia. apply IH. now replace (1 + first_pos p l - 1) with (first_pos p l) in H by lia.
Qed.

Lemma incr_get l i j x y : incr l -> vget l i = Ok x -> vget l j = Ok y -> i < j -> x < y.
Proof.
  intro S. unfold incr in S. revert i j. induction S as [|a l S IH F]; intros i j Hi Hj D.
  - apply vget_range in Hi. change (zlen (@nil Z)) with 0 in Hi. lia.
  - pose proof (vget_range _ _ _ Hi). rewrite (vget_consS a l j) in Hj by lia. destruct (Z.eq_dec i 0) as [->|N].
    + rewrite vget_cons0 in Hi. injection Hi as <-. rewrite Forall_forall in F. apply F. eapply vget_In; eauto.
    + rewrite vget_consS in Hi by lia. eapply IH; eauto. lia.
Qed.
Lemma up_ge l e : incr l -> upward (fun x => negb (x <? e)) l.
Proof. apply StronglySorted_impl. intros x y H. rewrite !negb_true_iff. lia. Qed.
Lemma up_gt l e : incr l -> upward (fun x => e <? x) l.
Proof. apply StronglySorted_impl. intros x y H. lia. Qed.
Lemma down_lt l e : incr l -> upward (fun x => e >? x) (rev l).
Proof. intro S. apply StronglySorted_rev in S. revert S. apply StronglySorted_impl. intros x y H. lia. Qed.
Lemma down_le l e : incr l -> upward (fun x => negb (x >? e)) (rev l).
Proof. intro S. apply StronglySorted_rev in S. revert S. apply StronglySorted_impl. intros x y H. rewrite !negb_true_iff. lia. Qed.

Lemma filter_ext_len (p q : Z -> bool) l : (forall x, p x = q x) -> zlen (filter p l) = zlen (filter q l).
Proof. intro H. f_equal. apply filter_ext. exact H. Qed.
Lemma filter_rev_len (p : Z -> bool) l : zlen (filter p (rev l)) = zlen (filter p l).
Proof.
  unfold zlen. f_equal. apply Permutation_length. induction l as [|x l IH]; auto. cbn [rev filter].
  rewrite filter_app. rewrite IH. cbn [filter]. destruct (p x); [symmetry; apply Permutation_cons_append|now rewrite app_nil_r].
Qed.
Lemma filter_split_len (p : Z -> bool) l : zlen (filter p l) + zlen (filter (fun x => negb (p x)) l) = zlen l.
Proof.
  induction l as [|x l IH]; auto. cbn [filter]. destruct (p x); cbn [negb]; rewrite ?zlen_cons; lia.
Qed.

Section Queries.
  Variables (xs c : list Z).
  Hypothesis S : incr c.
  Hypothesis H : forall x, In x c <-> In x xs.

  Lemma lower_rank e : lower_bound c e = distinct_with (fun x => x <? e) xs.
  Proof.
    unfold lower_bound. rewrite (first_pos_len _ c (up_ge c e S)), (count_distinct c) by auto. apply filter_ext_len. intro. now rewrite negb_involutive.
  Qed.
  Lemma upper_rank e : upper_bound c e = distinct_with (fun x => x <=? e) xs.
  Proof.
    unfold upper_bound. rewrite (first_pos_len _ c (up_gt c e S)), (count_distinct c) by auto. apply filter_ext_len. intro. lia.
  Qed.
  Lemma lower_rank_gt e : zlen c - lower_bound_gt (rev c) e = distinct_with (fun x => x <=? e) xs.
  Proof.
    unfold lower_bound_gt. rewrite (first_pos_len _ (rev c) (down_le c e S)), (count_distinct c), filter_rev_len by auto.
    pose proof (filter_split_len (fun x => x <=? e) c) as F. rewrite (filter_ext_len (fun x => negb (x <=? e)) (fun x => negb (negb (x >? e)))) in F by (intro; lia). lia.
  Qed.
  Lemma upper_rank_gt e : zlen c - upper_bound_gt (rev c) e = distinct_with (fun x => x <? e) xs.
  Proof.
    unfold upper_bound_gt. rewrite (first_pos_len _ (rev c) (down_lt c e S)), (count_distinct c), filter_rev_len by auto.
    pose proof (filter_split_len (fun x => x <? e) c) as F. rewrite (filter_ext_len (fun x => negb (x <? e)) (fun x => negb (e >? x))) in F by (intro; lia). lia.
  Qed.
  Lemma lower_of_elem i x : vget c i = Ok x -> lower_bound c x = i.
  Proof.
    intro E. pose proof (vget_range _ _ _ E) as R. pose proof (first_pos_range (fun y => negb (y <? x)) c) as B. fold (lower_bound c x) in B.
    destruct (Z.lt_trichotomy (lower_bound c x) i) as [L|[L|L]]; auto; exfalso.
    - destruct (vget_Ok c (lower_bound c x)) as (y & Hy); [lia|]. pose proof (first_pos_at _ _ _ Hy) as P. cbv beta in P.
      pose proof (incr_get c _ _ _ _ S Hy E L). lia.
    - pose proof (first_pos_lt _ _ _ _ E L) as P. cbv beta in P. lia.
  Qed.
  Lemma comp_ok e d : comp c e d = Ok (if in_dec Z.eq_dec e xs then distinct_with (fun x => x <? e) xs else d).
  Proof.
    unfold comp, cc_size. cbv zeta. destruct (in_dec Z.eq_dec e xs) as [I|N].
    - apply H in I. apply In_vget in I. destruct I as (i & Hi & E). rewrite <- lower_rank. rewrite (lower_of_elem i e E).
      replace (i =? zlen c) with false by lia. cbn [negb]. rewrite E. cbn [bind]. now rewrite Z.eqb_refl.
    - destruct (Z.eqb_spec (lower_bound c e) (zlen c)) as [L|L]; cbn [negb]; auto.
      pose proof (first_pos_range (fun y => negb (y <? e)) c) as B. fold (lower_bound c e) in B.
      destruct (vget_Ok c (lower_bound c e)) as (y & Hy); [lia|]. rewrite Hy. cbn [bind]. destruct (Z.eqb_spec y e) as [->|D]; auto.
      exfalso. apply N, H. eapply vget_In; eauto.
  Qed.
  Lemma has_key_ok e : has_key c e = Ok (if in_dec Z.eq_dec e xs then true else false).
  Proof.
    unfold has_key. cbv zeta. destruct (in_dec Z.eq_dec e xs) as [I|N].
    - apply H in I. apply In_vget in I. destruct I as (i & Hi & E). rewrite (lower_of_elem i e E).
      replace (i =? zlen c) with false by lia. rewrite E. cbn [bind]. rewrite Z.ltb_irrefl. reflexivity.
    - destruct (Z.eqb_spec (lower_bound c e) (zlen c)) as [L|L]; auto.
      pose proof (first_pos_range (fun y => negb (y <? e)) c) as B. fold (lower_bound c e) in B.
      destruct (vget_Ok c (lower_bound c e)) as (y & Hy); [lia|]. rewrite Hy. cbn [bind].
      pose proof (first_pos_at _ _ _ Hy) as P. cbv beta in P. destruct (Z.ltb_spec e y); auto.
      exfalso. apply N, H. replace e with y by lia. eapply vget_In; eauto.
  Qed.
  Lemma decomp_ok i : 0 <= i < zlen c -> exists e, decomp c i = Ok e /\ In e xs /\ distinct_with (fun x => x <? e) xs = i.
  Proof.
    intro Hi. destruct (vget_Ok c i Hi) as (e & E). exists e. split; auto. split; [apply H; eapply vget_In; eauto|].
    rewrite <- lower_rank. now apply lower_of_elem.
  Qed.
  Lemma size_ok : cc_size c = zlen (nodup Z.eq_dec xs).
  Proof.
    pose proof (count_distinct c xs (fun _ => true) S H) as E. unfold distinct_with in E. rewrite !filter_all in E by auto. auto.
  Qed.
  Lemma in_pos y : In y xs -> exists i, 0 <= i < zlen c /\ vget c i = Ok y.
  Proof. intro I. apply H in I. apply In_vget in I. exact I. Qed.

  (* minimum from the left *)
  Lemma first_least p d : upward p c -> exists r, (if first_pos p c =? zlen c then Ok d else vget c (first_pos p c)) = Ok r /\
    least_with (fun x => p x = true) xs d r.
  Proof.
    intro U. pose proof (first_pos_range p c) as B. destruct (Z.eqb_spec (first_pos p c) (zlen c)) as [E|E].
    - exists d. split; auto. right. split; auto. intros y Hy. destruct (in_pos y Hy) as (i & Hi & V).
      rewrite (first_pos_lt p c i y V) by lia. discriminate.
    - destruct (vget_Ok c (first_pos p c)) as (r & V); [lia|]. exists r. split; auto. left. split; [apply H; eapply vget_In; eauto|].
      split; [now apply (first_pos_at p c)|]. intros y Hy Py. destruct (in_pos y Hy) as (i & Hi & Vi).
      destruct (Z.lt_trichotomy i (first_pos p c)) as [L|[L|L]].
      + rewrite (first_pos_lt p c i y Vi L) in Py. discriminate.
      + subst i. rewrite V in Vi. injection Vi as <-. lia.
      + pose proof (incr_get c _ _ _ _ S V Vi L). lia.
  Qed.
  Lemma last_greatest p d : upward p (rev c) -> exists r, (if first_pos p (rev c) =? zlen c then Ok d else vget (rev c) (first_pos p (rev c))) = Ok r /\
    greatest_with (fun x => p x = true) xs d r.
  Proof.
    intro U. pose proof (first_pos_range p (rev c)) as B. rewrite zlen_rev in B.
    assert (Pos : forall y, In y xs -> exists i, 0 <= i < zlen c /\ vget (rev c) i = Ok y).
    { intros y Hy. destruct (in_pos y Hy) as (i & Hi & V). exists (zlen c - 1 - i). split; [lia|]. rewrite vget_rev by lia.
      now replace (zlen c - 1 - (zlen c - 1 - i)) with i by lia. }
    destruct (Z.eqb_spec (first_pos p (rev c)) (zlen c)) as [E|E].
    - exists d. split; auto. right. split; auto. intros y Hy. destruct (Pos y Hy) as (i & Hi & V).
      rewrite (first_pos_lt p (rev c) i y V) by lia. discriminate.
    - destruct (vget_Ok (rev c) (first_pos p (rev c))) as (r & V); [rewrite zlen_rev; lia|]. exists r. split; auto. left.
      split; [apply H; apply in_rev; eapply vget_In; eauto|]. split; [now apply (first_pos_at p (rev c))|].
      intros y Hy Py. destruct (Pos y Hy) as (i & Hi & Vi). destruct (Z.lt_trichotomy i (first_pos p (rev c))) as [L|[L|L]].
      + rewrite (first_pos_lt p (rev c) i y Vi L) in Py. discriminate.
      + subst i. rewrite V in Vi. injection Vi as <-. lia.
      + rewrite vget_rev in V by lia. rewrite vget_rev in Vi by lia.
        assert (y < r); [|lia]. eapply incr_get; eauto. lia.
  Qed.
End Queries.

(* ---- inversion number *)
Definition cnt (s : list Z) (v : Z) : Z := zlen (filter (Z.eqb v) s).
Lemma cnt_cons y s v : cnt (y :: s) v = cnt s v + (if v =? y then 1 else 0).
Proof. unfold cnt. cbn [filter]. destruct (v =? y); rewrite ?zlen_cons; lia. Qed.
Lemma sum_cnt L s : NoDup L -> fold_right Z.add 0 (map (cnt s) L) = zlen (filter (fun y => if in_dec Z.eq_dec y L then true else false) s).
Proof.
  intro N. induction s as [|y s IH].
  - cbn [filter]. change (zlen (@nil Z)) with 0. clear. induction L as [|x L IH]; auto.
  - assert (E : fold_right Z.add 0 (map (cnt (y :: s)) L) = fold_right Z.add 0 (map (cnt s) L) + (if in_dec Z.eq_dec y L then 1 else 0)).
    { clear IH. induction N as [|x L Nx N IH]; [reflexivity|]. cbn [map fold_right]. rewrite IH, cnt_cons.
      destruct (in_dec Z.eq_dec y L) as [I|I], (in_dec Z.eq_dec y (x :: L)) as [J|J]; destruct (Z.eqb_spec x y) as [->|D]; try lia.
      all: exfalso; cbn [In] in *; tauto. }
    rewrite E, IH. cbn [filter]. destruct (in_dec Z.eq_dec y L); rewrite ?zlen_cons; lia.
Qed.

Definition inv_body (a c : list Z) (i : Z) (st : Z * list Z) : res (Z * list Z) :=
  let '(ans, ft) := st in
  let* x := vget a i in
  let* j := comp c x (-1) in
  let* s := ft_sum ft j in
  let* ft := ft_add ft j 1 in
  Ok (ans + s, ft).

Lemma inversion_ok a : inversion_number a = Ok (inversions a).
Proof.
  unfold inversion_number. cbv zeta. destruct (build_ok a) as (c & -> & Sc & Hc). cbn [bind].
  pose proof (zlen_nonneg a) as Hn. pose proof (zlen_nonneg c) as Hm.
  pose proof (ford_inv (fun i st => fst st = inversions (skipn (Z.to_nat (i + 1)) a) /\ snd st = map (cnt (skipn (Z.to_nat (i + 1)) a)) c) (zlen a - 1) (-1)
    (inv_body a c) (0, vrep (cc_size c) 0)) as L.
  destruct L as (st & E & F & _).
  - lia.
  - replace (zlen a - 1 + 1) with (zlen a) by lia. unfold zlen at 1 2. rewrite Nat2Z.id, skipn_all. split; [reflexivity|].
    cbn [snd]. unfold cc_size, vrep, zlen. rewrite Nat2Z.id. clear. induction c as [|x c IH]; auto. cbn [length repeat map]. now rewrite IH.
  - intros i (ans, ft) Hi (Ha & Hf). cbn [fst snd] in *. unfold inv_body. destruct (vget_Ok a i) as (x & Hx); [lia|]. rewrite Hx. cbn [bind].
    rewrite (comp_ok a c Sc Hc). cbn [bind]. pose proof (vget_In _ _ _ Hx) as Ix. destruct (in_dec Z.eq_dec x a) as [_|N]; [|contradiction].
    rewrite <- (lower_rank a c Sc Hc). apply Hc in Ix. apply In_vget in Ix. destruct Ix as (j & Hj & Ej).
    rewrite (lower_of_elem a c Sc Hc j x Ej). set (s := skipn (Z.to_nat (i + 1)) a) in *. subst ft. unfold ft_sum, ft_add. rewrite !zlen_map.
    replace ((0 <=? j) && (j <=? zlen c)) with true by lia. cbn [bind]. replace ((0 <=? j) && (j <? zlen c)) with true by lia.
    rewrite vget_map, Ej. cbn [bind]. rewrite vset_ok by (rewrite zlen_map; lia). cbn [bind]. eexists. split; [reflexivity|]. cbn [fst snd].
    assert (Es : skipn (Z.to_nat (i - 1 + 1)) a = x :: s).
    { replace (i - 1 + 1) with i by lia. unfold s. destruct (vget_split _ _ _ Hx) as (a1 & a2 & -> & L1).
      replace (Z.to_nat (i + 1)) with (length (a1 ++ [x])) by (rewrite app_length; cbn [length]; unfold zlen in L1; lia).
      replace (Z.to_nat i) with (length a1) by (unfold zlen in L1; lia).
      rewrite skipn_app, skipn_all, Nat.sub_diag. cbn [skipn app].
      replace (a1 ++ x :: a2) with ((a1 ++ [x]) ++ a2) by (rewrite <- app_assoc; reflexivity).
      now rewrite skipn_app, skipn_all, Nat.sub_diag. }
    rewrite Es. split.
    + cbn [inversions]. rewrite Ha. cut (fold_right Z.add 0 (firstn (Z.to_nat j) (map (cnt s) c)) = zlen (filter (fun y => y <? x) s)); [lia|].
      rewrite firstn_map. pose proof (first_pos_filter _ c (up_ge c x Sc)) as F. fold (lower_bound c x) in F. rewrite (lower_of_elem a c Sc Hc j x Ej) in F.
      rewrite <- F. rewrite sum_cnt by (apply NoDup_filter, incr_nodup; auto). f_equal. apply filter_ext_in. intros y Hy.
      assert (Iy : In y c). { apply Hc. unfold s in Hy. rewrite <- (firstn_skipn (Z.to_nat (i + 1)) a). apply in_or_app. now right. }
      destruct (in_dec Z.eq_dec y (filter (fun x0 => negb (negb (x0 <? x))) c)) as [I|I].
      * apply filter_In in I. destruct I as (_ & I). rewrite negb_involutive in I. now rewrite I.
      * destruct (y <? x) eqn:Q; auto. exfalso. apply I. apply filter_In. split; auto. now rewrite Q.
    + apply list_eq; [now rewrite zlen_zupd, !zlen_map|]. intros k Hk. rewrite zlen_zupd, zlen_map in Hk.
      rewrite vget_zupd by (rewrite zlen_map; lia). rewrite !vget_map. destruct (vget_Ok c k Hk) as (v & Hv). rewrite Hv. cbn [bind].
      rewrite cnt_cons. destruct (Z.eqb_spec j k) as [<-|D].
      * rewrite Hv in Ej. injection Ej as ->. now rewrite Z.eqb_refl.
      * replace (v =? x) with false; [f_equal; lia|]. symmetry. apply Z.eqb_neq. intros ->.
        pose proof (lower_of_elem a c Sc Hc j x Ej). pose proof (lower_of_elem a c Sc Hc k x Hv). lia.
  - change (fun i '(ans, ft) => let* x := vget a i in let* j := comp c x (-1) in let* s := ft_sum ft j in let* ft0 := ft_add ft j 1 in Ok (ans + s, ft0)) with (inv_body a c).
    rewrite E. cbn [bind]. rewrite F. reflexivity.
Qed.
