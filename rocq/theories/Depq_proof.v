From Verif Require Import Base BaseLemmas ListZ Sorting Depq_spec Depq_model.
From Coq Require Import Permutation Sorted.

Lemma heap_front less l x y : (less = Z.ltb \/ less = rev_less) -> heap less (x :: l) -> In y (x :: l) -> less x y = false.
Proof.
  intros O H I. apply In_vget in I as (i & _ & E). assert (K : forall n i y, 0 <= i -> (Z.to_nat i <= n)%nat -> vget (x :: l) i = Ok y -> less x y = false); [|apply vget_range in E as R; apply (K (Z.to_nat i) i y); auto; lia].
  induction n as [|n IH]; intros j z Hj Hn Ez.
  - assert (j = 0) by lia. subst j. rewrite vget_cons0 in Ez. injection Ez as <-. destruct O as [-> | ->]; [apply Z.ltb_irrefl|unfold rev_less, Depq_model.less; apply Z.ltb_irrefl].
  - destruct (Z.eq_dec j 0) as [->|N]; [rewrite vget_cons0 in Ez; injection Ez as <-; destruct O as [-> | ->]; [apply Z.ltb_irrefl|unfold rev_less, Depq_model.less; apply Z.ltb_irrefl]|].
    assert (P : 0 <= (j - 1) / 2 < j) by (split; [apply Z.div_pos; lia|apply Z.div_lt_upper_bound; lia]). apply vget_range in Ez as R. destruct (vget_Ok (x :: l) ((j - 1) / 2) ltac:(lia)) as (w & Ew).
    pose proof (IH ((j - 1) / 2) w ltac:(lia) ltac:(lia) Ew) as A. pose proof (H j z w ltac:(lia) Ez Ew) as B. destruct O as [-> | ->]; unfold rev_less, Depq_model.less in *; rewrite Z.ltb_ge in *; lia.
Qed.
Definition sorted := StronglySorted (fun x y => Z.leb x y = true).
Lemma sort_sorted l : sorted (isort Z.leb l).
Proof. apply isort_sorted; [intros x y; rewrite !Z.leb_le; lia|intros x y z; rewrite !Z.leb_le; lia]. Qed.
Lemma sorted_unique : forall l m, sorted l -> sorted m -> Permutation l m -> l = m.
Proof.
  unfold sorted. induction l as [|x l IH]; intros m Sl Sm P; [now apply Permutation_nil in P|]. destruct m as [|y m]; [apply Permutation_sym, Permutation_nil in P; discriminate|].
  apply StronglySorted_inv in Sl as (Sl & Fl). apply StronglySorted_inv in Sm as (Sm & Fm). rewrite Forall_forall in Fl, Fm.
  assert (x = y). { assert (I1 : In x (y :: m)) by (apply (Permutation_in x P); now left). assert (I2 : In y (x :: l)) by (apply (Permutation_in y (Permutation_sym P)); now left). destruct I1 as [|I1]; auto. destruct I2 as [|I2]; auto. specialize (Fl y I2). specialize (Fm x I1). rewrite Z.leb_le in *. lia. }
  subst y. f_equal. apply IH; auto. now apply Permutation_cons_inv in P.
Qed.
Lemma sorted_head x s : sorted (x :: s) -> forall y, In y s -> x <= y.
Proof. intros H y I. apply StronglySorted_inv in H as (_ & F). rewrite Forall_forall in F. now apply Z.leb_le, F. Qed.
Lemma sorted_snoc l : forall x, sorted (l ++ [x]) -> sorted l /\ forall y, In y l -> y <= x.
Proof.
  unfold sorted. induction l as [|z l IH]; intros x H; [split; [constructor|intros y []]|]. cbn [app] in H. apply StronglySorted_inv in H as (S & F). destruct (IH x S) as (A & B). rewrite Forall_forall in F. split.
  - constructor; auto. apply Forall_forall. intros y I. apply F, in_app_iff. auto.
  - intros y [->|I]; auto. apply Z.leb_le, F, in_app_iff. right. now left.
Qed.
(* the least element of a multiset comes first, the greatest last *)
Lemma take_min s x r : sorted s -> Permutation s (x :: r) -> (forall y, In y r -> x <= y) -> exists t, s = x :: t /\ Permutation t r /\ sorted t.
Proof.
  intros S P M. destruct s as [|y t]; [apply Permutation_nil in P; discriminate|]. assert (y = x). { assert (I1 : In y (x :: r)) by (apply (Permutation_in y P); now left). destruct I1 as [|I1]; auto. specialize (M y I1). assert (I2 : In x (y :: t)) by (apply (Permutation_in x (Permutation_sym P)); now left). destruct I2 as [|I2]; auto. pose proof (sorted_head y t S x I2). lia. }
  subst y. exists t. split; auto. split; [now apply Permutation_cons_inv in P|]. now apply StronglySorted_inv in S.
Qed.
Lemma take_max s x r : sorted s -> Permutation s (x :: r) -> (forall y, In y r -> y <= x) -> exists t, s = t ++ [x] /\ Permutation t r /\ sorted t.
Proof.
  intros S P M. destruct s as [|z s'] using rev_ind; [apply Permutation_nil in P; discriminate|]. clear IHs'. rename s' into t. destruct (sorted_snoc t z S) as (St & Mt).
  assert (z = x). { assert (I1 : In z (x :: r)) by (apply (Permutation_in z P), in_app_iff; right; now left). destruct I1 as [|I1]; auto. specialize (M z I1). assert (I2 : In x (t ++ [z])) by (apply (Permutation_in x (Permutation_sym P)); now left). apply in_app_iff in I2 as [I2|[I2|[]]]; auto. specialize (Mt x I2). lia. }
  subst z. exists t. split; auto. split; auto. apply (Permutation_cons_inv (a := x)). rewrite <- P. apply Permutation_cons_append.
Qed.

Section Proof.
  Variable a : std.
  Hypothesis Ha : std_ok a.
  Lemma ord1 : order less. Proof. now left. Qed.
  Lemma ord2 : order rev_less. Proof. now right. Qed.
  Hint Resolve ord1 ord2 : core.
  Definition inv (q : dq) (s : list Z) : Prop :=
    sorted s /\ Permutation (d_min q ++ d_max q) s /\ heap less (d_max q) /\ heap rev_less (d_min q) /\
    (d_min q <> [] -> exists p, d_pivot q = Some p /\ In p (d_min q) /\ (forall x, In x (d_min q) -> x <= p) /\ (forall x, In x (d_max q) -> p <= x)).
  Lemma inv_size q s : inv q s -> dq_size q = zlen s.
  Proof. intros (_ & P & _). unfold dq_size, zlen. apply Permutation_length in P. rewrite app_length in P. lia. Qed.
  Lemma push_ok v q s : inv q s -> exists q', dq_push a v q = Ok q' /\ inv q' (isort Z.leb (v :: s)).
  Proof.
    intros (Ss & P & H1 & H2 & Pv). unfold dq_push. destruct (d_min q) as [|m0 mn] eqn:Em.
    - cbn [bind]. eexists. split; [reflexivity|]. destruct (push_heap_ok a Ha less (d_max q) v ord1 H1) as (A & B). split; [apply sort_sorted|]. cbn [d_min d_max d_pivot]. split; [|split; [auto|split; [auto|congruence]]].
      rewrite isort_perm. cbn [app] in *. rewrite B, <- P. apply Permutation_sym, Permutation_cons_append.
    - destruct (Pv ltac:(discriminate)) as (p & Ep & Ip & Le & Ge). unfold piv. rewrite Ep. cbn [bind]. unfold less at 1. destruct (p <? v) eqn:C.
      + apply Z.ltb_lt in C. eexists. split; [reflexivity|]. destruct (push_heap_ok a Ha less (d_max q) v ord1 H1) as (A & B). split; [apply sort_sorted|]. cbn [d_min d_max d_pivot]. split; [|split; [auto|split; [auto|]]].
        * rewrite isort_perm, B, <- P, app_assoc. apply Permutation_sym, Permutation_cons_append.
        * intros _. exists p. split; auto. split; auto. split; auto. intros x I. apply (Permutation_in x B), in_app_iff in I as [I|[<-|[]]]; auto. lia.
      + apply Z.ltb_ge in C. eexists. split; [reflexivity|]. destruct (push_heap_ok a Ha rev_less (m0 :: mn) v ord2 H2) as (A & B). split; [apply sort_sorted|]. cbn [d_min d_max d_pivot]. split; [|split; [auto|split; [auto|]]].
        * rewrite isort_perm, B, <- P, <- app_assoc. apply Permutation_sym, Permutation_middle.
        * intros _. exists p. split; auto. split; [apply (Permutation_in p (Permutation_sym B)), in_app_iff; auto|]. split; auto. intros x I. apply (Permutation_in x B), in_app_iff in I as [I|[<-|[]]]; auto.
  Qed.
  Lemma inv_nil q : inv q [] -> dq_size q = 0.
  Proof. intros H. now rewrite (inv_size q [] H). Qed.
  Lemma size_pos q s : inv q s -> s <> [] -> (dq_size q =? 0) = false.
  Proof. intros H N. rewrite (inv_size q s H). apply Z.eqb_neq. destruct s; [congruence|]. rewrite zlen_cons. pose proof (zlen_nonneg s). lia. Qed.
  Lemma cut_ok (l : list Z) k : 0 < k < zlen l -> exists p f g, vget (nth_element a less (k - 1) l) (k - 1) = Ok p /\ firstn (Z.to_nat k) (nth_element a less (k - 1) l) = f /\ skipn (Z.to_nat k) (nth_element a less (k - 1) l) = g /\
     Permutation (f ++ g) l /\ f <> [] /\ g <> [] /\ In p f /\ (forall x, In x f -> x <= p) /\ (forall x, In x g -> p <= x).
  Proof.
    intros Hk. destruct (nth_element_ok a Ha less (k - 1) l ord1 ltac:(lia)) as (P & M). set (t := nth_element a less (k - 1) l) in *. assert (Lt : zlen t = zlen l) by (unfold zlen; now rewrite (Permutation_length P)).
    destruct (vget_Ok t (k - 1) ltac:(lia)) as (p & Ep). set (f := firstn (Z.to_nat k) t). set (g := skipn (Z.to_nat k) t). assert (Et : t = f ++ g) by (symmetry; apply firstn_skipn).
    assert (Lf : zlen f = k) by (unfold zlen, f; rewrite firstn_length; unfold zlen in *; lia). assert (Lg : zlen g = zlen l - k) by (rewrite <- Lt, Et, zlen_app; lia).
    exists p, f, g. split; auto. split; auto. split; auto. split; [now rewrite <- Et|]. split; [intros ->; change (zlen (@nil Z)) with 0 in Lf; lia|]. split; [intros X; rewrite X in Lg; change (zlen (@nil Z)) with 0 in Lg; lia|].
    assert (Ef : vget f (k - 1) = Ok p) by (rewrite Et, vget_app1 in Ep by lia; auto). split; [now apply vget_In in Ef|]. split.
    - intros x I. apply In_vget in I as (i & _ & Ei). pose proof (vget_range _ _ _ Ei). specialize (M i (k - 1) x p ltac:(lia)). rewrite Et in M at 1. rewrite vget_app1 in M by lia. specialize (M Ei Ep). unfold less in M. now apply Z.ltb_ge in M.
    - intros x I. apply In_vget in I as (i & _ & Ei). pose proof (vget_range _ _ _ Ei). specialize (M (k - 1) (k + i) p x ltac:(lia) Ep). rewrite Et in M. rewrite vget_app2 in M by lia. replace (k + i - zlen f) with i in M by lia. specialize (M Ei). unfold less in M. now apply Z.ltb_ge in M.
  Qed.
  Lemma ensure_min_ok q s : inv q s -> s <> [] -> exists q', ensure_min a q = Ok q' /\ inv q' s /\ d_min q' <> [].
  Proof.
    intros I N. unfold ensure_min. cbv zeta. rewrite (size_pos q s I N). cbn [negb assert_ bind]. pose proof (inv_size q s I) as Sz. destruct (d_min q) as [|m0 mn] eqn:Em; [|exists q; split; auto; split; auto; congruence].
    destruct I as (Ss & P & H1 & H2 & Pv). rewrite Em in *. cbn [app] in P. unfold dq_size in *. rewrite Em in *. change (zlen (@nil Z)) with 0 in *. rewrite Z.add_0_l in *.
    destruct (Z.eqb_spec (zlen (d_max q)) 1) as [E1|E1].
    - destruct (d_max q) as [|x [|y t]] eqn:Ex; [discriminate| |rewrite !zlen_cons in E1; pose proof (zlen_nonneg t); lia]. rewrite vget_cons0. cbn [bind]. eexists. split; [reflexivity|]. split; [|discriminate]. split; auto. cbn [d_min d_max d_pivot app]. split; auto. split; [intros i z w Hi Ez; apply vget_range in Ez; change (zlen (@nil Z)) with 0 in Ez; lia|]. split; [intros i z w Hi Ez; apply vget_range in Ez; rewrite zlen_cons in Ez; change (zlen (@nil Z)) with 0 in Ez; lia|].
      intros _. exists x. split; auto. split; [now left|]. split; [intros z [->|[]]; lia|intros z []].
    - assert (L : 2 <= zlen (d_max q)). { pose proof (zlen_nonneg (d_max q)). destruct s; [congruence|]. rewrite zlen_cons in Sz. pose proof (zlen_nonneg s). lia. }
      assert (Hm : 0 < (zlen (d_max q) + 1) / 2 < zlen (d_max q)) by (split; [apply Z.div_str_pos; lia|apply Z.div_lt_upper_bound; lia]).
      destruct (cut_ok (d_max q) _ Hm) as (p & f & g & Ep & Ef & Eg & Pfg & Nf & Ng & Ip & Le & Ge). rewrite Ep. cbn [bind]. rewrite Ef, Eg. cbn [app].
      destruct (make_heap_ok a Ha less g ord1) as (A & A'). destruct (make_heap_ok a Ha rev_less f ord2) as (B & B').
      eexists. split; [reflexivity|]. cbn [d_min]. split; [|intros X; rewrite X in B'; apply Permutation_nil in B'; congruence]. split; auto. cbn [d_min d_max d_pivot]. split; [rewrite A', B', Pfg; auto|]. split; auto. split; auto. intros _. exists p. split; auto. split; [now apply (Permutation_in p (Permutation_sym B'))|]. split; intros x Ix; [apply Le, (Permutation_in x B'), Ix|apply Ge, (Permutation_in x A'), Ix].
  Qed.
  Lemma ensure_max_ok q s : inv q s -> s <> [] -> exists q', ensure_max a q = Ok q' /\ inv q' s /\ d_max q' <> [].
  Proof.
    intros I N. unfold ensure_max. cbv zeta. rewrite (size_pos q s I N). cbn [negb assert_ bind]. pose proof (inv_size q s I) as Sz. destruct (d_max q) as [|m0 mn] eqn:Em; [|exists q; split; auto; split; auto; congruence].
    destruct I as (Ss & P & H1 & H2 & Pv). rewrite Em in *. rewrite app_nil_r in P. unfold dq_size in *. rewrite Em in *. change (zlen (@nil Z)) with 0 in *. rewrite Z.add_0_r in *.
    destruct (Z.eqb_spec (zlen (d_min q)) 1) as [E1|E1].
    - destruct (d_min q) as [|x [|y t]] eqn:Ex; [discriminate| |rewrite !zlen_cons in E1; pose proof (zlen_nonneg t); lia]. eexists. split; [reflexivity|]. split; [|discriminate]. split; auto. cbn [d_min d_max d_pivot app]. split; auto. split; [intros i z w Hi Ez; apply vget_range in Ez; rewrite zlen_cons in Ez; change (zlen (@nil Z)) with 0 in Ez; lia|]. split; [intros i z w Hi Ez; apply vget_range in Ez; change (zlen (@nil Z)) with 0 in Ez; lia|]. congruence.
    - assert (L : 2 <= zlen (d_min q)). { pose proof (zlen_nonneg (d_min q)). destruct s; [congruence|]. rewrite zlen_cons in Sz. pose proof (zlen_nonneg s). lia. }
      assert (Hm : 0 < zlen (d_min q) / 2 < zlen (d_min q)) by (split; [apply Z.div_str_pos; lia|apply Z.div_lt_upper_bound; lia]).
      destruct (cut_ok (d_min q) _ Hm) as (p & f & g & Ep & Ef & Eg & Pfg & Nf & Ng & Ip & Le & Ge). rewrite Ep. cbn [bind]. rewrite Ef, Eg. cbn [app].
      destruct (make_heap_ok a Ha less g ord1) as (A & A'). destruct (make_heap_ok a Ha rev_less f ord2) as (B & B').
      eexists. split; [reflexivity|]. cbn [d_max]. split; [|intros X; rewrite X in A'; apply Permutation_nil in A'; congruence]. split; auto. cbn [d_min d_max d_pivot]. split; [rewrite A', B', Pfg; auto|]. split; auto. split; auto. intros _. exists p. split; auto. split; [now apply (Permutation_in p (Permutation_sym B'))|]. split; intros x Ix; [apply Le, (Permutation_in x B'), Ix|apply Ge, (Permutation_in x A'), Ix].
  Qed.
  Lemma min_front q s : inv q s -> d_min q <> [] -> exists x l t, d_min q = x :: l /\ s = x :: t /\ Permutation t (l ++ d_max q) /\ sorted t.
  Proof.
    intros (Ss & P & H1 & H2 & Pv) N. destruct (Pv N) as (p & _ & Ip & Le & Ge). destruct (d_min q) as [|x l]; [congruence|]. clear N.
    assert (M : forall y, In y (x :: l) -> x <= y) by (intros y I; pose proof (heap_front rev_less l x y (or_intror eq_refl) H2 I) as F; unfold rev_less, less in F; now apply Z.ltb_ge in F).
    destruct (take_min s x (l ++ d_max q) Ss (Permutation_sym P)) as (t & E & Pt & St); [|exists x, l, t; auto]. intros y I. apply in_app_iff in I as [I|I]; [apply M; now right|]. specialize (Ge y I). specialize (M p Ip). lia.
  Qed.
  Lemma max_front q s : inv q s -> d_max q <> [] -> exists x l t, d_max q = x :: l /\ s = t ++ [x] /\ Permutation t (d_min q ++ l) /\ sorted t.
  Proof.
    intros (Ss & P & H1 & H2 & Pv) N. destruct (d_max q) as [|x l]; [congruence|]. clear N.
    assert (M : forall y, In y (x :: l) -> y <= x) by (intros y I; pose proof (heap_front less l x y (or_introl eq_refl) H1 I) as F; unfold less in F; now apply Z.ltb_ge in F).
    destruct (take_max s x (d_min q ++ l) Ss) as (t & E & Pt & St); [rewrite <- P; apply Permutation_sym, Permutation_middle| |exists x, l, t; auto]. intros y I. apply in_app_iff in I as [I|I]; [|apply M; now right]. assert (Nm : d_min q <> []) by (intros X; rewrite X in I; destruct I). destruct (Pv Nm) as (p & _ & _ & Le & Ge). specialize (Le y I). specialize (Ge x (or_introl eq_refl)). lia.
  Qed.
  Lemma pop_back_snoc l x : pop_back (l ++ [x]) = Ok (l, x).
  Proof. unfold pop_back. rewrite rev_app_distr. cbn [rev app]. now rewrite rev_involutive. Qed.
  Lemma step_ok o q s : inv q s -> match spec_step o s with Ok (s', y) => exists q', dq_step a o q = Ok (q', y) /\ inv q' s' | UB => dq_step a o q = UB | Abort => dq_step a o q = Abort | OutOfFuel => dq_step a o q = OutOfFuel end.
  Proof.
    intros I. assert (Nl : s = [] -> (dq_size q =? 0) = true) by (intros ->; now rewrite (inv_nil q I)). destruct o; cbn [spec_step dq_step].
    - destruct (push_ok v q s I) as (q' & E & I'). rewrite E. cbn [bind]. eauto.
    - destruct s as [|x t]; [unfold dq_bot, ensure_min; cbv zeta; now rewrite Nl|]. destruct (ensure_min_ok q (x :: t) I ltac:(discriminate)) as (q1 & E & I1 & N). unfold dq_bot. rewrite E. cbn [bind]. destruct (min_front q1 _ I1 N) as (y & l & t' & Ed & Es & _). injection Es as <- <-. rewrite Ed, vget_cons0. cbn [bind fst snd]. eauto.
    - destruct s as [|x t]; [unfold dq_top; now rewrite Nl|]. unfold dq_top. rewrite (size_pos q _ I) by discriminate. cbn [negb assert_ bind]. destruct (d_max q) as [|z mx] eqn:Em.
      + destruct I as (Ss & P & H1 & H2 & Pv). rewrite Em, app_nil_r in P. destruct (Pv) as (p & Ep & Ip & Le & _); [intros X; rewrite X in P; apply Permutation_nil in P; discriminate|]. unfold piv. rewrite Ep. cbn [bind]. exists q. split; [|split; auto; split; [rewrite Em, app_nil_r|]; auto].
        apply in_split in Ip as (l1 & l2 & Ed). destruct (take_max (x :: t) p (l1 ++ l2) Ss) as (t' & E & _); [rewrite <- P, Ed; apply Permutation_sym, Permutation_middle|intros y Iy; apply Le; rewrite Ed; apply in_app_iff; apply in_app_iff in Iy as [|]; [auto|right; now right]|]. rewrite E, last_last. reflexivity.
      + destruct (max_front q _ I) as (y & l & t' & Ed & Es & _); [congruence|]. rewrite Em in Ed. injection Ed as -> ->. cbn [bind]. exists q. split; auto. rewrite Es, last_last. reflexivity.
    - destruct s as [|x t]; [unfold dq_pop_min, ensure_min; cbv zeta; now rewrite Nl|]. destruct (ensure_min_ok q (x :: t) I ltac:(discriminate)) as (q1 & E & I1 & N). unfold dq_pop_min. rewrite E. cbn [bind]. destruct (min_front q1 _ I1 N) as (y & l & t' & Ed & Es & Pt & St). injection Es as <- <-. destruct I1 as (Ss & P & H1 & H2 & Pv). rewrite Ed in *.
      destruct (pop_heap_ok a Ha rev_less l x ord2 H2) as (l' & El & Hl & Pl). rewrite El, pop_back_snoc. cbn [bind fst snd]. eexists. split; [reflexivity|]. split; auto. cbn [d_min d_max d_pivot]. split; [rewrite Pl; now apply Permutation_sym|]. split; auto. split; auto. intros Nl'. destruct (Pv ltac:(discriminate)) as (p & Ep & Ip & Le & Ge). exists p. split; auto. split; [|split; auto; intros z Iz; apply Le; right; now apply (Permutation_in z Pl)].
      destruct Ip as [<-|Ip]; [|now apply (Permutation_in p (Permutation_sym Pl))]. destruct l' as [|z l']; [congruence|]. assert (Iz : In z l) by (apply (Permutation_in z Pl); now left). pose proof (Le z (or_intror Iz)). pose proof (heap_front rev_less l x z (or_intror eq_refl) H2 (or_intror Iz)) as F. unfold rev_less, less in F. apply Z.ltb_ge in F. left. lia.
    - destruct s as [|x t]; [unfold dq_pop_max, ensure_max; cbv zeta; now rewrite Nl|]. destruct (ensure_max_ok q (x :: t) I ltac:(discriminate)) as (q1 & E & I1 & N). unfold dq_pop_max. rewrite E. cbn [bind]. destruct (max_front q1 _ I1 N) as (y & l & t' & Ed & Es & Pt & St). rewrite Es. destruct I1 as (Ss & P & H1 & H2 & Pv). rewrite Ed in *.
      destruct (pop_heap_ok a Ha less l y ord1 H1) as (l' & El & Hl & Pl). rewrite El, pop_back_snoc. cbn [bind fst snd]. rewrite last_last, removelast_last. destruct (t' ++ [y]) as [|w ws] eqn:Ew; [destruct t'; discriminate|]. eexists. split; [reflexivity|]. split; auto. cbn [d_min d_max d_pivot]. split; [rewrite Pl; now apply Permutation_sym|]. split; auto. split; auto. intros Nm. destruct (Pv Nm) as (p & Ep & Ip & Le & Ge). exists p. split; auto. split; auto. split; auto. intros z Iz. apply Ge. right. now apply (Permutation_in z Pl).
    - exists q. rewrite (inv_size q s I). auto.
    - exists q. split; auto. destruct s; [now rewrite Nl|]. now rewrite (size_pos q _ I).
    - exists q. split; auto. do 3 f_equal. destruct I as (Ss & P & H1 & H2 & Pv). apply sorted_unique; auto.
      + destruct (sort_ok a Ha less (d_min q) ord1) as (P1 & S1). destruct (sort_ok a Ha less (d_max q) ord1) as (P2 & S2). unfold dq_dump. apply StronglySorted_app'; [eapply StronglySorted_impl; [|exact S1]|eapply StronglySorted_impl; [|exact S2]|]; try (intros x y X; unfold less in X; apply Z.ltb_ge in X; now apply Z.leb_le).
        intros x y Ix Iy. apply (Permutation_in x P1) in Ix. apply (Permutation_in y P2) in Iy. destruct Pv as (p & _ & _ & Le & Ge); [intros X; rewrite X in Ix; destruct Ix|]. specialize (Le x Ix). specialize (Ge y Iy). apply Z.leb_le. lia.
      + unfold dq_dump. destruct (sort_ok a Ha less (d_min q) ord1) as (P1 & _). destruct (sort_ok a Ha less (d_max q) ord1) as (P2 & _). now rewrite P1, P2.
  Qed.
  Theorem history_ok ops : forall q s, inv q s -> history (dq_step a) ops q = history spec_step ops s.
  Proof.
    induction ops as [|o ops IH]; intros q s I; [reflexivity|]. cbn [history]. pose proof (step_ok o q s I) as H. destruct (spec_step o s) as [(s' & y)| | |]; [|now rewrite H ..]. destruct H as (q' & E & I'). rewrite E. cbn [bind fst snd]. now rewrite (IH q' s' I').
  Qed.
  Lemma new_inv l : inv (dq_new a l) (isort Z.leb l).
  Proof.
    destruct (make_heap_ok a Ha less l ord1) as (A & B). split; [apply sort_sorted|]. cbn [dq_new d_min d_max d_pivot app]. split; [rewrite B; symmetry; apply isort_perm|]. split; auto. split; [|congruence]. intros i z w Hi Ez. apply vget_range in Ez. change (zlen (@nil Z)) with 0 in Ez. lia.
  Qed.
End Proof.
