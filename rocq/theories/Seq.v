(* Ordered products of consecutive elements. *)
From Verif Require Import Base BaseLemmas.

(* the elements l, l+1, ..., r-1 of a vector *)
Definition slice {A} (l r : Z) (a : list A) : list A :=
  firstn (Z.to_nat (r - l)) (skipn (Z.to_nat l) a).

Record is_monoid {T} (op : T -> T -> T) (e : T) : Prop := {
  mon_assoc : forall a b c, op a (op b c) = op (op a b) c;
  mon_l : forall a, op e a = a;
  mon_r : forall a, op a e = a
}.

Section Prod.
  Context {T : Type}.
  Variables (op : T -> T -> T) (e : T).

  Fixpoint prodn (a : Z -> T) (l : Z) (k : nat) : T :=
    match k with O => e | S k => op (a l) (prodn a (l + 1) k) end.
  (* a l * a (l+1) * ... * a (r-1) *)
  Definition prod_ (a : Z -> T) (l r : Z) : T := prodn a l (Z.to_nat (r - l)).

  Lemma prodn_ext a b l k : (forall i, l <= i < l + Z.of_nat k -> a i = b i) -> prodn a l k = prodn b l k.
  Proof.
    revert l; induction k as [|k IH]; intros l H; auto; cbn [prodn].
    rewrite H by lia. rewrite IH; auto. intros; apply H; lia.
  Qed.
  Lemma prod_ext a b l r : (forall i, l <= i < r -> a i = b i) -> prod_ a l r = prod_ b l r.
  Proof. intro H. apply prodn_ext. intros; apply H; lia. Qed.
  Lemma prod_nil a l r : r <= l -> prod_ a l r = e.
  Proof. intro H. unfold prod_. now replace (Z.to_nat (r - l)) with O by lia. Qed.
  Lemma prod_cons a l r : l < r -> prod_ a l r = op (a l) (prod_ a (l + 1) r).
  Proof.
    intro H. unfold prod_. replace (Z.to_nat (r - l)) with (S (Z.to_nat (r - (l + 1)))) by lia. reflexivity.
  Qed.
  Hypothesis M : is_monoid op e.
  Lemma prodn_app a l j k : prodn a l (j + k) = op (prodn a l j) (prodn a (l + Z.of_nat j) k).
  Proof.
    revert l; induction j as [|j IH]; intro l.
    - cbn [plus prodn]. rewrite Z.add_0_r. now rewrite (mon_l _ _ M).
    - cbn [plus prodn]. rewrite IH, (mon_assoc _ _ M). do 2 f_equal. lia.
  Qed.
  Lemma prod_split a l m r : l <= m <= r -> prod_ a l r = op (prod_ a l m) (prod_ a m r).
  Proof.
    intro H. unfold prod_. replace (Z.to_nat (r - l)) with (Z.to_nat (m - l) + Z.to_nat (r - m))%nat by lia.
    rewrite prodn_app. do 2 f_equal. lia.
  Qed.
  Lemma prod_one a l : prod_ a l (l + 1) = a l.
  Proof. rewrite prod_cons by lia. rewrite prod_nil by lia. apply M. Qed.
  Lemma prod_snoc a l r : l < r -> prod_ a l r = op (prod_ a l (r - 1)) (a (r - 1)).
  Proof.
    intro H. rewrite (prod_split a l (r - 1) r) by lia. f_equal.
    replace r with (r - 1 + 1) at 2 by lia. apply prod_one.
  Qed.
  Lemma prodn_double g h a k : (forall i, a <= i < a + Z.of_nat k -> g i = op (h (2 * i)) (h (2 * i + 1))) ->
    prodn g a k = prodn h (2 * a) (2 * k).
  Proof.
    revert a; induction k as [|k IH]; intros a H; auto.
    replace (2 * S k)%nat with (S (S (2 * k))) by lia. cbn [prodn].
    rewrite IH by (intros; apply H; lia). rewrite H by lia. rewrite <- (mon_assoc _ _ M).
    replace (2 * (a + 1)) with (2 * a + 1 + 1) by lia. reflexivity.
  Qed.
  Lemma prod_double g h a b : (forall i, a <= i < b -> g i = op (h (2 * i)) (h (2 * i + 1))) ->
    prod_ g a b = prod_ h (2 * a) (2 * b).
  Proof.
    intros H. unfold prod_. rewrite (prodn_double g h).
    - f_equal. lia.
    - intros; apply H; lia.
  Qed.
  Lemma prod_e a l r : (forall i, l <= i < r -> a i = e) -> prod_ a l r = e.
  Proof.
    intro H. rewrite (prod_ext a (fun _ => e)) by auto. unfold prod_. generalize (Z.to_nat (r - l)) as k. clear - M.
    intro k; revert l; induction k as [|k IH]; intro l; auto. cbn [prodn]. rewrite IH. apply M.
  Qed.

  (* with slices *)
  Lemma prod_slice d (v : list T) l r : 0 <= l -> r <= zlen v ->
    prod_ (fun i => nth (Z.to_nat i) v d) l r = fold_right op e (slice l r v).
  Proof.
    intros Hl Hr. unfold prod_, slice.
    assert (G : forall k l, 0 <= l -> l + Z.of_nat k <= zlen v ->
      prodn (fun i => nth (Z.to_nat i) v d) l k = fold_right op e (firstn k (skipn (Z.to_nat l) v))).
    { induction k as [|k IH]; intros l0 H0 H1; auto.
      cbn [prodn]. rewrite IH by lia.
      assert (L : (Z.to_nat l0 < length v)%nat) by (unfold zlen in *; lia).
      replace (Z.to_nat (l0 + 1)) with (S (Z.to_nat l0)) by lia.
      clear - L. revert L. generalize (Z.to_nat l0) as j. intro j. revert j.
      induction v as [|x v IHv]; intros j L; [simpl in L; lia|].
      destruct j as [|j]; auto. simpl in L. specialize (IHv j ltac:(lia)). simpl in *. auto. }
    destruct (Z.le_gt_cases l r).
    - apply G; lia.
    - replace (Z.to_nat (r - l)) with O by lia. reflexivity.
  Qed.
End Prod.

Section Comm.
  Context {T : Type}.
  Variables (op : T -> T -> T) (e : T).
  Hypothesis M : is_monoid op e.
  Hypothesis C : forall a b, op a b = op b a.
  Lemma prodn_mul a b l k : prodn op e (fun i => op (a i) (b i)) l k = op (prodn op e a l k) (prodn op e b l k).
  Proof.
    revert l; induction k as [|k IH]; intro l; cbn [prodn].
    - symmetry; apply M.
    - rewrite IH. rewrite <- !(mon_assoc _ _ M). f_equal. rewrite !(mon_assoc _ _ M). f_equal. apply C.
  Qed.
  Lemma prod_mul a b l r : prod_ op e (fun i => op (a i) (b i)) l r = op (prod_ op e a l r) (prod_ op e b l r).
  Proof. apply prodn_mul. Qed.
  (* adding v at one place *)
  Lemma prod_add_at a l r p v : l <= p < r ->
    prod_ op e (fun i => if i =? p then op (a i) v else a i) l r = op (prod_ op e a l r) v.
  Proof.
    intro H. rewrite (prod_split op e M _ l p r) by lia. rewrite (prod_split op e M a l p r) by lia.
    rewrite (prod_cons op e _ p r) by lia. rewrite (prod_cons op e a p r) by lia. rewrite Z.eqb_refl.
    rewrite (prod_ext op e _ a l p) by (intros; destruct (i =? p) eqn:?; [lia|auto]).
    rewrite (prod_ext op e (fun i => if i =? p then op (a i) v else a i) a (p + 1) r) by (intros; destruct (i =? p) eqn:?; [lia|auto]).
    rewrite <- !(mon_assoc _ _ M). f_equal. f_equal. apply C.
  Qed.
  Lemma prod_add_out a l r p v : ~ l <= p < r ->
    prod_ op e (fun i => if i =? p then op (a i) v else a i) l r = prod_ op e a l r.
  Proof. intro H. apply prod_ext. intros i Hi. destruct (i =? p) eqn:?; auto; lia. Qed.
End Comm.

(* vectors as functions *)
Definition rep {A} (v : list A) (n : Z) (g : Z -> A) : Prop :=
  zlen v = n /\ forall i, 0 <= i < n -> vget v i = Ok (g i).
Definition fupd {A} (g : Z -> A) (k : Z) (x : A) : Z -> A := fun i => if i =? k then x else g i.

Lemma rep_get {A} (v : list A) n g i : rep v n g -> 0 <= i < n -> vget v i = Ok (g i).
Proof. intros [L H]; auto. Qed.
Lemma rep_set {A} (v : list A) n g i x : rep v n g -> 0 <= i < n -> vset v i x = Ok (zupd v i x).
Proof. intros [L H] Hi. apply vset_ok. lia. Qed.
Lemma rep_upd {A} (v : list A) n g i x : rep v n g -> 0 <= i < n -> rep (zupd v i x) n (fupd g i x).
Proof.
  intros [L H] Hi. split; [now rewrite zlen_zupd|]. intros j Hj. rewrite vget_zupd by lia. unfold fupd.
  rewrite (Z.eqb_sym j i). destruct (i =? j); auto.
Qed.
Lemma rep_ext {A} (v : list A) n g h : rep v n g -> (forall i, 0 <= i < n -> g i = h i) -> rep v n h.
Proof. intros [L H] E. split; auto. intros i Hi. rewrite <- E; auto. Qed.
Lemma rep_vrep {A} n (x : A) : 0 <= n -> rep (vrep n x) n (fun _ => x).
Proof. intro H. split; [now apply zlen_vrep|]. intros; now apply vget_vrep. Qed.
Lemma rep_nth {A} (v : list A) d : rep v (zlen v) (fun i => nth (Z.to_nat i) v d).
Proof. split; auto. intros i Hi. now apply vget_nth. Qed.
Lemma rep_uniq {A} (v : list A) n g h i : rep v n g -> rep v n h -> 0 <= i < n -> g i = h i.
Proof. intros [_ H] [_ H'] Hi. specialize (H i Hi). specialize (H' i Hi). congruence. Qed.
Lemma fupd_same {A} (g : Z -> A) k x : fupd g k x k = x.
Proof. unfold fupd. now rewrite Z.eqb_refl. Qed.
Lemma fupd_diff {A} (g : Z -> A) k x i : i <> k -> fupd g k x i = g i.
Proof. intro H. unfold fupd. destruct (i =? k) eqn:E; auto; lia. Qed.

Lemma prod_rep {T} (op : T -> T -> T) e (v : list T) n g l r : rep v n g -> 0 <= l -> r <= n ->
  fold_right op e (slice l r v) = prod_ op e g l r.
Proof.
  intros R Hl Hr. destruct R as [L R]. 
  destruct (Z.le_gt_cases r l) as [E|E].
  { unfold slice. replace (Z.to_nat (r - l)) with O by lia. now rewrite prod_nil. }
  rewrite <- (prod_slice op e (g 0) v) by lia. apply prod_ext. intros i Hi.
  specialize (R i ltac:(lia)). rewrite (vget_nth (g 0)) in R by lia. congruence.
Qed.
