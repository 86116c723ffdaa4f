From Verif Require Import Base BaseLemmas ListZ ListMore MatrixF2_model MatrixF2_spec.

Lemma xorb_ac a b c : xorb a (xorb b c) = xorb b (xorb a c).
Proof. now destruct a, b, c. Qed.
Lemma map2_plus x y : map2 xorb x y = plus x y.
Proof. unfold plus. revert y. induction x; intros [|b y]; cbn; f_equal; auto. Qed.
Lemma map2_len f x y : zlen x = zlen y -> zlen (map2 f x y) = zlen x.
Proof. unfold zlen. revert y. induction x; intros [|b y] H; cbn in *; try lia; specialize (IHx y); lia. Qed.
Lemma plus_len x y : zlen x = zlen y -> zlen (plus x y) = zlen x.
Proof. intros. rewrite <- map2_plus. now apply map2_len. Qed.

Lemma inner_nil_l x : inner [] x = false. Proof. reflexivity. Qed.
Lemma inner_cons a r b x : inner (a :: r) (b :: x) = xorb (a && b) (inner r x). Proof. reflexivity. Qed.
Lemma inner_plus_l r s x : zlen r = zlen s -> inner (plus r s) x = xorb (inner r x) (inner s x).
Proof.
  unfold zlen. revert s x. induction r; intros [|b s] [|c x] H; try (cbn in *; (lia || reflexivity)).
  change (plus (a :: r) (b :: s)) with (xorb a b :: plus r s). rewrite !inner_cons, IHr by (cbn in H; lia).
  destruct a, b, c, (inner r x), (inner s x); reflexivity.
Qed.
Lemma inner_comm r x : inner r x = inner x r.
Proof. revert x. induction r; intros [|b x]; auto. rewrite !inner_cons, IHr, andb_comm. reflexivity. Qed.
Lemma inner_plus_r r x y : zlen x = zlen y -> inner r (plus x y) = xorb (inner r x) (inner r y).
Proof. intros. rewrite inner_comm, inner_plus_l by auto. f_equal; apply inner_comm. Qed.
Lemma inner_app r s x y : zlen r = zlen x -> inner (r ++ s) (x ++ y) = xorb (inner r x) (inner s y).
Proof.
  unfold zlen. revert x. induction r; intros [|b x] H; cbn [app]; try (cbn in H; lia).
  - now rewrite inner_nil_l, xorb_false_l.
  - rewrite !inner_cons, IHr by (cbn in H; lia). now rewrite xorb_assoc.
Qed.
Lemma zeros_len n : 0 <= n -> zlen (zeros n) = n. Proof. apply zlen_vrep. Qed.
Lemma inner_repeat r k : inner r (repeat false k) = false.
Proof. revert k. induction r; intros [|k]; auto. cbn [repeat]. rewrite inner_cons, IHr, andb_false_r. reflexivity. Qed.
Lemma inner_zeros r n : inner r (zeros n) = false. Proof. apply inner_repeat. Qed.
Lemma inner_zeros_l n r : inner (zeros n) r = false. Proof. rewrite inner_comm. apply inner_zeros. Qed.

(* bit access with a default *)
Definition bit (r : list bool) (j : Z) : bool := nth (Z.to_nat j) r false.
Lemma vget_bit r j : 0 <= j < zlen r -> vget r j = Ok (bit r j).
Proof. intros. now apply vget_nth. Qed.
Lemma bit_vget r j b : vget r j = Ok b -> bit r j = b.
Proof. intros H. pose proof (vget_range _ _ _ H). rewrite vget_bit in H by auto. congruence. Qed.
Lemma bit_plus x y j : zlen x = zlen y -> 0 <= j -> bit (plus x y) j = xorb (bit x j) (bit y j).
Proof.
  intros H Hj. unfold bit. rewrite <- (Z2Nat.id j Hj) in *. rewrite !Nat2Z.id. generalize (Z.to_nat j) as k. clear j Hj.
  unfold zlen in H. revert y H. induction x; intros [|b y] H k; try (cbn in H; lia); [now destruct k|].
  destruct k; cbn; auto. apply IHx. cbn in H. lia.
Qed.
Lemma bit_zeros n j : bit (zeros n) j = false.
Proof. unfold bit, zeros, vrep. generalize (Z.to_nat j), (Z.to_nat n). intros a b. revert a. induction b; intros [|a]; cbn; auto. Qed.
Lemma bits_eq x y : zlen x = zlen y -> (forall j, 0 <= j < zlen x -> bit x j = bit y j) -> x = y.
Proof. intros H E. apply list_eq; auto. intros i Hi. rewrite !vget_bit by lia. now rewrite E. Qed.
Lemma bit_app1 x y j : 0 <= j < zlen x -> bit (x ++ y) j = bit x j.
Proof. intros. apply bit_vget. rewrite vget_app1 by lia. now apply vget_bit. Qed.
Lemma bit_app2 x y j : zlen x <= j < zlen x + zlen y -> bit (x ++ y) j = bit y (j - zlen x).
Proof. intros. apply bit_vget. rewrite vget_app2 by lia. apply vget_bit. lia. Qed.
Lemma bit_zupd x i b j : 0 <= i < zlen x -> 0 <= j < zlen x -> bit (zupd x i b) j = if i =? j then b else bit x j.
Proof.
  intros. apply bit_vget. rewrite vget_zupd by auto. destruct (i =? j); auto. now apply vget_bit.
Qed.

(* the unit vector *)
Definition unit (n p : Z) : list bool := zupd (zeros n) p true.
Lemma unit_len n p : 0 <= n -> zlen (unit n p) = n.
Proof. intros. unfold unit. rewrite zlen_zupd. now apply zeros_len. Qed.
Lemma bit_unit n p j : 0 <= p < n -> 0 <= j < n -> bit (unit n p) j = (p =? j).
Proof. intros. unfold unit. rewrite bit_zupd by (rewrite zeros_len; lia). rewrite bit_zeros. now destruct (p =? j). Qed.
Lemma inner_upd_repeat r k p : inner r (upd (repeat false k) p true) = if (p <? k)%nat then nth p r false else false.
Proof.
  revert r p. induction k; intros r p.
  - rewrite inner_comm. destruct p; reflexivity.
  - destruct r as [|a r]; [destruct p, (_ <? _)%nat; reflexivity|]. cbn [repeat]. destruct p; cbn [upd].
    + rewrite inner_cons, inner_repeat, andb_true_r, xorb_false_r. reflexivity.
    + rewrite inner_cons, IHk, andb_false_r, xorb_false_l. change (S p <? S k)%nat with (p <? k)%nat. reflexivity.
Qed.
Lemma inner_unit r n p : 0 <= p < n -> inner r (unit n p) = bit r p.
Proof.
  intros. unfold unit, zupd, zeros, vrep, bit. rewrite inner_upd_repeat.
  destruct (Nat.ltb_spec (Z.to_nat p) (Z.to_nat n)); auto. lia.
Qed.

(* flipping a coordinate *)
Definition flip (p : Z) (x : list bool) : list bool := plus (unit (zlen x) p) x.
Lemma flip_len p x : zlen (flip p x) = zlen x.
Proof. unfold flip. pose proof (zlen_nonneg x). rewrite plus_len; rewrite unit_len; auto. Qed.
Lemma inner_flip r p x : 0 <= p < zlen x -> inner r (flip p x) = xorb (bit r p) (inner r x).
Proof. intros. unfold flip. rewrite inner_plus_r by (rewrite unit_len; lia). now rewrite inner_unit. Qed.
Lemma plus_assoc x y z : zlen x = zlen y -> zlen y = zlen z -> plus x (plus y z) = plus (plus x y) z.
Proof.
  intros. apply bits_eq; [rewrite !plus_len; auto; rewrite ?plus_len; lia|]. intros j Hj.
  rewrite plus_len in Hj by (rewrite plus_len; lia).
  rewrite !bit_plus by (rewrite ?plus_len; lia). now rewrite xorb_assoc.
Qed.
Lemma plus_comm x y : plus x y = plus y x.
Proof. rewrite <- !map2_plus. revert y. induction x; intros [|b y]; cbn; f_equal; auto. apply xorb_comm. Qed.
Lemma plus_self x n : zlen x = n -> plus x x = zeros n.
Proof.
  intros <-. apply bits_eq; [rewrite plus_len by auto; rewrite zeros_len; auto; apply zlen_nonneg|].
  intros j Hj. rewrite plus_len in Hj by auto. rewrite bit_plus, bit_zeros by lia. apply xorb_nilpotent.
Qed.
Lemma plus_zeros x n : zlen x = n -> plus (zeros n) x = x.
Proof.
  intros <-. pose proof (zlen_nonneg x). apply bits_eq; [rewrite plus_len; rewrite zeros_len; auto|].
  intros j Hj. rewrite plus_len in Hj by (rewrite zeros_len; auto). rewrite zeros_len in Hj by auto.
  rewrite bit_plus, bit_zeros by (rewrite ?zeros_len; lia). apply xorb_false_l.
Qed.
Lemma plus_cancel x y : zlen x = zlen y -> plus x (plus x y) = y.
Proof. intros. rewrite plus_assoc by auto. rewrite (plus_self x (zlen y)) by auto. now apply plus_zeros. Qed.
Lemma flip_flip p x : flip p (flip p x) = x.
Proof. unfold flip at 1. rewrite flip_len. unfold flip. pose proof (zlen_nonneg x). apply plus_cancel. now rewrite unit_len. Qed.

(* counting the solutions of a triangular system *)
Fixpoint triangular (m : Z) (l : list (list bool * Z)) : Prop :=
  match l with
  | [] => True
  | (r, p) :: l => 0 <= p < m /\ bit r p = true /\ (forall r' p', In (r', p') l -> bit r' p = false) /\ triangular m l
  end.
Lemma filter_both {A} (f : A -> bool) (l : list A) : (length (filter f l) + length (filter (fun x => negb (f x)) l) = length l)%nat.
Proof. induction l; cbn; auto. destruct (f a); cbn; lia. Qed.
Lemma filter_halves {A} (f : A -> bool) (g : A -> A) (L : list A) : NoDup L ->
  (forall x, In x L -> In (g x) L /\ f (g x) = negb (f x)) -> (forall x, g (g x) = x) ->
  2 * zlen (filter f L) = zlen L.
Proof.
  intros N G I. assert (Inj : FinFun.Injective g) by (intros x y E; rewrite <- (I x), E; apply I).
  assert (E1 : forall h, (forall x, In x L -> h (g x) = negb (h x)) -> (length (filter h L) <= length (filter (fun x => negb (h x)) L))%nat).
  { intros h H. rewrite <- (map_length g (filter h L)). apply NoDup_incl_length.
    - apply FinFun.Injective_map_NoDup; auto. now apply NoDup_filter.
    - intros y Hy. apply in_map_iff in Hy as (x & <- & Hx). apply filter_In in Hx as [Hx Fx]. apply filter_In.
      split; [now apply G|]. rewrite H by auto. now rewrite Fx. }
  assert (Q1 := E1 f (fun x Hx => proj2 (G x Hx))).
  assert (Q2 := E1 (fun x => negb (f x))). cbn beta in Q2.
  rewrite (filter_ext (fun x => negb (negb (f x))) f) in Q2 by (intro; apply negb_involutive).
  specialize (Q2 ltac:(intros x Hx; now rewrite (proj2 (G x Hx)))).
  pose proof (filter_both f L). unfold zlen. lia.
Qed.
Fixpoint all_bits (k : nat) : list (list bool) :=
  match k with O => [[]] | S k => map (cons false) (all_bits k) ++ map (cons true) (all_bits k) end.
Lemma all_bits_spec k : NoDup (all_bits k) /\ (forall x, In x (all_bits k) <-> length x = k) /\ length (all_bits k) = (2 ^ k)%nat.
Proof.
  induction k; cbn [all_bits].
  - split; [repeat constructor; intros []|]. split; auto. intros [|b x]; cbn; split; try tauto; try lia. intros [H|[]]. discriminate.
  - destruct IHk as (N & I & Z1). split; [|split].
    + apply NoDup_app; try (apply FinFun.Injective_map_NoDup; auto; intros x y E; congruence).
      intros x A B. apply in_map_iff in A as (y & <- & _). apply in_map_iff in B as (z & E & _). discriminate.
    + intro x. rewrite in_app_iff, !in_map_iff. split.
      * intros [(y & <- & H)|(y & <- & H)]; apply I in H; cbn; lia.
      * destruct x as [|[] x]; cbn; intros H; [lia|right|left]; exists x; (split; [auto|apply I; lia]).
    + rewrite app_length, !map_length, Z1. cbn. lia.
Qed.
Lemma dim_all m : 0 <= m -> dim (fun x => zlen x = m) m.
Proof.
  intros Hm. destruct (all_bits_spec (Z.to_nat m)) as (N & I & Z1). exists (all_bits (Z.to_nat m)). split; auto. split.
  - intro x. rewrite I. unfold zlen. lia.
  - unfold zlen. rewrite Z1. rewrite <- (Z2Nat.id m) at 2 by auto. clear. induction (Z.to_nat m); auto.
    rewrite Nat2Z.inj_succ, Z.pow_succ_r by lia. cbn [Nat.pow]. lia.
Qed.
Lemma dim_ext P Q d : (forall x, P x <-> Q x) -> dim P d -> dim Q d.
Proof. intros H (L & N & I & Z1). exists L. split; auto. split; auto. intro x. now rewrite I. Qed.
Lemma triangular_count m l : 0 <= m -> triangular m l -> zlen l <= m /\ dim (kernel m (map fst l)) (m - zlen l).
Proof.
  intros Hm. induction l as [|[r p] l IH]; intros T.
  - split; [exact Hm|]. cbn [map]. change (zlen (@nil (list bool * Z))) with 0. rewrite Z.sub_0_r. apply dim_ext with (fun x => zlen x = m).
    + intro x. split; [intro; split; auto; intros r []|now intros []].
    + now apply dim_all.
  - destruct T as (Hp & B & C & T). destruct (IH T) as (Le & L & N & I & Z1).
    assert (F : 2 * zlen (filter (fun x => negb (inner r x)) L) = zlen L).
    { apply filter_halves with (g := fun x => if zlen x =? m then flip p x else x); auto.
      - intros x Hx. pose proof (proj1 (I x) Hx) as (Zx & K). rewrite (proj2 (Z.eqb_eq _ _) Zx). split.
        + apply I. split; [now rewrite flip_len|]. intros s Hs. rewrite inner_flip by lia. rewrite K by auto.
          apply in_map_iff in Hs as ((r' & p') & <- & Hs). cbn [fst]. now rewrite (C r' p').
        + rewrite inner_flip, B by lia. now destruct (inner r x).
      - intro x. destruct (Z.eqb_spec (zlen x) m) as [E|E].
        + rewrite flip_len, (proj2 (Z.eqb_eq _ _) E). apply flip_flip.
        + rewrite (proj2 (Z.eqb_neq _ _) E). reflexivity. }
    rewrite zlen_cons. rewrite Z1 in F. split.
    { destruct (Z_lt_le_dec (zlen l) m); [lia|]. replace (m - zlen l) with 0 in F by lia. change (2 ^ 0) with 1 in F. lia. }
    exists (filter (fun x => negb (inner r x)) L). split; [now apply NoDup_filter|]. split.
    + intro x. rewrite filter_In, I. cbn [map fst]. split.
      * intros ((A & K) & E). split; auto. intros s [<-|Hs]; auto. now apply negb_true_iff in E.
      * intros (A & K). split; [split; auto; intros s Hs; apply K; now right|]. rewrite K by now left. reflexivity.
    + assert (zlen l < m). { destruct (Z_lt_le_dec (zlen l) m); [lia|]. replace (m - zlen l) with 0 in F by lia. change (2 ^ 0) with 1 in F. lia. }
      replace (m - zlen l) with (Z.succ (m - (zlen l + 1))) in F by lia. rewrite Z.pow_succ_r in F by lia. lia.
Qed.
Lemma dim_unique P d d' : 0 <= d -> 0 <= d' -> dim P d -> dim P d' -> d = d'.
Proof.
  intros D D' (L & N & I & Z1) (L' & N' & I' & Z1').
  assert (E : zlen L = zlen L').
  { unfold zlen. f_equal. apply Nat.le_antisymm; apply NoDup_incl_length; auto; intros x H; [apply I', I|apply I, I']; auto. }
  rewrite Z1, Z1' in E. now apply Z.pow_inj_r in E.
Qed.
