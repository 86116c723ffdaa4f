(* More lemmas on vectors: splitting at an index, reversal, prefixes. *)
From Verif Require Import Base BaseLemmas.

(* [rewrite ... in H] refuses steps that are conversions *)
Ltac zl := repeat match goal with
  | H : context [zlen (@nil ?A)] |- _ => change (zlen (@nil A)) with 0 in H
  | H : context [zlen [?x]] |- _ => change (zlen [x]) with 1 in H
  | |- context [zlen (@nil ?A)] => change (zlen (@nil A)) with 0
  | |- context [zlen [?x]] => change (zlen [x]) with 1
  end.
Lemma zlen_one {A} (x : A) : zlen [x] = 1.
Proof. reflexivity. Qed.
Lemma vget_mid {A} (a : list A) x b i : i = zlen a -> vget (a ++ x :: b) i = Ok x.
Proof. intros ->. rewrite vget_app2 by lia. now rewrite Z.sub_diag. Qed.
Lemma upd_mid {A} (a : list A) x b y : upd (a ++ x :: b) (length a) y = a ++ y :: b.
Proof. induction a; cbn; congruence. Qed.
Lemma vset_mid {A} (a : list A) x b i y : i = zlen a -> vset (a ++ x :: b) i y = Ok (a ++ y :: b).
Proof.
  intros ->. rewrite vset_ok by (rewrite zlen_app, zlen_cons; pose proof (zlen_nonneg a); pose proof (zlen_nonneg b); lia).
  f_equal. unfold zupd, zlen. rewrite Nat2Z.id. apply upd_mid.
Qed.
Lemma vget_split {A} (v : list A) i x : vget v i = Ok x -> exists a b, v = a ++ x :: b /\ zlen a = i.
Proof.
  intro H. pose proof (vget_range _ _ _ H) as R. apply vget_nth_error in H.
  destruct (nth_error_split _ _ H) as (a & b & E & L). exists a, b. split; auto. unfold zlen. lia.
Qed.
Lemma split_at {A} (v : list A) i : 0 <= i < zlen v -> exists a x b, v = a ++ x :: b /\ zlen a = i /\ vget v i = Ok x.
Proof.
  intro H. destruct (vget_Ok v i H) as (x & E). destruct (vget_split _ _ _ E) as (a & b & F & L). eauto 8.
Qed.
Lemma vget_rev {A} (v : list A) i : 0 <= i < zlen v -> vget (rev v) i = vget v (zlen v - 1 - i).
Proof.
  intro H. destruct (split_at v (zlen v - 1 - i)) as (a & x & b & E & L & G); [lia|]. rewrite G.
  rewrite E in *. rewrite zlen_app, zlen_cons in *. rewrite rev_app_distr. cbn. rewrite <- app_assoc. cbn.
  apply vget_mid. rewrite zlen_rev. lia.
Qed.
Lemma vget_firstn {A} (v : list A) n i : 0 <= i < n -> vget (firstn (Z.to_nat n) v) i = vget v i.
Proof.
  intro H. destruct (Z_lt_ge_dec i (zlen v)).
  - destruct (split_at v i) as (a & x & b & E & L & G); [lia|]. rewrite G, E.
    replace (Z.to_nat n) with (length a + S (Z.to_nat n - length a - 1))%nat by (unfold zlen in L; lia).
    rewrite firstn_app_2. cbn. now apply vget_mid.
  - rewrite firstn_all2; auto. unfold zlen in *. lia.
Qed.
Lemma vget_skipn {A} (v : list A) n i : 0 <= n -> 0 <= i -> vget (skipn (Z.to_nat n) v) i = vget v (n + i).
Proof.
  intros Hn Hi. unfold vget. destruct (Z.ltb_spec i 0); [lia|]. destruct (Z.ltb_spec (n + i) 0); [lia|].
  replace (Z.to_nat (n + i)) with (Z.to_nat n + Z.to_nat i)%nat by lia. clear.
  generalize (Z.to_nat n) as k. intro k. revert v. induction k; intros [|x v]; cbn; auto.
  now destruct (Z.to_nat i).
Qed.
Lemma zlen_firstn {A} (v : list A) n : 0 <= n <= zlen v -> zlen (firstn (Z.to_nat n) v) = n.
Proof. unfold zlen. rewrite firstn_length. lia. Qed.
Lemma zlen_skipn {A} (v : list A) n : 0 <= n <= zlen v -> zlen (skipn (Z.to_nat n) v) = zlen v - n.
Proof. unfold zlen. rewrite skipn_length. lia. Qed.
Lemma list_eq {A} (v w : list A) : zlen v = zlen w -> (forall i, 0 <= i < zlen v -> vget v i = vget w i) -> v = w.
Proof.
  revert w. induction v as [|x v IH]; intros [|y w] L H; auto; rewrite ?zlen_cons, ?zlen_nil in L;
    try (pose proof (zlen_nonneg v); lia); try (pose proof (zlen_nonneg w); lia).
  pose proof (zlen_nonneg v). rewrite zlen_cons in H.
  assert (vget (x :: v) 0 = vget (y :: w) 0) by (apply H; lia). cbn in H1. injection H1 as ->. f_equal.
  apply IH; [lia|]. intros i Hi. specialize (H (i + 1)). 
  replace (y :: v) with ([y] ++ v) in H by reflexivity. replace (y :: w) with ([y] ++ w) in H by reflexivity.
  rewrite !vget_app2 in H by (rewrite zlen_cons, zlen_nil; lia). change (zlen [y]) with 1 in H. replace (i + 1 - 1) with i in H by lia. apply H. lia.
Qed.
Lemma vget_last {A} (v : list A) : v <> [] -> exists v' x, v = v' ++ [x] /\ zlen v = zlen v' + 1 /\ vget v (zlen v - 1) = Ok x /\ removelast v = v'.
Proof.
  intro H. destruct (exists_last H) as (v' & x & E). exists v', x. repeat split; auto.
  - rewrite E, zlen_app. reflexivity.
  - rewrite E, zlen_app. apply vget_mid. change (zlen [x]) with 1. lia.
  - rewrite E. apply removelast_last.
Qed.
Lemma vget_UB {A} (v : list A) i : ~ (0 <= i < zlen v) -> vget v i = UB.
Proof.
  intro H. unfold vget. destruct (Z.ltb_spec i 0); auto.
  destruct (nth_error v (Z.to_nat i)) eqn:E; auto. exfalso. apply H.
  pose proof (nth_error_Some v (Z.to_nat i)). rewrite E in H1. unfold zlen. assert (Z.to_nat i < length v)%nat by (apply H1; discriminate). lia.
Qed.
Lemma vget_map_Ok {A B} (f : A -> B) v i a : vget v i = Ok a -> vget (map f v) i = Ok (f a).
Proof. intro H. now rewrite vget_map, H. Qed.
Lemma vget_cases {A} (v : list A) i : (exists x, vget v i = Ok x) \/ vget v i = UB.
Proof. destruct (Z_lt_ge_dec i 0); [right; apply vget_UB; lia|]. destruct (Z_lt_ge_dec i (zlen v)); [left; apply vget_Ok; lia|right; apply vget_UB; lia]. Qed.
