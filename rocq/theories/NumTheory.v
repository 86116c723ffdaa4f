(* Number theory over Z used by several proofs: Fermat's little theorem. *)
From Coq Require Import Znumtheory Permutation.
From Verif Require Import Base BaseLemmas ZMod.

Definition zprod (l : list Z) : Z := fold_right Z.mul 1 l.

Lemma zprod_perm l l' : Permutation l l' -> zprod l = zprod l'.
Proof. induction 1; simpl; lia. Qed.

Lemma prime_gt1 p : prime p -> 1 < p.
Proof. intros []; auto. Qed.

Lemma zprod_map_mul p a l : 1 < p ->
  zprod (map (fun x => (a * x) mod p) l) mod p = (a ^ zlen l * zprod l) mod p.
Proof.
  intros Hp. induction l as [|x l IH]; [reflexivity|].
  cbn [map zprod fold_right]. fold (zprod l). fold (zprod (map (fun x => (a * x) mod p) l)).
  rewrite zlen_cons, Z.add_comm, Z.pow_add_r, Z.pow_1_r by (pose proof (zlen_nonneg l); lia).
  rewrite mod_mul_l, <- mod_mul_r, IH, mod_mul_r. f_equal. ring.
Qed.

Lemma zprod_not_div p l : prime p -> (forall x, In x l -> ~ (p | x)) -> ~ (p | zprod l).
Proof.
  intros Hp. induction l as [|x l IH]; intros H D.
  - cbn in D. apply Z.divide_1_r in D. pose proof (prime_gt1 p Hp). lia.
  - cbn [zprod fold_right] in D. apply prime_mult in D; auto. destruct D as [D|D].
    + apply (H x); simpl; auto.
    + apply IH; auto. intros y Hy. apply H; simpl; auto.
Qed.

Lemma NoDup_map_inj' {A B} (f : A -> B) l :
  (forall x y, In x l -> In y l -> f x = f y -> x = y) -> NoDup l -> NoDup (map f l).
Proof.
  induction l as [|x l IH]; intros Hf Hn; simpl; constructor; inversion Hn; subst.
  - intros H. apply in_map_iff in H. destruct H as (y & E & Hy).
    assert (x = y) by (apply Hf; simpl; auto). subst. contradiction.
  - apply IH; auto. intros; apply Hf; simpl; auto.
Qed.

Lemma fermat p a : prime p -> ~ (p | a) -> a ^ (p - 1) mod p = 1.
Proof.
  intros Hp Ha. pose proof (prime_gt1 p Hp) as Hp1.
  set (l := map (fun k => k + 1) (zrange (p - 1))).
  assert (Hl : forall x, In x l <-> 1 <= x < p).
  { intros x. unfold l. rewrite in_map_iff. split.
    - intros (y & <- & Hy). apply In_zrange in Hy. lia.
    - intros Hx. exists (x - 1). split; [lia|]. apply In_zrange. lia. }
  assert (Hn : NoDup l).
  { unfold l. apply NoDup_map_inj'; [intros; lia|]. apply NoDup_zrange. }
  assert (Hnl : forall x, In x l -> ~ (p | x)).
  { intros x Hx D. apply Hl in Hx. apply Z.divide_pos_le in D; lia. }
  assert (Hin : forall x, In x l -> In ((a * x) mod p) l).
  { intros x Hx. apply Hl. pose proof (Z.mod_pos_bound (a * x) p ltac:(lia)).
    assert ((a * x) mod p <> 0); [|lia]. intros E. apply Z.mod_divide in E; [|lia].
    apply prime_mult in E; auto. destruct E; [auto|]. apply (Hnl x); auto. }
  assert (Hperm : Permutation (map (fun x => (a * x) mod p) l) l).
  { apply NoDup_Permutation_bis.
    - apply NoDup_map_inj'; auto. intros x y Hx Hy E.
      apply Hl in Hx. apply Hl in Hy.
      apply mod_eq_divide in E; [|lia]. replace (a * x - a * y) with (a * (x - y)) in E by ring.
      apply prime_mult in E; auto. destruct E as [E|[k Hk]]; [contradiction|].
      assert (k = 0) by nia. lia.
    - rewrite map_length. lia.
    - intros y Hy. apply in_map_iff in Hy. destruct Hy as (x & <- & Hx). auto. }
  pose proof (zprod_map_mul p a l Hp1) as E.
  rewrite (zprod_perm _ _ Hperm) in E.
  assert (Elen : zlen l = p - 1).
  { unfold l. rewrite zlen_map, zlen_zrange; lia. }
  rewrite Elen in E. symmetry in E. apply mod_eq_divide in E; [|lia].
  replace (a ^ (p - 1) * zprod l - zprod l) with ((a ^ (p - 1) - 1) * zprod l) in E by ring.
  apply prime_mult in E; auto. destruct E as [E|E].
  - apply mod_uniq; [lia|auto].
  - exfalso. apply (zprod_not_div p l); auto.
Qed.

Lemma fermat_coprime p a : prime p -> 0 <= a -> rel_prime a p -> a ^ (p - 1) mod p = 1.
Proof.
  intros Hp Ha Hr. apply fermat; auto. intros D. pose proof (prime_gt1 p Hp).
  destruct Hr as [_ _ H1]. specialize (H1 p D (Z.divide_refl p)). apply Z.divide_1_r in H1. lia.
Qed.
