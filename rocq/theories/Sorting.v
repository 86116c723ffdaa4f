(* Insertion sort and lemmas about sorted lists. *)
From Verif Require Import Base BaseLemmas.
From Coq Require Import Permutation Sorted.

Section Sort.
  Context {A : Type}.
  Variable le : A -> A -> bool.
  Fixpoint insert (x : A) (l : list A) : list A :=
    match l with [] => [x] | y :: l' => if le x y then x :: l else y :: insert x l' end.
  Definition isort (l : list A) : list A := fold_right insert [] l.
  Lemma insert_perm x l : Permutation (insert x l) (x :: l).
  Proof. induction l as [|y l IH]; cbn; auto. destruct (le x y); auto. rewrite IH. apply perm_swap. Qed.
  Lemma isort_perm l : Permutation (isort l) l.
  Proof. induction l as [|x l IH]; cbn; auto. rewrite insert_perm. auto. Qed.
  Hypothesis total : forall x y, le x y = true \/ le y x = true.
  Hypothesis trans : forall x y z, le x y = true -> le y z = true -> le x z = true.
  Let R x y := le x y = true.
  Lemma insert_sorted x l : StronglySorted R l -> StronglySorted R (insert x l).
  Proof.
    induction 1 as [|y l S IH F]; cbn; [repeat constructor|]. destruct (le x y) eqn:E.
    - constructor; [constructor; auto|]. constructor; auto. eapply Forall_impl; [|exact F]. intros z Hz. eapply trans; eauto.
    - constructor; auto. rewrite (insert_perm x l). constructor; auto. destruct (total x y); [congruence|auto].
  Qed.
  Lemma isort_sorted l : StronglySorted R (isort l).
  Proof. induction l; cbn; [constructor|]. now apply insert_sorted. Qed.
End Sort.

Lemma StronglySorted_impl {A} (R S : A -> A -> Prop) l : (forall x y, R x y -> S x y) -> StronglySorted R l -> StronglySorted S l.
Proof. intros H. induction 1; constructor; auto. eapply Forall_impl; [|eauto]. auto. Qed.
Lemma StronglySorted_app' {A} (R : A -> A -> Prop) l1 l2 : StronglySorted R l1 -> StronglySorted R l2 -> (forall x y, In x l1 -> In y l2 -> R x y) ->
  StronglySorted R (l1 ++ l2).
Proof.
  induction 1 as [|x l S IH F]; intros S2 H; cbn [app]; auto. constructor.
  - apply IH; auto. intros; apply H; auto. now right.
  - apply Forall_app. split; auto. apply Forall_forall. intros y Hy. apply H; auto. now left.
Qed.
Lemma StronglySorted_rev {A} (R : A -> A -> Prop) l : StronglySorted R l -> StronglySorted (fun x y => R y x) (rev l).
Proof.
  induction 1 as [|x l S IH F]; cbn [rev]; [constructor|]. apply StronglySorted_app'; auto; [repeat constructor|].
  intros a b Ha [<-|[]]. rewrite <- in_rev in Ha. rewrite Forall_forall in F. auto.
Qed.
Lemma sort_Z (l : list Z) : exists t, Permutation t l /\ StronglySorted Z.le t.
Proof.
  exists (isort Z.leb l). split; [apply isort_perm|]. eapply StronglySorted_impl; [|apply isort_sorted].
  - intros x y H. now apply Z.leb_le.
  - intros x y. rewrite !Z.leb_le. lia.
  - intros x y z. rewrite !Z.leb_le. lia.
Qed.
