(* C105: double-ended priority queue (library/datastructure/double_ended_priority_queue.hpp) *)
From Verif Require Import Base BaseLemmas ListZ Sorting Depq_spec Depq_model Depq_proof.
From Coq Require Import Permutation Sorted.

(* Starting from any range of elements, every sequence of calls gets the answers of a sorted multiset; a call that needs an element of an empty queue fails its assertion, nothing else fails.
   In particular pivot is never read before it is set.  This holds for every choice the standard algorithms are free to make. *)
Theorem double_ended_priority_queue_correct a init ops : std_ok a ->
  history (dq_step a) ops (dq_new a init) = history spec_step ops (isort Z.leb init).
Proof. intros H. apply history_ok; auto. apply new_inv; auto. Qed.
Print Assumptions double_ended_priority_queue_correct.

(* the hypothesis can be met: all algorithms by sorting *)
Definition desc (less : Z -> Z -> bool) : list Z -> list Z := isort (fun x y => negb (less x y)).
Definition asc (less : Z -> Z -> bool) : list Z -> list Z := isort (fun x y => negb (less y x)).
Definition ex_std : std := Std desc desc (fun less l => match l with [] => [] | x :: l => desc less l ++ [x] end) (fun less _ => asc less) asc.
Lemma order_total less x y : order less -> negb (less x y) = true \/ negb (less y x) = true.
Proof. intros [-> | ->]; destruct (Z.ltb_spec x y), (Z.ltb_spec y x); cbn; auto; lia. Qed.
Lemma order_trans less x y z : order less -> negb (less x y) = true -> negb (less y z) = true -> negb (less x z) = true.
Proof. intros [-> | ->]; rewrite !negb_true_iff, !Z.ltb_ge; lia. Qed.
Lemma desc_heap less l : order less -> heap less (desc less l).
Proof.
  intros O i x y Hi Ex Ey. unfold desc in *. assert (S : StronglySorted (fun x y => negb (less x y) = true) (isort (fun x y => negb (less x y)) l)) by (apply isort_sorted; [intros; now apply order_total|intros a b c; now apply order_trans]).
  assert (P : 0 <= (i - 1) / 2 < i) by (split; [apply Z.div_pos; lia|apply Z.div_lt_upper_bound; lia]). apply negb_true_iff. revert S Ex Ey P. generalize (isort (fun x y => negb (less x y)) l). generalize ((i - 1) / 2). intros j t S Ex Ey P.
  revert i j Hi P Ex Ey. induction S as [|w r S IH F]; intros i j Hi P Ex Ey; [apply vget_range in Ex; change (zlen (@nil Z)) with 0 in Ex; lia|]. rewrite Forall_forall in F. rewrite vget_consS in Ex by lia. destruct (Z.eq_dec j 0) as [->|N].
  - rewrite vget_cons0 in Ey. injection Ey as <-. apply F. now apply vget_In in Ex.
  - rewrite vget_consS in Ey by lia. apply (IH (i - 1) (j - 1)); auto; lia.
Qed.
Example ex_std_ok : std_ok ex_std.
Proof.
  split; cbn [make_heap push_heap pop_heap nth_element Depq_spec.sort ex_std].
  - intros less l O. split; [now apply desc_heap|apply isort_perm].
  - intros less l x O _. split; [now apply desc_heap|apply isort_perm].
  - intros less l x O _. exists (desc less l). split; auto. split; [now apply desc_heap|apply isort_perm].
  - intros less k l O Hk. split; [apply isort_perm|]. intros i j x y Hij Ex Ey. assert (S : StronglySorted (fun x y => negb (less y x) = true) (asc less l)) by (apply isort_sorted; [intros a b; destruct (order_total less a b O); auto|intros a b c A B; now apply (order_trans less c b a O)]).
    apply negb_true_iff. pose proof (vget_range _ _ _ Ex) as Rx. clear Hk. assert (Hj : i <= j) by lia. clear Hij k. revert i j Ex Ey Rx Hj. induction S as [|w r S IH F]; intros i j Ex Ey Rx Hj; [apply vget_range in Ex; change (zlen (@nil Z)) with 0 in Ex; lia|]. rewrite Forall_forall in F. destruct (Z.eq_dec i 0) as [->|N].
    + rewrite vget_cons0 in Ex. injection Ex as <-. destruct (Z.eq_dec j 0) as [->|N]; [rewrite vget_cons0 in Ey; injection Ey as <-; destruct (order_total less w w O); auto|]. apply F. rewrite vget_consS in Ey by lia. now apply vget_In in Ey.
    + rewrite vget_consS in Ex, Ey by lia. apply (IH (i - 1) (j - 1)); auto; [now apply vget_range in Ex|lia].
  - intros less l O. split; [apply isort_perm|]. eapply StronglySorted_impl; [|apply isort_sorted]; [intros x y; apply negb_true_iff|intros a b; destruct (order_total less a b O); auto|intros a b c A B; now apply (order_trans less c b a O)].
Qed.
Example depq_ex : history (dq_step ex_std) [Min; PopMax; PopMax; Max; Push 1; Push 9; Dump; PopMin; PopMin; Max; Size; PopMax; PopMax; Empty] (dq_new ex_std [4; 1; 3; 2])
  = Ok [Val 1; Val 4; Val 3; Val 2; Done; Done; Vals [1; 1; 2; 9]; Val 1; Val 1; Val 9; Val 2; Val 9; Val 2; Flag true] /\
  history (dq_step ex_std) [PopMin; Min] (dq_new ex_std [7]) = Abort.
Proof. split; reflexivity. Qed.
