(* Property C67. *)
From Coq Require Import Permutation.
From Verif Require Import Base BaseLemmas PrioSum_model PrioSum_spec.
From Verif Require PrioSum_proof.

Lemma sum_first_perm cmp k l l' s : Permutation l l' -> sum_first cmp k l s -> sum_first cmp k l' s.
Proof.
  intros P (l1 & l2 & P1 & L & B & E). exists l1, l2. repeat split; auto.
  - now rewrite P1.
  - rewrite L. unfold zlen. now rewrite (Permutation_length P).
Qed.

Lemma sum_perm l l' : Permutation l l' -> fold_right Z.add 0 l = fold_right Z.add 0 l'.
Proof. induction 1; cbn [fold_right]; lia. Qed.

(* C67: after any sequence of insert and set_k calls, get_sum() is the sum of the first k
   elements under the comparator and size() their number. *)
Theorem priority_sum_correct :
  forall cmp, (forall x y, cmp x y = true -> cmp y x = false) ->
  (forall x y z, cmp x y = false -> cmp y z = false -> cmp x z = false) ->
  forall k ops, 0 <= k -> (forall k', In (PSetK k') ops -> 0 <= k') ->
  exists s, for_each ops (ps_do cmp) (ps_new k) = Ok s /\ ps_k s = last_k k ops /\
    sum_first cmp (last_k k ops) (inserted ops) (ps_sum s) /\ ps_size s = zlen (inserted ops).
Proof.
  intros cmp A N k ops Hk Ho.
  destruct (PrioSum_proof.run_ok cmp A N ops [] (ps_new k) (PrioSum_proof.inv_new cmp A N k Hk) Ho) as (s & E & K & c & P & I).
  exists s. cbn [app ps_new ps_k] in *. destruct (PrioSum_proof.inv_sum cmp A N c s I) as (S1 & S2). split; auto. split; auto.
  rewrite K in S1. split; [eapply sum_first_perm; eauto|]. rewrite S2. unfold zlen. now rewrite (Permutation_length P).
Qed.
Print Assumptions priority_sum_correct.

(* the sum is determined: for MaximumPrioritySum (std::less) it is the sum of the k least *)
Example priority_sum_example :
  (let* s := for_each [PInsert 5; PInsert 1; PSetK 2; PInsert 4; PInsert 2; PInsert 9; PSetK 3] (ps_do Z.ltb) (ps_new 0) in Ok (ps_sum s, ps_size s)) = Ok (7, 5) /\
  (let* s := for_each [PInsert 5; PInsert 1; PSetK 2; PInsert 4; PInsert 2; PInsert 9; PSetK 3] (ps_do Z.gtb) (ps_new 0) in Ok (ps_sum s, ps_size s)) = Ok (18, 5).
Proof. split; vm_compute; reflexivity. Qed.
Example priority_sum_orders :
  (forall x y, (x <? y) = true -> (y <? x) = false) /\ (forall x y z, (x <? y) = false -> (y <? z) = false -> (x <? z) = false) /\
  (forall x y, (x >? y) = true -> (y >? x) = false) /\ (forall x y z, (x >? y) = false -> (y >? z) = false -> (x >? z) = false).
Proof. repeat split; intros; lia. Qed.

(* C67, finding: erase looks on the wrong side.  With k = 2, erasing 1 from {1, 2, 3, 4}
   leaves the sum 1 + 2 instead of 2 + 3, and erasing 4 changes it. *)
Theorem priority_sum_erase_refuted :
  exists s t u, for_each [PInsert 1; PInsert 2; PInsert 3; PInsert 4] (ps_do Z.ltb) (ps_new 2) = Ok s /\
    ps_erase Z.ltb s 1 = Ok t /\ ps_sum t = 1 + 2 /\ ~ sum_first Z.ltb 2 [2; 3; 4] (ps_sum t) /\
    ps_erase Z.ltb s 4 = Ok u /\ ps_sum u = 2 /\ ~ sum_first Z.ltb 2 [1; 2; 3] (ps_sum u).
Proof.
  assert (N : forall a b c x, a < b < c -> sum_first Z.ltb 2 [a; b; c] x -> x = a + b).
  { intros a b c x H (l1 & l2 & P & L & B & ->). change (zlen [a; b; c]) with 3 in L. change (Z.min 2 3) with 2 in L.
    pose proof (Permutation_length P) as Q. rewrite app_length in Q. cbn [length] in Q. unfold zlen in L.
    destruct l1 as [|p [|q [|]]]; cbn [length] in L; try lia. destruct l2 as [|r [|]]; cbn [length] in Q; try lia. cbn [app] in P.
    pose proof (sum_perm _ _ P) as S. cbn [fold_right] in *.
    assert (r = c); [|lia].
    assert (Hr : In r [a; b; c]) by (apply (Permutation_in _ P); cbn; auto).
    assert (Hp : r <? p = false) by (apply B; cbn; auto). assert (Hq : r <? q = false) by (apply B; cbn; auto).
    assert (Hc : In c [p; q; r]) by (apply (Permutation_in _ (Permutation_sym P)); cbn; auto).
    cbn in Hr, Hc. lia. }
  destruct (for_each [PInsert 1; PInsert 2; PInsert 3; PInsert 4] (ps_do Z.ltb) (ps_new 2)) as [s| | |] eqn:E; vm_compute in E; try discriminate.
  injection E as <-. eexists. eexists. eexists. split; [reflexivity|]. split; [vm_compute; reflexivity|]. split; [reflexivity|].
  split.
  - intro H. apply N in H; [|lia]. discriminate.
  - split; [vm_compute; reflexivity|]. split; [reflexivity|]. intro H. apply N in H; [|lia]. discriminate.
Qed.
Print Assumptions priority_sum_erase_refuted.
