(* C83: Mo's algorithm. *)
From Verif Require Import Base BaseLemmas Cartesian_spec Mo_model Mo_proof.
From Coq Require Import Permutation.

(* Any user structure whose states represent intervals ([D l r s]: s represents [l, r)), whose four callbacks move one end of the interval by one as
   documented, and whose eval returns [ans l r]: for every list of queries inside [0, n] and every order the sort may produce, no callback is called
   outside its documented interval and the result lists the answers in the order of the queries. *)
Theorem mo_correct {S T} (eval : S -> res T) (add_l del_l add_r del_r : Z -> S -> res S) (n : Z) (D : Z -> Z -> S -> Prop) (ans : Z -> Z -> T) (qs : list (Z * Z)) (ord : list Z) (s : S) :
  (forall l r s, 0 <= l <= r -> r <= n -> D l r s -> eval s = Ok (ans l r)) ->
  (forall l r s, 0 <= l < r -> r <= n -> D (l + 1) r s -> exists s', add_l l s = Ok s' /\ D l r s') ->
  (forall l r s, 0 <= l < r -> r <= n -> D l r s -> exists s', del_l l s = Ok s' /\ D (l + 1) r s') ->
  (forall l r s, 0 <= l <= r -> r < n -> D l r s -> exists s', add_r r s = Ok s' /\ D l (r + 1) s') ->
  (forall l r s, 0 <= l <= r -> r < n -> D l (r + 1) s -> exists s', del_r r s = Ok s' /\ D l r s') ->
  Permutation ord (zrange (zlen qs)) -> (forall l r, In (l, r) qs -> 0 <= l <= r /\ r <= n) -> 0 <= n -> D 0 0 s ->
  mo_solve eval add_l del_l add_r del_r qs ord s = Ok (map (fun q => Some (ans (fst q) (snd q))) qs).
Proof. intros. eapply solve_ok; eauto. Qed.
Print Assumptions mo_correct.
(* the comparator handed to std::sort is a strict weak order for every bucket size *)
Theorem mo_order_correct (b : Z) : strict_weak (mo_less b).
Proof. exact (mo_less_sw b). Qed.
Print Assumptions mo_order_correct.

(* sums of intervals of an array *)
Definition msum (a : list Z) (l r : Z) : Z := fold_right Z.add 0 (firstn (Z.to_nat (r - l)) (skipn (Z.to_nat l) a)).
Example mo_example : let a := [5; 3; 2; 7] in let qs := [(1, 3); (0, 0); (2, 4); (0, 4)] in
  let add := fun i s => let* x := vget a i in Ok (s + x) in let del := fun i s => let* x := vget a i in Ok (s - x) in
  mo_solve (fun s => Ok s) add del add del qs [3; 1; 0; 2] 0 = Ok [Some 5; Some 0; Some 9; Some 17] /\ Permutation [3; 1; 0; 2] (zrange (zlen qs)) /\
  (forall l r s, 0 <= l < r -> r <= 4 -> s = msum a (l + 1) r -> exists s', add l s = Ok s' /\ s' = msum a l r).
Proof.
  split; [vm_compute; reflexivity|]. split.
  - apply (perm_trans (l' := [0; 3; 1; 2])); [apply Permutation_sym; apply (Permutation_cons_app [3; 1] [2] 0); reflexivity|]. apply perm_skip. apply (perm_trans (l' := [1; 3; 2])); [apply perm_swap|]. apply perm_skip. apply perm_swap.
  - intros l r s Hl Hr ->. assert (C : l = 0 \/ l = 1 \/ l = 2 \/ l = 3) by lia. assert (C' : r = 1 \/ r = 2 \/ r = 3 \/ r = 4) by lia.
    destruct C as [->|[->|[->| ->]]], C' as [->|[->|[->| ->]]]; try lia; eexists; (split; [reflexivity|vm_compute; reflexivity]).
Qed.
