(* Property C70. *)
From Verif Require Import Base Seq Hist SpSeg_model SpSeg_spec.
From Verif Require SpSeg_proof.

(* Any number of SparseSegmentTree objects of one type (they share one node pool), any history
   of calls that does not copy a tree: each behaves as its own sequence, initially
   init(0,1), init(1,2), ...; [init l r] must be the product of the initial elements l..r-1. *)
Theorem sparse_segment_tree_history :
  forall (T : Type) (op : T -> T -> T) e (init : Z -> Z -> T) ops,
  is_monoid op e ->
  (forall l r, 0 <= l <= r -> init l r = prod_ op e (fun i => init i (i + 1)) l r) ->
  snd (run (sp_spec op e (fun i => init i (i + 1))) [] ops) <> UB ->
  run (sp_step op e init) (sp_pool0 e, []) ops = run (sp_spec op e (fun i => init i (i + 1))) [] ops.
Proof. intros T op e init ops M H. exact (SpSeg_proof.sp_history_ op e init M H ops). Qed.
Print Assumptions sparse_segment_tree_history.

(* A copy made with the implicit copy constructor is not independent: with the default
   initial values, setting an element of the copy of a fresh tree changes the original. *)
Theorem sparse_segment_tree_copy_refuted :
  forall (T : Type) (op : T -> T -> T) e n i x,
  is_monoid op e -> 0 <= i < n -> x <> e ->
  let ops := [SpNew n; SpCopy 0; SpSet 1 i x; SpGet 0 i] in
  run (sp_step op e (fun _ _ => e)) (sp_pool0 e, []) ops = ([SpUnit; SpUnit; SpUnit; SpVal x], Ok tt) /\
  run (sp_spec op e (fun _ => e)) [] [SpNew n; SpNew n; SpSet 1 i x; SpGet 0 i] = ([SpUnit; SpUnit; SpUnit; SpVal e], Ok tt).
Proof.
  intros T op e n i x M Hi Hx. split.
  - pose proof (sparse_segment_tree_history T op e (fun _ _ => e) [SpNew n; SpSet 0 i x; SpGet 0 i] M) as H.
    assert (E : run (sp_spec op e (fun _ => e)) [] [SpNew n; SpSet 0 i x; SpGet 0 i] = ([SpUnit; SpUnit; SpVal x], Ok tt)).
    { cbn [run sp_spec]. replace (0 <=? n) with true by lia. unfold vget, zupd, assign.
      cbn [Z.ltb Z.compare Z.to_nat nth_error app bind upd]. replace ((0 <=? i) && (i <? n)) with true by lia.
      cbn [Z.ltb Z.compare Z.to_nat nth_error app bind upd]. replace ((0 <=? i) && (i <? n)) with true by lia. now rewrite Z.eqb_refl. }
    cbv beta in H. rewrite E in H.
    assert (H' : run (sp_step op e (fun _ _ => e)) (sp_pool0 e, []) [SpNew n; SpSet 0 i x; SpGet 0 i] = ([SpUnit; SpUnit; SpVal x], Ok tt)).
    { apply H; [|discriminate]. intros l r _. symmetry. now apply prod_e. }
    clear H E. cbn [run sp_step] in *. unfold sp_new in *. cbn [sp_new_node sp_step] in *.
    change (vget ([] ++ [ST n (zlen (sp_pool0 e))]) 0) with (Ok (ST n (zlen (sp_pool0 e)))) in *. cbn [bind] in *.
    change (vget (([] ++ [ST n (zlen (sp_pool0 e))]) ++ [ST n (zlen (sp_pool0 e))]) 1) with (Ok (ST n (zlen (sp_pool0 e)))).
    cbn [bind sp_step].
    change (vget (([] ++ [ST n (zlen (sp_pool0 e))]) ++ [ST n (zlen (sp_pool0 e))]) 1) with (Ok (ST n (zlen (sp_pool0 e)))).
    cbn [bind sp_step].
    match goal with |- context [sp_set ?a ?b ?c ?d ?f ?g] => destruct (sp_set a b c d f g) as [m'| | |] end; cbn [bind sp_step] in *; try discriminate.
    change (vget (([] ++ [ST n (zlen (sp_pool0 e))]) ++ [ST n (zlen (sp_pool0 e))]) 0) with (Ok (ST n (zlen (sp_pool0 e)))).
    change (vget ([] ++ [ST n (zlen (sp_pool0 e))]) 0) with (Ok (ST n (zlen (sp_pool0 e)))) in *. cbn [bind] in *.
    match goal with |- context [sp_get ?a ?b ?c ?d] => destruct (sp_get a b c d) as [y| | |] end; cbn [bind] in *; try discriminate. injection H' as ->. reflexivity.
  - assert (B : (0 <=? n) = true) by lia. assert (C : (0 <=? i) && (i <? n) = true) by lia.
    cbn [run sp_spec]. rewrite B. unfold vget, zupd, assign. change (Z.to_nat 1) with 1%nat. change (Z.to_nat 0) with 0%nat.
    cbn [Z.ltb Z.compare nth_error app bind upd]. rewrite C. cbn [bind]. rewrite C. reflexivity.
Qed.
Print Assumptions sparse_segment_tree_copy_refuted.

(* affine maps; initial element i is the identity (1, 0), and with a huge index range *)
Definition aff (f g : Z * Z) : Z * Z := (fst f * fst g, fst g * snd f + snd g).
Example aff_monoid : is_monoid aff (1, 0).
Proof. constructor; [intros [a b] [c d] [x y]|intros [a b]|intros [a b]]; unfold aff; cbn [fst snd]; f_equal; ring. Qed.
(* sums with initial elements 0, 1, 2, ... *)
Definition tri (l r : Z) : Z := r * (r - 1) / 2 - l * (l - 1) / 2.
Lemma tri_div r : r * (r - 1) / 2 * 2 = r * (r - 1).
Proof.
  assert (r * (r - 1) mod 2 = 0).
  { rewrite <- Z.mul_mod_idemp_l, <- Z.mul_mod_idemp_r by lia. pose proof (Z.mod_pos_bound r 2 ltac:(lia)).
    assert (r mod 2 = 0 \/ r mod 2 = 1) as [->| Q] by lia; [reflexivity|]. replace ((r - 1) mod 2) with 0; [now rewrite Z.mul_0_r|].
    rewrite Zminus_mod, Q. reflexivity. }
  pose proof (Z.div_mod (r * (r - 1)) 2 ltac:(lia)). lia.
Qed.
Example tri_init : forall l r, 0 <= l <= r -> tri l r = prod_ Z.add 0 (fun i => tri i (i + 1)) l r.
Proof.
  intros l r H. unfold prod_. assert (G : forall k l, tri l (l + Z.of_nat k) = prodn Z.add 0 (fun i => tri i (i + 1)) l k).
  { clear. induction k as [|k IH]; intro l; cbn [prodn].
    - unfold tri. replace (l + Z.of_nat 0) with l by lia. lia.
    - rewrite <- IH. unfold tri. replace (l + Z.of_nat (S k)) with (l + 1 + Z.of_nat k) by lia. lia. }
  rewrite <- G. f_equal. lia.
Qed.
Example sparse_example :
  let ops := [SpNew 1000000000000000; SpNew 5; SpProd 0 10 20; SpSet 0 15 100; SpProd 0 10 20; SpGet 0 16; SpApply 1 3 (fun x => x * 10);
              SpAll 1; SpGet 0 3; SpProd 1 3 3; SpGet 1 5] in
  run (sp_spec Z.add 0 (fun i => tri i (i + 1))) [] ops =
   ([SpUnit; SpUnit; SpVal 145; SpUnit; SpVal 230; SpVal 16; SpUnit; SpVal 37; SpVal 3; SpVal 0], Abort).
Proof. vm_compute. reflexivity. Qed.
Example sparse_example_code :
  let ops := [SpNew 1000; SpNew 5; SpProd 0 10 20; SpSet 0 15 100; SpProd 0 10 20; SpGet 0 16; SpApply 1 3 (fun x => x * 10);
              SpAll 1; SpGet 0 3; SpProd 1 3 3; SpGet 1 5] in
  run (sp_step Z.add 0 tri) (sp_pool0 0, []) ops = run (sp_spec Z.add 0 (fun i => tri i (i + 1))) [] ops.
Proof. vm_compute. reflexivity. Qed.
