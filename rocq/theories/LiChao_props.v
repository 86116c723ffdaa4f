(* Property C72. *)
From Verif Require Import Base BaseLemmas Hist LiChao_model LiChao_spec.
From Verif Require LiChao_proof2.

(* Any history of add_segment / add_line / query on a tree built from a non-empty list of
   coordinates (in any order, with repetitions): a query at one of the coordinates returns the
   least (for the maximum version: greatest) value among the segments added so far that cover
   it, and nothing when there is none; a query at a smaller or missing coordinate fails the
   assertion.  [fits] (LiChao_spec.v) keeps the values at the covered coordinates in range. *)
Theorem li_chao_tree_history :
  forall neg xs ops, xs <> [] ->
  snd (run (lc_spec neg xs) [] ops) <> UB ->
  exists s, lc_new xs = Ok s /\ run (lc_step neg) s ops = run (lc_spec neg xs) [] ops.
Proof. exact LiChao_proof2.li_chao_. Qed.
Print Assumptions li_chao_tree_history.

(* The documented assertion does not protect a query beyond the last coordinate: it reads past
   the end of the array of coordinates. *)
Theorem li_chao_query_beyond_refuted :
  forall neg xs x, xs <> [] -> (forall y, In y xs -> y < x) ->
  exists s, lc_new xs = Ok s /\ lc_query neg s x = UB.
Proof. exact LiChao_proof2.beyond_. Qed.
Print Assumptions li_chao_query_beyond_refuted.

(* A tree without coordinates accepts queries at 0 and answers with any segment to its left. *)
Theorem li_chao_no_coordinates_refuted :
  forall lo hi b, lo <= hi < 0 -> - 2 ^ 63 <= b < 2 ^ 63 - 1 ->
  exists s, lc_new [] = Ok s /\ run (lc_step false) s [LcAdd lo hi 0 b; LcQuery 0] = ([LcUnit; LcAns (Some b)], Ok tt) /\
    values_at 0 [Seg lo hi 0 b] = [].
Proof.
  intros lo hi b H B. exists (LC [0] 0 1 0 [line_e; line_e]). split; [reflexivity|].
  assert (L : (0 <? lo) = false) by lia. assert (R : (hi <? 0) = true) by lia.
  assert (E : line_eqb (0, b) line_e = false). { unfold line_eqb, line_e. cbn [fst snd]. unfold tmax. lia. }
  assert (Ev : lc_eval (0, b) 0 = Ok b).
  { unfold lc_eval. rewrite E. cbn [fst snd]. unfold i64. change ((-2 ^ 63 <=? 0 * 0) && (0 * 0 <? 2 ^ 63)) with true. cbn [bind].
    change (0 * 0 + b) with b. replace (_ && _) with true by lia. auto. }
  assert (Lt : (b <? tmax) = true) by (unfold tmax; lia). assert (Ge : (tmax <? b) = false) by (unfold tmax; lia).
  assert (A : lc_add false (LC [0] 0 1 0 [line_e; line_e]) lo hi 0 b = Ok (LC [0] 0 1 0 [line_e; (0, b)])).
  { unfold lc_add. cbn [bind lc_pos lc_n lc_m Compress_model.lower_bound Compress_model.upper_bound]. unfold Compress_model.lower_bound, Compress_model.upper_bound.
    cbn [Compress_model.first_pos]. rewrite L, R. cbn [negb]. change (0 =? 0) with true. cbv iota. change (0 + 1) with 1. change (1 + 1) with 2. change (S (Z.to_nat 2)) with 3%nat.
    cbn [loop]. unfold lc_walk at 1. change (1 <? 2) with true. change (Z.odd 1) with true. change (Z.odd 2) with false. cbv iota.
    assert (I : lc_insert (LC [0] 0 1 0 [line_e; line_e]) 1 (0, b) = Ok (LC [0] 0 1 0 [line_e; (0, b)])).
    { unfold lc_insert. change (lc_range (LC [0] 0 1 0 [line_e; line_e]) 1) with (Ok (0, 1)). cbn [bind]. change (S (S (Z.to_nat (1 - 0)))) with 3%nat.
      cbn [loop lc_pos lc_seg lc_n lc_m lc_log]. unfold lc_body at 1. change (1 - 0 =? 0) with false. cbv iota.
      change (vget [line_e; line_e] 1) with (Ok line_e). change ((0 + 1) / 2) with 0. change (1 - 1) with 0. change (vget [0] 0) with (Ok 0). cbn [bind].
      rewrite !Ev. change (lc_eval line_e 0) with (Ok tmax). cbn [bind]. rewrite Lt. change (vset [line_e; line_e] 1 (0, b)) with (Ok [line_e; (0, b)]). cbn [bind]. rewrite Ge. reflexivity. }
    rewrite I. reflexivity. }
  split.
  - cbn [run lc_step]. rewrite A. cbn [bind]. unfold lc_query. cbn [lc_pos lc_m lc_seg]. change (Compress_model.lower_bound [0] 0) with 0. change (vget [0] 0) with (Ok 0). cbn [bind].
    change (0 =? 0) with true. cbn [assert_ bind]. change (0 + 1) with 1. change (S (Z.to_nat 1)) with 2%nat. cbn [loop]. unfold lc_up at 1. change (1 =? 0) with false. cbv iota.
    change (vget [line_e; (0, b)] 1) with (Ok (0, b)). cbn [bind]. rewrite Ev. cbn [bind]. rewrite E. change (1 / 2) with 0. unfold lc_up. change (0 =? 0) with true. cbn [bind andb].
    replace (Z.min tmax b) with b by (unfold tmax; lia). reflexivity.
  - unfold values_at. cbn [filter]. unfold covers. cbn [sg_lo sg_hi]. replace (0 <=? hi) with false by lia. rewrite andb_false_r. reflexivity.
Qed.
Print Assumptions li_chao_no_coordinates_refuted.

Example li_chao_example :
  let xs := [5; -3; 0; 5; 2; 7] in
  let ops := [LcQuery 5; LcLine 1 1; LcAdd 0 5 (-2) 4; LcQuery 5; LcQuery (-3); LcQuery 0; LcAdd (-10) 2 0 (-7); LcQuery 2; LcQuery 7; LcQuery 1; LcQuery 2] in
  run (lc_spec false xs) [] ops = ([LcAns None; LcUnit; LcUnit; LcAns (Some (-6)); LcAns (Some (-2)); LcAns (Some 1); LcUnit; LcAns (Some (-7)); LcAns (Some 8)], Abort) /\
  run (lc_spec true xs) [] ops = ([LcAns None; LcUnit; LcUnit; LcAns (Some 6); LcAns (Some (-2)); LcAns (Some 4); LcUnit; LcAns (Some 3); LcAns (Some 8)], Abort).
Proof. split; reflexivity. Qed.
