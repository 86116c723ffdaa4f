(* C115: a vector with a default value behaves as a total map from indices to values. *)
From Verif Require Import Base BaseLemmas Seq DVec_spec DVec_model DVec_proof.
(* after any history every int index, negative ones included, reads as the latest value put there or else the default; the size is one more than the largest index accessed *)
Theorem default_vector_map {T} (d : T) l h : zlen l < 2 ^ 31 -> Forall dop_ok h ->
  exists s, dv_run (dv_set_default (DV None l) d) h = Ok s /\ dv_size s = dsize l h /\
    (forall i, - 2 ^ 31 <= i < 2 ^ 31 -> dv_get s i = Ok (value d l h i)) /\
    (forall i t, - 2 ^ 31 <= i < 2 ^ 31 -> dv_get_or s i t = Ok (if (0 <=? i) && (i <? dsize l h) then value d l h i else t)) /\
    (forall i, 0 <= i < 2 ^ 31 - 1 -> exists s', dv_read s i = Ok (s', value d l h i)).
Proof.
  intros Hl H. destruct (run_ok d l h Hl H) as (s & E & I). exists s. split; [exact E|]. split; [now apply zlen_rep with (1 := proj1 (proj2 I))|]. repeat split.
  - intros i Hi. apply (get_ok _ _ _ _ _ I); auto. intros Hi0. unfold value. now rewrite stored_neg.
  - intros i t Hi. now apply (get_or_ok _ _ _ _ _ _ I).
  - intros i Hi. destruct (read_ok _ _ _ _ _ I Hi) as (s' & E' & _). eauto.
Qed.
Print Assumptions default_vector_map.
(* changing the default afterwards affects only the indices at or beyond the size: an index below the size that was never written keeps the old default *)
Theorem default_vector_change {T} (d d' : T) l h : zlen l < 2 ^ 31 -> Forall dop_ok h ->
  exists s, dv_run (dv_set_default (DV None l) d) h = Ok s /\
    forall i, - 2 ^ 31 <= i < 2 ^ 31 -> dv_get (dv_set_default s d') i = Ok (if (0 <=? i) && (i <? dsize l h) then value d l h i else d').
Proof. intros Hl H. destruct (run_ok d l h Hl H) as (s & E & I). exists s. split; [exact E|]. intros i Hi. exact (get_or_ok _ _ _ _ i d' I Hi). Qed.
Print Assumptions default_vector_change.
(* a negative index is not accepted by operator[] or at on a non-const vector: -1 empties the vector and then reads out of bounds, anything smaller throws *)
Theorem default_vector_negative {T} (s : dvec T) i x : zlen (dv_v s) < 2 ^ 31 -> - 2 ^ 31 <= i < 0 ->
  dv_write s i x = (if i =? -1 then UB else Abort) /\ dv_read s i = (if i =? -1 then UB else Abort).
Proof.
  intros Hs Hi. unfold dv_write, dv_read, dv_ref. rewrite oob_spec by lia. rewrite (proj2 (Z.leb_gt 0 i)) by lia. cbn [negb andb].
  unfold i32. rewrite (proj2 (Z.leb_le _ (i + 1))), (proj2 (Z.ltb_lt (i + 1) _)) by lia. cbn [andb bind]. unfold dv_resize. destruct (Z.eqb_spec i (-1)) as [->|N].
  - cbn. rewrite (proj2 (Z.leb_le 0 (zlen (dv_v s)))) by (unfold zlen; lia). split; reflexivity.
  - rewrite (proj2 (Z.ltb_lt (i + 1) 0)) by lia. split; reflexivity.
Qed.
Print Assumptions default_vector_negative.
(* without set_default_value the first access beyond the end reads an uninitialised value *)
Theorem default_vector_unset {T} (l : list T) i : zlen l < 2 ^ 31 -> zlen l <= i < 2 ^ 31 - 1 -> dv_read (DV None l) i = UB /\ dv_get (DV None l) i = UB.
Proof.
  intros Hl Hi. unfold dv_read, dv_get, dv_ref. rewrite oob_spec by (cbn; unfold zlen in *; lia). cbn [dv_v].
  rewrite (proj2 (Z.leb_le 0 i)), (proj2 (Z.ltb_ge i (zlen l))) by (unfold zlen in *; lia). cbn [negb andb]. split; [|reflexivity].
  unfold i32. rewrite (proj2 (Z.leb_le _ (i + 1))), (proj2 (Z.ltb_lt (i + 1) _)) by (unfold zlen in *; lia). cbn [andb bind]. unfold dv_resize. cbn [dv_v].
  rewrite (proj2 (Z.ltb_ge (i + 1) 0)), (proj2 (Z.leb_gt (i + 1) (zlen l))) by (unfold zlen in *; lia). reflexivity.
Qed.
Print Assumptions default_vector_unset.
Example default_vector_example :
  let h := [Write 1 40; Resize 3; Touch 6; Write 4 20] in
  Forall dop_ok h /\ dsize [7] h = 3 /\ map (value 9 [7] h) [-5; 0; 1; 2; 4; 100] = [9; 7; 40; 9; 9; 9] /\
  (let* s := dv_run (dv_set_default (DV None [7]) 9) h in Ok (dv_v s)) = Ok [7; 40; 9].
Proof. cbn zeta. split; [repeat constructor; cbn; lia|]. repeat split; vm_compute; reflexivity. Qed.
