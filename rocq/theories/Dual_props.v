(* Property C69. *)
From Verif Require Import Base Hist Dual_model Dual_spec.
From Verif Require Dual_proof.

(* DualSegmentTree: for every set of maps closed under composition, commuting or not, and every
   history of apply / get calls within 0 <= l <= r <= n, the tree answers as the plain vector. *)
Theorem dual_segment_tree_history :
  forall (T F : Type) (mapping : F -> T -> T) comp idf v ops,
  is_act mapping comp idf ->
  snd (run (duspec mapping) v ops) <> UB ->
  exists s, dual_of idf v = Ok s /\ run (dustep mapping comp idf) s ops = run (duspec mapping) v ops.
Proof. intros. now apply Dual_proof.dual_history_. Qed.
Print Assumptions dual_segment_tree_history.

(* CommutativeDualSegmentTree: the same when the maps commute, for every history of calls. *)
Theorem commutative_dual_segment_tree_history :
  forall (T F : Type) (mapping : F -> T -> T) comp idf v ops,
  is_act mapping comp idf ->
  (forall f g x, mapping f (mapping g x) = mapping g (mapping f x)) ->
  exists s, dual_of idf v = Ok s /\ run (cdustep mapping comp) s ops = run (cduspec mapping) v ops.
Proof. intros. now apply Dual_proof.cdual_history_. Qed.
Print Assumptions commutative_dual_segment_tree_history.

Definition aff_map (f : Z * Z) (x : Z) : Z := fst f * x + snd f.
Definition aff_comp (f g : Z * Z) : Z * Z := (fst f * fst g, fst f * snd g + snd f).
Example aff_act : is_act aff_map aff_comp (1, 0).
Proof. constructor; [intros [a b] [c d] x|intro x]; unfold aff_map, aff_comp; cbn [fst snd]; ring. Qed.
Example add_act : is_act Z.add Z.add 0 /\ forall f g x : Z, f + (g + x) = g + (f + x).
Proof. split; [constructor|]; intros; ring. Qed.

Example dual_example :
  let v := [1; 2; 3; 4; 5] in
  let ops := [DuApply 1 4 (2, 0); DuApply 0 3 (1, 10); DuGet 2; DuGet 3; DuApply 2 5 (-1, 0); DuGet 2; DuGet 4; DuGet 5] in
  run (duspec aff_map) v ops = ([DuUnit; DuUnit; DuVal 16; DuVal 8; DuUnit; DuVal (-16); DuVal (-5)], Abort) /\
  (let* s := dual_of (1, 0) v in Ok (run (dustep aff_map aff_comp (1, 0)) s ops)) = Ok (run (duspec aff_map) v ops).
Proof. vm_compute; split; reflexivity. Qed.
Example cdual_example :
  let v := [1; 2; 3; 4; 5] in
  let ops := [DuApply 1 4 20; DuApply 0 3 300; DuGet 2; DuGet 3; DuApply 4 1 7; DuGet 2; DuApply (-1) 2 1] in
  run (cduspec Z.add) v ops = ([DuUnit; DuUnit; DuVal 323; DuVal 24; DuUnit; DuVal 323], Abort) /\
  (let* s := dual_of 0 v in Ok (run (cdustep Z.add Z.add) s ops)) = Ok (run (cduspec Z.add) v ops).
Proof. vm_compute; split; reflexivity. Qed.

(* the commutative tree really needs commuting maps: with x -> 2x and x -> x + 10 it gives 26 for 2 * 3 + 10 = 16 *)
Example cdual_needs_commuting :
  let v := [1; 2; 3; 4] in
  let ops := [DuApply 0 4 (2, 0); DuApply 2 3 (1, 10); DuGet 2] in
  run (cduspec aff_map) v ops = ([DuUnit; DuUnit; DuVal 16], Ok tt) /\
  (let* s := dual_of (1, 0) v in Ok (run (cdustep aff_map aff_comp) s ops)) = Ok ([DuUnit; DuUnit; DuVal 26], Ok tt).
Proof. vm_compute; split; reflexivity. Qed.
