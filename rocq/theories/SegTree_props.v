(* Properties C09, C10, C44. *)
From Verif Require Import Base Seq Hist SegTree_model SegTree_spec SegTree_run.
From Verif Require SegTree_proof LazySeg_proof2.

(* C09: for every monoid, commutative or not, and every history of set / apply /
   get / prod / prefix_prod / suffix_prod / all_prod / build calls within the
   contract, the tree answers as the plain vector does. *)
Theorem segment_tree_history :
  forall (T : Type) (op : T -> T -> T) e v ops, is_monoid op e ->
  snd (run (sgspec op e) v ops) <> UB ->
  exists s, seg_of op e v = Ok s /\ run (sgstep op e) s ops = run (sgspec op e) v ops.
Proof. exact @SegTree_proof.segment_tree_history_. Qed.
Print Assumptions segment_tree_history.

(* composition of affine maps x -> a x + b: not commutative *)
Definition aff (f g : Z * Z) : Z * Z := (fst f * fst g, fst g * snd f + snd g).
Example aff_monoid : is_monoid aff (1, 0).
Proof.
  constructor.
  - intros [a b] [c d] [x y]. unfold aff; cbn [fst snd]. f_equal; ring.
  - intros [a b]. unfold aff; cbn [fst snd]. f_equal; ring.
  - intros [a b]. unfold aff; cbn [fst snd]. f_equal; ring.
Qed.
Example segment_tree_example :
  let v := [(1, 2); (3, 4); (5, 6); (7, 8); (9, 10)] in
  let ops := [SgProd 1 4; SgSet 2 (0, 1); SgProd 1 4; SgApply 0 (fun x => aff x x); SgGet 0; SgPrefix 3; SgSuffix 3;
              SgBuild [(2, 0)]; SgAll; SgGet 5] in
  run (sgspec aff (1, 0)) v ops
   = ([SgVal (105, 190); SgUnit; SgVal (0, 15); SgUnit; SgVal (1, 4); SgVal (0, 1); SgVal (63, 82); SgUnit; SgVal (0, 145)], Abort) /\
  (let* s := seg_of aff (1, 0) v in Ok (run (sgstep aff (1, 0)) s ops)) = Ok (run (sgspec aff (1, 0)) v ops).
Proof. vm_compute; split; reflexivity. Qed.

(* C10: range apply, point apply, set, get, prod, prefix_prod, all_prod and
   (C44) the searches max_right and min_left *)
Theorem lazy_segment_tree_history :
  forall (T F : Type) (op : T -> T -> T) e (mapping : F -> T -> T) comp idf v ops,
  is_monoid op e -> is_action op mapping comp idf ->
  snd (run (lsspec op e mapping) v ops) <> UB ->
  exists s, lseg_of op e idf v = Ok s /\ run (lsstep op e mapping comp idf) s ops = run (lsspec op e mapping) v ops.
Proof. exact @LazySeg_proof2.lazy_segment_tree_history_. Qed.
Print Assumptions lazy_segment_tree_history.

(* range affine update, range sum; elements are (sum, length) *)
Definition rop (x y : Z * Z) : Z * Z := (fst x + fst y, snd x + snd y).
Definition rmap (f x : Z * Z) : Z * Z := (fst f * fst x + snd f * snd x, snd x).
Definition rcomp (f g : Z * Z) : Z * Z := (fst f * fst g, fst f * snd g + snd f).
Example range_affine_laws : is_monoid rop (0, 0) /\ is_action rop rmap rcomp (1, 0).
Proof.
  split; constructor.
  - intros [a b] [c d] [x y]. unfold rop; cbn [fst snd]. f_equal; ring.
  - intros [a b]. unfold rop; cbn [fst snd]. f_equal; ring.
  - intros [a b]. unfold rop; cbn [fst snd]. f_equal; ring.
  - intros [a b] [c d] [x y]. unfold rop, rmap; cbn [fst snd]. f_equal; ring.
  - intros [a b] [c d] [x y]. unfold rmap, rcomp; cbn [fst snd]. f_equal; ring.
  - intros [x y]. unfold rmap; cbn [fst snd]. f_equal; ring.
Qed.
Example lazy_segment_tree_example :
  let v := map (fun x => (x, 1)) [1; 2; 3; 4; 5; 6] in
  let ops := [LsApply 1 5 (2, 1); LsProd 0 3; LsApply 0 6 (1, 10); LsGet 3; LsSet 2 (0, 1); LsApply 2 4 (3, 0); LsAll; LsPrefix 4;
              LsMaxRight 1 (fun x => fst x <=? 75); LsMinLeft 6 (fun x => fst x <=? 75); LsApply1 5 (0, 1); LsProd 4 6; LsApply 4 7 (1, 1)] in
  run (lsspec rop (0, 0) rmap) v ops
   = ([LsUnit; LsVal (13, 3); LsUnit; LsVal (19, 1); LsUnit; LsUnit; LsVal (120, 6); LsVal (83, 4);
       LsInt 4; LsInt 4; LsUnit; LsVal (22, 2)], Abort) /\
  (let* s := lseg_of rop (0, 0) (1, 0) v in Ok (run (lsstep rop (0, 0) rmap rcomp (1, 0)) s ops)) = Ok (run (lsspec rop (0, 0) rmap) v ops).
Proof. vm_compute; split; reflexivity. Qed.

(* C44, finding: min_left(n) on a tree whose length is a power of two >= 2
   pushes past the end of the lazy array, for every monoid and every content. *)
Theorem lazy_min_left_refuted :
  forall (T F : Type) (op : T -> T -> T) e (mapping : F -> T -> T) comp idf,
  is_action op mapping comp idf ->
  forall v h g s, 1 <= h -> zlen v = 2 ^ h -> g e = true -> lseg_of op e idf v = Ok s ->
  lseg_min_left op e mapping comp idf s (zlen v) g = UB.
Proof. exact @LazySeg_proof2.min_left_full. Qed.
Print Assumptions lazy_min_left_refuted.
Example lazy_min_left_refuted_example :
  (let* s := lseg_of rop (0, 0) (1, 0) [(1, 1); (2, 1)] in lseg_min_left rop (0, 0) rmap rcomp (1, 0) s 2 (fun _ => true)) = UB.
Proof. reflexivity. Qed.

(* C44, finding: suffix_prod passes the padded length where the length is expected *)
Theorem lazy_suffix_prod_refuted :
  exists v l s, 0 <= l <= zlen v /\ lseg_of rop (0, 0) (1, 0) v = Ok s /\ lseg_suffix rop (0, 0) rmap rcomp (1, 0) s l = Abort.
Proof. exists [(1, 1); (2, 1); (3, 1)], 1. eexists. split; [split; discriminate|]. split; vm_compute; reflexivity. Qed.
Print Assumptions lazy_suffix_prod_refuted.
