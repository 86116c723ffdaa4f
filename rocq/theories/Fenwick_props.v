(* Properties C07, C08, C43. *)
From Verif Require Import Base Seq Hist Fenwick_model Fenwick_spec Fenwick_run.
From Verif Require Fenwick_proof2.

(* C07: built from any vector, every history of add / -= / = / sum / [] answers
   as the plain vector does. *)
Theorem fenwick_history :
  forall (T : Type) (zero : T) add sub neg v ops, is_abgroup zero add sub neg ->
  snd (run (fspec zero add sub) v ops) <> UB ->
  exists s, fen_of add v = Ok s /\ run (fstep zero add sub neg) s ops = run (fspec zero add sub) v ops.
Proof. exact @Fenwick_proof2.fenwick_history_. Qed.
Print Assumptions fenwick_history.

(* C07: the same from the zero vector of length n *)
Theorem fenwick_zero_history :
  forall (T : Type) (zero : T) add sub neg n ops, is_abgroup zero add sub neg -> 0 <= n ->
  snd (run (fspec zero add sub) (vrep n zero) ops) <> UB ->
  run (fstep zero add sub neg) (fen_zero zero n) ops = run (fspec zero add sub) (vrep n zero) ops.
Proof. exact @Fenwick_proof2.fenwick_zero_history_. Qed.
Print Assumptions fenwick_zero_history.

Example fenwick_group_example : is_abgroup 0 Z.add Z.sub Z.opp.
Proof. constructor; intros; ring. Qed.
Example fenwick_example :
  let ops := [FSum 0 7; FAdd 3 100; FSum 2 5; FSet 0 50; FGet 0; FSub 6 7; FSum 0 7; FSum 4 4] in
  run (fspec 0 Z.add Z.sub) [1; 2; 3; 4; 5; 6; 7] ops
    = ([FVal 28; FUnit; FVal 112; FUnit; FVal 50; FUnit; FVal 170; FVal 0], Ok tt) /\
  (let* s := fen_of Z.add [1; 2; 3; 4; 5; 6; 7] in Ok (run (fstep 0 Z.add Z.sub Z.opp) s ops))
    = Ok (run (fspec 0 Z.add Z.sub) [1; 2; 3; 4; 5; 6; 7] ops).
Proof. vm_compute; split; reflexivity. Qed.

(* C08 *)
Theorem fenwick_prefix_history :
  forall (T : Type) (op : T -> T -> T) e n ops,
  is_monoid op e -> (forall a b, op a b = op b a) -> 0 <= n ->
  snd (run (pspec op e) (vrep n e) ops) <> UB ->
  run (pstep op e) (fpre_init e n) ops = run (pspec op e) (vrep n e) ops.
Proof. exact @Fenwick_proof2.fenwick_prefix_history_. Qed.
Print Assumptions fenwick_prefix_history.

Example fenwick_prefix_example :
  run (pstep Z.max 0) (fpre_init 0 6) [PApply 2 5; PApply 0 3; PQuery 2; PQuery 3; PApply 5 9; PQuery 6; PQuery 5; PQuery 0]
  = ([FUnit; FUnit; FVal 3; FVal 5; FUnit; FVal 9; FVal 5; FVal 0], Ok tt).
Proof. vm_compute; reflexivity. Qed.

(* C08, finding: the constructor from a vector does not establish the same
   invariant; sum over a prefix of [1;2;3;4]. *)
Theorem fenwick_prefix_constructor_refuted :
  exists (v : list Z) (r : Z) s, 0 <= r <= zlen v /\
    fpre_of Z.add 0 v = Ok s /\
    fpre_query Z.add 0 s r <> Ok (fold_right Z.add 0 (slice 0 r v)).
Proof.
  exists [1; 2; 3; 4], 4. eexists. split; [vm_compute; split; discriminate|]. split; [vm_compute; reflexivity|].
  vm_compute. discriminate.
Qed.
Print Assumptions fenwick_prefix_constructor_refuted.

(* C43 *)
Theorem fenwick_2d_history :
  forall (T : Type) (zero : T) add sub neg n m ops, is_abgroup zero add sub neg -> 0 <= n -> 0 <= m ->
  snd (run (f2spec zero add m) (vrep n (vrep m zero)) ops) <> UB ->
  run (f2step zero add sub) (fen2_zero zero n m) ops = run (f2spec zero add m) (vrep n (vrep m zero)) ops.
Proof. exact @Fenwick_proof2.fenwick_2d_history_. Qed.
Print Assumptions fenwick_2d_history.

Example fenwick_2d_example :
  let ops := [F2Add 0 0 1; F2Add 2 3 10; F2Add 1 1 100; F2Sum 0 3 0 4; F2Sum 1 3 1 4; F2Sum 0 2 0 2; F2Sum 2 3 3 4] in
  run (f2step 0 Z.add Z.sub) (fen2_zero 0 3 4) ops
  = ([FUnit; FUnit; FUnit; FVal 111; FVal 110; FVal 101; FVal 10], Ok tt).
Proof. vm_compute; reflexivity. Qed.
