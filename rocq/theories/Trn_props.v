(* C112: transposition and rotation of rectangular arrays. *)
From Verif Require Import Base Trn_spec Trn_model Trn_proof.
(* N rows of M entries, N > 0: the result has M rows of N entries, and row j of it is column j *)
Theorem transpose_correct {T} (d : T) N M A : rectangular N M A -> 0 < N ->
  exists B, transpose d A = Ok B /\ rectangular M N B /\ forall i j, 0 <= i < N -> 0 <= j < M -> cell B j i = cell A i j.
Proof. exact (transpose_ok d N M A). Qed.
Print Assumptions transpose_correct.
(* rotation by 90 degrees anticlockwise: the last column becomes the first row *)
Theorem rot90_correct {T} (d : T) N M A : rectangular N M A -> 0 < N ->
  exists B, rot90 d A = Ok B /\ rectangular M N B /\ forall i j, 0 <= i < N -> 0 <= j < M -> cell B (M - 1 - j) i = cell A i j.
Proof. exact (rot90_ok d N M A). Qed.
Print Assumptions rot90_correct.
(* on arrays with at least one entry, two transpositions and four rotations change nothing *)
Theorem transpose_rot90_period {T} (d : T) N M A : rectangular N M A -> 0 < N -> 0 < M ->
  (let* B := transpose d A in transpose d B) = Ok A /\ (let* B := rot90 d A in let* C := rot90 d B in let* D := rot90 d C in rot90 d D) = Ok A.
Proof. exact (fun R HN HM => conj (transpose2 d N M A R HN HM) (rot4 d N M A R HN HM)). Qed.
Print Assumptions transpose_rot90_period.
Example rectangular_example : rectangular 2 3 [[1; 2; 3]; [4; 5; 6]] /\ transpose 0 [[1; 2; 3]; [4; 5; 6]] = Ok [[1; 4]; [2; 5]; [3; 6]] /\ rot90 0 [[1; 2; 3]; [4; 5; 6]] = Ok [[3; 6]; [2; 5]; [1; 4]].
Proof. split; [|split; reflexivity]. split; [reflexivity|]. intros row [<-|[<-|[]]]; reflexivity. Qed.
(* without entries the number of rows is lost: transposing twice is then not the identity *)
Theorem transpose_twice_no_columns_refuted : exists A : list (list Z), rectangular 2 0 A /\ (let* B := transpose 0 A in transpose 0 B) <> Ok A.
Proof. exists [[]; []]. split; [|discriminate]. split; [reflexivity|]. intros row [<-|[<-|[]]]; reflexivity. Qed.
Print Assumptions transpose_twice_no_columns_refuted.
