(* C13: SparseTable. *)
From Verif Require Import Base Seq SparseTable_model SparseTable_proof.

(* for every idempotent monoid, nonempty vector and range: the ordered product;
   [d0] is the arbitrary value [resize] puts in fresh rows *)
Theorem sparse_table_prod {T} (op : T -> T -> T) (e d0 : T) (a : list T) :
  is_monoid op e -> (forall x, op x x = x) -> 0 < zlen a ->
  exists s, sp_of op d0 a = Ok s /\
    forall l r, (0 <= l /\ r <= zlen a) \/ r <= l ->
      sp_prod op e s l r = Ok (fold_right op e (slice l r a)).
Proof. exact (fun M I H => sparse_table_ok op e d0 M I a H). Qed.
Print Assumptions sparse_table_prod.

Example sparse_table_example :
  is_monoid Z.lor 0 /\ (forall x, Z.lor x x = x) /\
  (let* s := sp_of Z.lor 0 [1; 2; 4; 8; 16; 3; 64] in
   let* x := sp_prod Z.lor 0 s 1 6 in let* y := sp_prod Z.lor 0 s 2 7 in let* z := sp_prod Z.lor 0 s 4 4 in Ok [x; y; z]) = Ok [31; 95; 0].
Proof.
  split; [|split].
  - constructor; intros; [apply Z.lor_assoc|reflexivity|apply Z.lor_0_r].
  - exact Z.lor_diag.
  - vm_compute. reflexivity.
Qed.

(* the empty vector is outside the contract: the constructor takes the logarithm of 0 *)
Theorem sparse_table_empty {T} (op : T -> T -> T) (d0 : T) : sp_of op d0 [] = UB.
Proof. exact eq_refl. Qed.
Print Assumptions sparse_table_empty.
