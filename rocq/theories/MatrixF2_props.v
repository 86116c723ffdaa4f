(* C33, C48: linear algebra over F2 *)
From Verif Require Import Base MatrixF2_model MatrixF2_spec MatrixF2_proof MatrixF2_proof2 MatrixF2_proof3.

(* C48.  det() is 1 exactly when only the zero vector is mapped to zero. *)
Theorem matrix_f2_det :
  forall n a, 0 <= n -> shape n n a ->
  exists b, mf_det n a = Ok b /\ (b = true <-> forall x, kernel n a x -> x = zeros n).
Proof. exact det_ok. Qed.
Print Assumptions matrix_f2_det.

(* C48.  inv() gives the inverse map, or nothing when some nonzero vector is mapped to zero. *)
Theorem matrix_f2_inv :
  forall n a, 0 <= n -> shape n n a ->
  exists o, mf_inv n n a = Ok o /\
    match o with
    | Some b => shape n n b /\ forall x y, zlen x = n -> zlen y = n -> (times a x = y <-> x = times b y)
    | None => exists x, kernel n a x /\ x <> zeros n
    end.
Proof. exact inv_ok. Qed.
Print Assumptions matrix_f2_inv.

(* C48.  Sum, product, application to a vector and powers. *)
Theorem matrix_f2_add :
  forall n m x y, 0 <= n -> shape n m x -> shape n m y ->
  exists z, mf_add x y n m n m = Ok z /\ shape n m z /\ forall v, zlen v = m -> times z v = plus (times x v) (times y v).
Proof. exact add_mat_ok. Qed.
Print Assumptions matrix_f2_add.
Theorem matrix_f2_mul :
  forall n m p x y, 0 <= n -> 0 <= m -> 0 <= p -> shape n m x -> shape m p y ->
  exists z, mf_mul n m m p x y = Ok z /\ shape n p z /\ forall v, zlen v = p -> times z v = times x (times y v).
Proof. exact mul_ok. Qed.
Print Assumptions matrix_f2_mul.
Theorem matrix_f2_apply :
  forall n m a x, 0 <= n -> shape n m a -> zlen x = m -> mf_apply n m a x = Ok (times a x).
Proof. exact apply_ok. Qed.
Print Assumptions matrix_f2_apply.
Theorem matrix_f2_pow :
  forall n a b, 0 <= n -> shape n n a -> 0 <= b < 2 ^ 63 ->
  exists r, mf_pow n n a b = Ok r /\ shape n n r /\ forall v, zlen v = n -> times r v = Nat.iter (Z.to_nat b) (times a) v.
Proof. exact pow_ok. Qed.
Print Assumptions matrix_f2_pow.

(* C48.  rank() is m minus the dimension of the kernel, if the rank is below the number of rows
   or there are at least as many rows as columns; a 1 x 2 matrix of rank 1 reads past its rows. *)
Theorem matrix_f2_rank :
  forall n m a d, 0 <= n -> 0 <= m -> shape n m a -> 0 <= d -> dim (kernel m a) d -> m <= n \/ m - d < n ->
  mf_rank n m a = Ok (m - d).
Proof. exact rank_ok. Qed.
Print Assumptions matrix_f2_rank.
Theorem matrix_f2_rank_refuted : ~ forall n m a d, 0 <= n -> 0 <= m -> shape n m a -> 0 <= d -> dim (kernel m a) d -> mf_rank n m a = Ok (m - d).
Proof. exact rank_bad. Qed.
Print Assumptions matrix_f2_rank_refuted.

(* C33.  The particular solution is right, its absence means there is none, the basis consists of
   independent solutions of the homogeneous system, and they span them all provided the rank is
   below the number of rows or there are at least as many rows as columns. *)
Theorem gaussian_f2_solution :
  forall n m a b, 0 <= n -> 0 <= m -> shape n m a -> zlen b = n ->
  exists s, gaussian_elimination_f2 n m a b = Ok s /\
    match ss_solution s with
    | None => (forall x, zlen x = m -> times a x <> b) /\ ss_basis s = []
    | Some x => zlen x = m /\ times a x = b /\ (forall v, In v (ss_basis s) -> kernel m a v) /\
        dim (spanned m (ss_basis s)) (zlen (ss_basis s)) /\
        ((m <= n \/ exists d, 0 <= d /\ dim (kernel m a) d /\ m - d < n) ->
         forall y, zlen y = m -> (times a y = b <-> exists k, spanned m (ss_basis s) k /\ y = plus x k))
    end.
Proof. exact gauss_ok. Qed.
Print Assumptions gaussian_f2_solution.
(* C33.  Without that proviso the basis misses solutions. *)
Theorem gaussian_f2_basis_refuted :
  ~ forall n m a b s x, 0 <= n -> 0 <= m -> shape n m a -> zlen b = n -> gaussian_elimination_f2 n m a b = Ok s -> ss_solution s = Some x ->
    forall y, zlen y = m -> times a y = b -> exists k, spanned m (ss_basis s) k /\ y = plus x k.
Proof. exact gauss_bad. Qed.
Print Assumptions gaussian_f2_basis_refuted.
(* C33.  normalized() aborts on its own assertion for every solution space with a nonempty basis. *)
Theorem solution_space_normalized_refuted :
  forall s, ss_basis s <> [] -> ss_normalized s = Abort.
Proof. exact normalized_bad. Qed.
Print Assumptions solution_space_normalized_refuted.

Example matrix_f2_example :
  let a := [[true; true; false]; [false; true; true]; [true; false; true]] in
  let b := [[true; true]; [false; true]] in
  shape 3 3 a /\ mf_det 3 a = Ok false /\ mf_inv 3 3 a = Ok None /\ mf_rank 3 3 a = Ok 2 /\
  mf_det 2 b = Ok true /\ mf_inv 2 2 b = Ok (Some b) /\ mf_pow 2 2 b 3 = Ok b /\
  mf_mul 2 2 2 2 b b = Ok [[true; false]; [false; true]] /\
  gaussian_elimination_f2 3 3 a [true; false; true] = Ok {| normalized_flag := false; ss_solution := Some [true; false; false]; ss_basis := [[true; true; true]] |} /\
  gaussian_elimination_f2 3 3 a [true; false; false] = Ok {| normalized_flag := false; ss_solution := None; ss_basis := [] |} /\
  ss_normalized {| normalized_flag := false; ss_solution := Some [true; false; false]; ss_basis := [[true; true; true]] |} = Abort.
Proof.
  cbv zeta. split; [|vm_compute; repeat split].
  split; [reflexivity|]. intros r H. repeat (destruct H as [<-|H]; [reflexivity|]). destruct H.
Qed.
