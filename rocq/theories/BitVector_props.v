(* C26: BitVector.  [count_upto p i] is the number of positions below i where p holds. *)
From Verif Require Import Base BitVector_model BitVector_spec BitVector_proof.

(* C26.  For every number of bits and every content, building terminates without undefined
   behaviour; access returns the bit, rank(b, i) counts the bits equal to b among the first
   i for every i <= n, rank over a range counts those in the range, and select returns the
   default value when fewer than num bits equal b, and otherwise one more than the position
   of the num-th bit equal to b, that is the least i with rank(b, i) >= num. *)
Theorem bit_vector_queries :
  forall (n : Z) (f : Z -> bool),
    0 <= n ->
    exists v, bv_make n (fun i => Ok (f i)) = Ok v /\
      (forall i, 0 <= i < n -> bv_access v i = Ok (f i)) /\
      (forall b i, 0 <= i <= n -> bv_rank v b i = Ok (count_upto (fun j => Bool.eqb (f j) b) i)) /\
      (forall b l r, 0 <= l <= r -> r <= n ->
         bv_rank_range v b l r = Ok (zlen (filter (fun j => (l <=? j) && Bool.eqb (f j) b) (zrange r)))) /\
      (forall b num d, count_upto (fun j => Bool.eqb (f j) b) n < num -> bv_select v b num d = Ok d) /\
      (forall b num d p, 0 <= p < n -> f p = b -> count_upto (fun j => Bool.eqb (f j) b) p = num - 1 ->
         bv_select v b num d = Ok (p + 1)).
Proof. exact bit_vector_all. Qed.
Print Assumptions bit_vector_queries.

Example bit_vector_example :
  exists v, bv_make 600 (fun i => Ok (i mod 3 =? 0)) = Ok v /\
    bv_access v 300 = Ok true /\ bv_rank v true 301 = Ok 101 /\ bv_rank v false 600 = Ok 400 /\
    bv_rank_range v true 250 262 = Ok 4 /\ bv_select v true 101 (-1) = Ok 301 /\ bv_select v true 201 (-1) = Ok (-1).
Proof. eexists. split; [vm_compute; reflexivity|]. repeat split; vm_compute; reflexivity. Qed.

(* C26, the failing case: the source documents select as "the index of the num'th val", but
   whenever that index exists the value returned is a different one. *)
Theorem bit_vector_select_refuted :
  forall (n : Z) (f : Z -> bool) (b : bool) (num d p : Z),
    0 <= p < n -> f p = b -> count_upto (fun j => Bool.eqb (f j) b) p = num - 1 ->
    exists v, bv_make n (fun i => Ok (f i)) = Ok v /\ bv_select v b num d <> Ok p.
Proof. exact bit_vector_select_wrong. Qed.
Print Assumptions bit_vector_select_refuted.
