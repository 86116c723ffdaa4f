(* Model of datastructure/bit_vector.hpp.  The generator is a function that may fail;
   the assignment operators copy and are not modelled. *)
From Verif Require Import Base.

Record bitvec := BV { bv_n : Z; bv_nl : Z; bv_ns : Z; cum_l : list Z; cum_s : list Z; bits : list Z }.
Definition u8 (x : Z) : Z := x mod 256.
Definition LOG_BLOCK_L := 8.
Definition LOG_BLOCK_S := 3.
Definition MASK_S := Z.shiftl 1 LOG_BLOCK_S - 1.

(* bit_vector.hpp:11-12 *)
Definition bv_new (n : Z) : bitvec :=
  let nl := Z.shiftr n LOG_BLOCK_L + 1 in
  let ns := Z.shiftr n LOG_BLOCK_S + 1 in
  BV n nl ns (vrep nl 0) (vrep ns 0) (vrep ns 0).

(* bit_vector.hpp:31-35 and 44: bits[blk] |= b << (i & MASK_S) *)
Definition put_bit (bits : list Z) (blk i : Z) (b : bool) : res (list Z) :=
  let* w := vget bits blk in
  vset bits blk (u8 (Z.lor w (Z.shiftl (Z.b2z b) (Z.land i MASK_S)))).

(* bit_vector.hpp:26-45 *)
Definition bv_build (v : bitvec) (gen : Z -> res bool) : res bitvec :=
  let* (i, cl, cs, bt) := for_ 1 (bv_ns v) (fun index_s '(i, cl, cs, bt) =>
    let* count := vget cs (index_s - 1) in
    let* (count, bt) := for_ i (Z.shiftl index_s LOG_BLOCK_S) (fun i '(count, bt) =>
      let* b := gen i in
      let* bt := put_bit bt (index_s - 1) i b in
      Ok (count + Z.b2z b, bt)) (count, bt) in
    let i := Z.max i (Z.shiftl index_s LOG_BLOCK_S) in
    if negb (Z.land index_s (Z.shiftl 1 (LOG_BLOCK_L - LOG_BLOCK_S) - 1) =? 0) then
      let* cs := vset cs index_s (u8 count) in
      Ok (i, cl, cs, bt)
    else
      let index_l := Z.shiftr i LOG_BLOCK_L in
      let* p := vget cl (index_l - 1) in
      let* cl := vset cl index_l (p + count) in
      Ok (i, cl, cs, bt)) (0, cum_l v, cum_s v, bits v) in
  let* bt := for_ i (bv_n v) (fun i bt =>
    let* b := gen i in
    put_bit bt (bv_ns v - 1) i b) bt in
  Ok (BV (bv_n v) (bv_nl v) (bv_ns v) cl cs bt).

(* bit_vector.hpp:13-16 *)
Definition bv_make (n : Z) (gen : Z -> res bool) : res bitvec := bv_build (bv_new n) gen.

(* bit_vector.hpp:79-83 *)
Definition popcount8 (x : Z) : Z :=
  let x := u8 (Z.land x 85 + Z.land (Z.shiftr x 1) 85) in
  let x := u8 (Z.land x 51 + Z.land (Z.shiftr x 2) 51) in
  u8 (Z.land x 15 + Z.shiftr x 4).

(* bit_vector.hpp:46-52 *)
Definition bv_access (v : bitvec) (i : Z) : res bool :=
  let* w := vget (bits v) (Z.shiftr i LOG_BLOCK_S) in
  Ok (negb (Z.land (Z.shiftr w (Z.land i MASK_S)) 1 =? 0)).

(* bit_vector.hpp:54-57 *)
Definition bv_rank (v : bitvec) (val : bool) (i : Z) : res Z :=
  let* a := vget (cum_l v) (Z.shiftr i LOG_BLOCK_L) in
  let* b := vget (cum_s v) (Z.shiftr i LOG_BLOCK_S) in
  let* w := vget (bits v) (Z.shiftr i LOG_BLOCK_S) in
  let res_1 := a + b + popcount8 (u8 (Z.land w (Z.shiftl 1 (Z.land i MASK_S) - 1))) in
  Ok (if val then res_1 else i - res_1).

(* bit_vector.hpp:59-61 *)
Definition bv_rank_range (v : bitvec) (val : bool) (l r : Z) : res Z :=
  let* a := bv_rank v val r in
  let* b := bv_rank v val l in
  Ok (a - b).

(* bit_vector.hpp:63-70 *)
Definition bv_select (v : bitvec) (val : bool) (num default_value : Z) : res Z :=
  let* r := loop (S (Z.to_nat (bv_n v + 2))) (fun '(l, r) =>
    if 1 <? r - l then
      let m := Z.shiftr (l + r) 1 in
      let* k := bv_rank v val m in
      Ok (inl (if num <=? k then (l, m) else (m, r)))
    else Ok (inr r)) (-1, bv_n v + 1) in
  Ok (if r =? bv_n v + 1 then default_value else r).
