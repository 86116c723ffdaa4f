(* Model of library/util/coordinate_compressor.hpp and
   library/algorithm/inversion_number.hpp for integer keys.  std::sort is insertion
   sort, std::unique removes repeated neighbours, std::lower_bound / upper_bound /
   binary_search return the partition point of the sorted range. *)
From Verif Require Import Base Sorting.

(* std::unique + erase *)
Fixpoint unique (l : list Z) : list Z :=
  match l with
  | [] => []
  | x :: l' => match l' with
               | [] => [x]
               | y :: _ => if x =? y then unique l' else x :: unique l'
               end
  end.

(* the first position whose element satisfies [p]; the length if there is none *)
Fixpoint first_pos (p : Z -> bool) (l : list Z) : Z :=
  match l with [] => 0 | x :: l' => if p x then 0 else 1 + first_pos p l' end.
(* std::lower_bound / upper_bound with std::less: the first x with not (x < e), with e < x *)
Definition lower_bound (l : list Z) (e : Z) : Z := first_pos (fun x => negb (x <? e)) l.
Definition upper_bound (l : list Z) (e : Z) : Z := first_pos (fun x => e <? x) l.
(* with std::greater, over the reversed range *)
Definition lower_bound_gt (l : list Z) (e : Z) : Z := first_pos (fun x => negb (x >? e)) l.
Definition upper_bound_gt (l : list Z) (e : Z) : Z := first_pos (fun x => e >? x) l.

(* coordinate_compressor.hpp:84-86: adjacent_find with greater_equal *)
Fixpoint is_strictly_sorted (l : list Z) : bool :=
  match l with
  | [] => true
  | x :: l' => match l' with [] => true | y :: _ => negb (x >=? y) && is_strictly_sorted l' end
  end.

(* coordinate_compressor.hpp:21-23 *)
Definition compressor (xs : list Z) : res (list Z) := assert_ (is_strictly_sorted xs) ;;; Ok xs.
(* coordinate_compressor.hpp:124-127 (and 129-140, which first fill [_xs]) *)
Definition build (xs : list Z) : res (list Z) := compressor (unique (isort Z.leb xs)).

(* coordinate_compressor.hpp:26-28 *)
Definition cc_size (c : list Z) : Z := zlen c.
(* coordinate_compressor.hpp:30-32 *)
Definition has_key (c : list Z) (e : Z) : res bool :=
  let p := lower_bound c e in
  if p =? zlen c then Ok false else let* x := vget c p in Ok (negb (e <? x)).
(* coordinate_compressor.hpp:34-37, 43-45 *)
Definition comp (c : list Z) (e default_value : Z) : res Z :=
  let r := lower_bound c e in
  if negb (r =? cc_size c) then let* x := vget c r in Ok (if x =? e then r else default_value) else Ok default_value.
(* coordinate_compressor.hpp:39-41 *)
Definition decomp (c : list Z) (i : Z) : res Z := vget c i.
(* coordinate_compressor.hpp:47-50 *)
Definition min_gt (c : list Z) (e d : Z) : res Z := let p := upper_bound c e in if p =? zlen c then Ok d else vget c p.
(* coordinate_compressor.hpp:52-55 *)
Definition min_geq (c : list Z) (e d : Z) : res Z := let p := lower_bound c e in if p =? zlen c then Ok d else vget c p.
(* coordinate_compressor.hpp:57-60 *)
Definition max_lt (c : list Z) (e d : Z) : res Z := let p := upper_bound_gt (rev c) e in if p =? zlen c then Ok d else vget (rev c) p.
(* coordinate_compressor.hpp:62-65 *)
Definition max_leq (c : list Z) (e d : Z) : res Z := let p := lower_bound_gt (rev c) e in if p =? zlen c then Ok d else vget (rev c) p.
(* coordinate_compressor.hpp:67-69, 71-73 *)
Definition min_gt_index (c : list Z) (e : Z) : Z := upper_bound c e.
Definition min_geq_index (c : list Z) (e : Z) : Z := lower_bound c e.
(* coordinate_compressor.hpp:75-77, 79-81 *)
Definition max_lt_index (c : list Z) (e : Z) : Z := (zlen c - upper_bound_gt (rev c) e) - 1.
Definition max_leq_index (c : list Z) (e : Z) : Z := (zlen c - lower_bound_gt (rev c) e) - 1.

(* atcoder::fenwick_tree<int>, not part of the repository: an array of counters with
   point addition and prefix sums *)
Definition ft_sum (ft : list Z) (j : Z) : res Z :=
  if (0 <=? j) && (j <=? zlen ft) then Ok (fold_right Z.add 0 (firstn (Z.to_nat j) ft)) else Abort.
Definition ft_add (ft : list Z) (j v : Z) : res (list Z) :=
  if (0 <=? j) && (j <? zlen ft) then let* x := vget ft j in vset ft j (x + v) else Abort.

(* inversion_number.hpp:9-20; [cmp[a[i]]] is [comp] with the default -1; ans is a long
   long, modelled without bound *)
Definition inversion_number (a : list Z) : res Z :=
  let n := zlen a in
  let* cmp := build a in
  let* st := ford_ (n - 1) (-1) (fun i '(ans, ft) =>
    let* x := vget a i in
    let* j := comp cmp x (-1) in
    let* s := ft_sum ft j in
    let* ft := ft_add ft j 1 in
    Ok (ans + s, ft)) (0, vrep (cc_size cmp) 0) in
  Ok (fst st).
