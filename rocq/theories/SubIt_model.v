(* Model of library/util/subset_iterator.hpp.  W is the number of bits of the integer type: 32 or 64 (all_subset: any unsigned T).  A range-based for loop over
   one of these objects tests operator!=, evaluates operator*, runs the body and calls operator++; the functions return the list of values of operator*. *)
From Verif Require Import Base Bits SubIt_spec.

Section Width.
  Variable W : Z.
  Definition uw (x : Z) : Z := x mod 2 ^ W.
  (* lines 18-29: operator!= decrements and masks t, operator++ does nothing *)
  Definition all_subset (s : Z) : res (list Z) :=
    loop (Z.to_nat s + 2) (fun '(t, out) =>
      if t =? 0 then Ok (inr out) else let t := Z.land (t - 1) s in Ok (inl (t, out ++ [t]))) (uw (s + 1), []).
  (* lines 91-103, 105-117: blsr clears the lowest one *)
  Definition all_setbit (s : Z) : res (list Z) :=
    loop (Z.to_nat W + 1) (fun '(s, out) =>
      if s =? 0 then Ok (inr out) else Ok (inl (Z.land s (s - 1), out ++ [ctz s]))) (s, []).
  (* tzcnt is W at zero *)
  Definition tzcnt (x : Z) : Z := if x =? 0 then W else ctz x.
  (* PDEP: the bits of t, from the lowest, go to the positions of the ones of the mask *)
  Fixpoint pdep_pos (m : positive) (t : Z) : Z :=
    match m with xH => t mod 2 | xO m => 2 * pdep_pos m t | xI m => 2 * pdep_pos m (t / 2) + t mod 2 end.
  Definition pdep (t m : Z) : Z := match m with Zpos m => pdep_pos m t | _ => 0 end.
  (* lines 41-48, 70-77; a shift by W or more is undefined *)
  Definition ksub_next (k t : Z) : res Z :=
    if k =? 0 then Ok (2 ^ W - 1) else
    let y := uw (t + lowbit t) in
    let sh := tzcnt (uw (4 * t)) in
    if W <=? sh then UB else Ok (Z.lor y (Z.shiftr (Z.lxor y t) sh)).
  (* lines 32-59, 61-87; the assertion, the two shifts 1 << popcnt(s) and 1 << k *)
  Definition all_subset_k (s k : Z) : res (list Z) :=
    assert_ (negb (s =? 2 ^ W - 1)) ;;;
    if (W <=? card s) || (W <=? k) then UB else
    let n := 2 ^ card s in
    loop (Z.to_nat n + 1) (fun '(t, out) =>
      if t <? n then let out := out ++ [pdep t s] in let* t := ksub_next k t in Ok (inl (t, out)) else Ok (inr out)) (2 ^ k - 1, []).
End Width.
