(* C20: Rational<T> against the rational numbers Q of the standard library. *)
From Verif Require Import Base Rational_model Rational_spec Rational_proof.
From Coq Require Import QArith Qround Qabs.
Open Scope Z_scope.

(* the two-argument constructor normalises; n/0 is kept as +-1/0 and 0/0 is rejected *)
Theorem rational_make_correct n d :
  (d <> 0 -> is_value (rat_make n d) (inject_Z n / inject_Z d)) /\
  (n <> 0 -> rat_make n 0 = Ok (mkRat (Z.sgn n) 0)) /\ rat_make 0 0 = Abort.
Proof. exact (conj (make_value n d) (conj (make_inf n) make_00)). Qed.
Print Assumptions rational_make_correct.
Example rational_make_example : rat_make 12 (-18) = Ok (mkRat (-2) 3).
Proof. vm_compute. reflexivity. Qed.

(* field operations: exact and in lowest terms *)
Theorem rational_field_correct l r : normal l -> normal r ->
  is_value (rat_add l r) (qval l + qval r) /\ is_value (rat_sub l r) (qval l - qval r) /\ is_value (rat_mul l r) (qval l * qval r) /\
  is_value (rat_neg r) (- qval r) /\ is_value (rat_abs r) (Qabs (qval r)) /\
  (rnum r <> 0 -> is_value (rat_inv r) (/ qval r) /\ is_value (rat_div l r) (qval l / qval r)) /\
  (rnum r = 0 -> rat_inv r = Ok (mkRat 1 0)).
Proof.
  exact (fun Nl Nr => conj (add_value l r Nl Nr) (conj (sub_value l r Nl Nr) (conj (mul_value l r Nl Nr)
    (conj (neg_value r Nr) (conj (abs_value r Nr) (conj (fun H => conj (inv_value r Nr H) (div_value l r Nl Nr H)) (inv_zero r Nr))))))).
Qed.
Print Assumptions rational_field_correct.
Example rational_field_example : normal (mkRat 5 6) /\ normal (mkRat (-3) 4) /\
  rat_add (mkRat 5 6) (mkRat (-3) 4) = Ok (mkRat 1 12) /\ rat_div (mkRat 5 6) (mkRat (-3) 4) = Ok (mkRat (-10) 9).
Proof. unfold normal. cbn. repeat split; reflexivity. Qed.

(* == and != are exact; the comparison always returns -1, 0 or 1 *)
Theorem rational_equality_correct l r : normal l -> normal r ->
  rat_eq l r = Ok (Qeq_bool (qval l) (qval r)) /\ rat_ne l r = Ok (negb (Qeq_bool (qval l) (qval r))) /\
  exists c, compare l r = Ok c /\ (c = 0 <-> l = r) /\ (c = -1 \/ c = 0 \/ c = 1).
Proof.
  exact (fun Nl Nr => conj (proj1 (rat_eq_ok l r Nl Nr)) (conj (proj2 (rat_eq_ok l r Nl Nr)) (compare_total l r Nl Nr))).
Qed.
Print Assumptions rational_equality_correct.
Example rational_equality_example : rat_eq (mkRat 22 7) (mkRat 22 7) = Ok true /\ rat_eq (mkRat 22 7) (mkRat 355 113) = Ok false.
Proof. vm_compute. auto. Qed.

(* the order is right when the signs or the integer parts differ ... *)
Theorem rational_order_integer_parts l r : normal l -> normal r ->
  Z.quot (rnum l) (rden l) <> Z.quot (rnum r) (rden r) \/ Z.sgn (rnum l) <> Z.sgn (rnum r) ->
  compare l r = Ok (sign_of (qval l ?= qval r)%Q).
Proof. exact (compare_quot l r). Qed.
Print Assumptions rational_order_integer_parts.
Example rational_order_integer_example : compare (mkRat 7 2) (mkRat 13 3) = Ok (-1) /\ compare (mkRat (-7) 2) (mkRat (-13) 3) = Ok 1.
Proof. vm_compute. auto. Qed.

(* ... finding: and reversed for proper fractions whose reciprocals have
   different integer parts ([rev = -rev] does not negate a bool) *)
Theorem rational_order_refuted l r : normal l -> normal r -> 0 < rnum l < rden l -> 0 < rnum r < rden r ->
  Z.quot (rden l) (rnum l) <> Z.quot (rden r) (rnum r) ->
  compare l r = Ok (- sign_of (qval l ?= qval r)%Q).
Proof. exact (compare_second l r). Qed.
Print Assumptions rational_order_refuted.
Example rational_order_refuted_example : rat_lt (mkRat 1 2) (mkRat 1 3) = Ok true /\ rat_max (mkRat 1 2) (mkRat 1 3) = Ok (mkRat 1 3).
Proof. vm_compute. auto. Qed.

(* floor and ceil: right on one side of zero and on integers ... *)
Theorem rational_rounding_correct r : normal r ->
  (0 <= rnum r \/ rden r = 1 -> rat_floor r = Ok (Qfloor (qval r))) /\
  (rnum r <= 0 \/ rden r = 1 -> rat_ceil r = Ok (Qceiling (qval r))).
Proof. exact (fun N => conj (floor_right r N) (ceil_right r N)). Qed.
Print Assumptions rational_rounding_correct.
Example rational_rounding_example : rat_floor (mkRat 7 2) = Ok 3 /\ rat_ceil (mkRat (-7) 2) = Ok (-3).
Proof. vm_compute. auto. Qed.

(* ... finding: and off by one everywhere else *)
Theorem rational_rounding_refuted r : normal r -> rden r <> 1 ->
  (rnum r < 0 -> rat_floor r = Ok (Qfloor (qval r) + 1)) /\ (0 < rnum r -> rat_ceil r = Ok (Qceiling (qval r) - 1)).
Proof. exact (fun N H => conj (fun P => floor_wrong r N P H) (fun P => ceil_wrong r N P H)). Qed.
Print Assumptions rational_rounding_refuted.
Example rational_rounding_refuted_example : rat_floor (mkRat (-1) 2) = Ok 0 /\ Qfloor (-1 # 2) = -1 /\ rat_ceil (mkRat 1 2) = Ok 0.
Proof. vm_compute. auto. Qed.
