(* C101: denominators with a given quotient (library/number/find_denominators.hpp) *)
From Verif Require Import Base Denom_spec Denom_model Denom_proof.

(* the_range S o: o is the pair of the least and the greatest element of S, every number between them is in S, and o is empty only when S is.
   [n / x] is the quotient rounded down, [- (- n / x)] rounded up.  For 64-bit n and q below 2^62 in absolute value and any limit. *)
Theorem denominators n q lim : Z.abs n < 2 ^ 62 -> Z.abs q < 2 ^ 62 ->
  (exists o, fld_pos n q lim = Ok o /\ the_range (fun x => 0 < x <= lim /\ n / x = q) o) /\
  (exists o, fld_neg n q lim = Ok o /\ the_range (fun x => lim <= x < 0 /\ n / x = q) o) /\
  (exists o, cld_pos n q lim = Ok o /\ the_range (fun x => 0 < x <= lim /\ - (- n / x) = q) o) /\
  (exists o, cld_neg n q lim = Ok o /\ the_range (fun x => lim <= x < 0 /\ - (- n / x) = q) o).
Proof. intros Hn Hq. split; [now apply fld_pos_ok|]. split; [now apply fld_neg_ok|]. split; [now apply cld_pos_ok|now apply cld_neg_ok]. Qed.
Print Assumptions denominators.
Example denominators_ex : fld_pos 17 3 (2 ^ 63 - 1) = Ok (Some (5, 5)) /\ fld_pos 17 0 (2 ^ 63 - 1) = Ok (Some (18, 2 ^ 63 - 1)) /\ fld_pos 17 7 100 = Ok None /\
  fld_neg 17 (-4) (- 2 ^ 63) = Ok (Some (-5, -5)) /\ cld_pos 17 4 (2 ^ 63 - 1) = Ok (Some (5, 5)) /\ cld_neg (-17) 2 (- 2 ^ 63) = Ok (Some (-16, -9)).
Proof. repeat split; reflexivity. Qed.

(* The bound on n is needed: with n = 2^63-1 (the largest long long) the first sum overflows, although {x > 0 | floor(n/x) = 1} is not empty *)
Theorem denominators_large_refuted : fld_pos (2 ^ 63 - 1) 1 (2 ^ 63 - 1) = UB /\ (2 ^ 63 - 1) / (2 ^ 63 - 1) = 1.
Proof. split; reflexivity. Qed.
Print Assumptions denominators_large_refuted.
