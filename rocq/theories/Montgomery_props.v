(* C16: Montgomery32 (w = 32) and Montgomery64 (w = 64).  The Montgomery form
   of a residue x modulo N is (x * 2^w) mod N.
   C19: modint2p61m1. *)
From Verif Require Import Base Montgomery_model Montgomery_proof M61_proof.

(* for an odd modulus below 2^(w-1) the object is a ring isomorphism *)
Theorem montgomery_correct w N : w = 32 \/ w = 64 -> 0 < N < 2 ^ (w - 1) -> Z.odd N = true ->
  exists M, mont_new w N = Ok M /\
    (forall t, 0 <= t < 2 ^ w -> mont_make w M t = (t * 2 ^ w) mod N) /\
    (forall T, 0 <= T < 2 ^ w * N -> 0 <= mont_reduce w M T < N /\ (mont_reduce w M T * 2 ^ w) mod N = T mod N) /\
    (forall x, mont_reduce w M ((x * 2 ^ w) mod N) = x mod N) /\
    (forall x y, mont_add w M ((x * 2 ^ w) mod N) ((y * 2 ^ w) mod N) = ((x + y) * 2 ^ w) mod N) /\
    (forall x y, mont_mul w M ((x * 2 ^ w) mod N) ((y * 2 ^ w) mod N) = ((x * y) * 2 ^ w) mod N) /\
    (forall x b, 0 <= b < 2 ^ 63 -> mont_pow w M ((x * 2 ^ w) mod N) b = Ok ((x ^ b * 2 ^ w) mod N)).
Proof. exact (montgomery_all w N). Qed.
Print Assumptions montgomery_correct.
Example montgomery_example :
  (let* M := mont_new 32 998244353 in
   let* p := mont_pow 32 M (mont_make 32 M 3) 1000000 in Ok (mont_reduce 32 M p)) = Ok 383419790.
Proof. vm_compute. reflexivity. Qed.

(* an even modulus (0 included) is rejected by an assertion *)
Theorem montgomery_even_rejected w N : w = 32 \/ w = 64 -> 0 <= N < 2 ^ w -> Z.odd N = false -> mont_new w N = Abort.
Proof. exact (fun Hw => mont_new_even w Hw N). Qed.
Print Assumptions montgomery_even_rejected.
Example montgomery_even_example : mont_new 64 (2 ^ 40) = Abort.
Proof. vm_compute. reflexivity. Qed.

(* finding: sub is right only when no borrow is needed; otherwise the result
   is not even a residue *)
Theorem montgomery_sub_refuted w N : w = 32 \/ w = 64 -> 0 < N < 2 ^ (w - 1) -> Z.odd N = true ->
  exists M, mont_new w N = Ok M /\
    (forall A B, 0 <= B <= A -> A < N -> mont_sub w M A B = A - B) /\
    (forall A B, 0 <= A < B -> B < N -> N <= mont_sub w M A B /\ mont_sub w M A B <> (A - B) mod N).
Proof. exact (montgomery_sub_all w N). Qed.
Print Assumptions montgomery_sub_refuted.
Example montgomery_sub_example : (let* M := mont_new 32 7 in Ok (mont_sub 32 M 2 5)) = Ok 4294967293.
Proof. vm_compute. reflexivity. Qed.

(* finding: the documented requirement N < R is not enough; with an odd
   N > R/2 both the sum and the product of residues can be wrong *)
Theorem montgomery_large_refuted : exists N M, 0 < N < 2 ^ 32 /\ Z.odd N = true /\ mont_new 32 N = Ok M /\
  (exists A B, 0 <= A < N /\ 0 <= B < N /\ mont_add 32 M A B <> (A + B) mod N) /\
  (exists A B, 0 <= A < N /\ 0 <= B < N /\ (mont_mul 32 M A B * 2 ^ 32) mod N <> (A * B) mod N).
Proof.
  exists (2 ^ 32 - 5).
  refine (match mont_new 32 (2 ^ 32 - 5) as r return mont_new 32 (2 ^ 32 - 5) = r -> _ with Ok M => fun E => ex_intro _ M _ | _ => fun E => _ end eq_refl).
  all: vm_compute in E; try discriminate.
  injection E as <-. repeat split; try reflexivity.
  - exists (2 ^ 32 - 6), (2 ^ 32 - 6). vm_compute. intuition discriminate.
  - exists (2 ^ 32 - 6), (2 ^ 32 - 6). vm_compute. intuition discriminate.
Qed.
Print Assumptions montgomery_large_refuted.
Example montgomery_large_example : (let* M := mont_new 32 (2 ^ 32 - 5) in Ok (mont_add 32 M (2 ^ 32 - 6) (2 ^ 32 - 6))) = Ok 4294967284 /\
  ((2 ^ 32 - 6) + (2 ^ 32 - 6)) mod (2 ^ 32 - 5) = 4294967289.
Proof. vm_compute. auto. Qed.

(* C19 *)
Theorem m61_arith :
  (forall v, 0 <= v < 2 ^ 64 -> m61_of v = v mod (2 ^ 61 - 1)) /\
  (forall x y, 0 <= x < 2 ^ 61 - 1 -> 0 <= y < 2 ^ 61 - 1 ->
    m61_add x y = (x + y) mod (2 ^ 61 - 1) /\ m61_sub x y = (x - y) mod (2 ^ 61 - 1) /\ m61_mul x y = (x * y) mod (2 ^ 61 - 1)).
Proof.
  exact (conj fast_mod_ok (fun x y Hx Hy => conj (m61_add_ok x y Hx Hy) (conj (m61_sub_ok x y Hx Hy) (m61_mul_ok x y Hx Hy)))).
Qed.
Print Assumptions m61_arith.
Example m61_arith_example : m61_of (2 ^ 64 - 1) = 7 /\ m61_mul (2 ^ 61 - 2) (2 ^ 61 - 3) = 2 /\ m61_sub 3 5 = 2 ^ 61 - 3.
Proof. vm_compute. auto. Qed.

Theorem m61_pow_correct x b : 0 <= x < 2 ^ 61 - 1 ->
  (0 <= b < 2 ^ 63 -> m61_pow x b = Ok (x ^ b mod (2 ^ 61 - 1))) /\ (b < 0 -> m61_pow x b = Abort).
Proof. exact (fun Hx => conj (m61_pow_ok x b Hx) (m61_pow_neg x b)). Qed.
Print Assumptions m61_pow_correct.
Example m61_pow_example : m61_pow 3 1000 = Ok 1236409068333599307 /\ m61_pow 3 (-1) = Abort.
Proof. vm_compute. auto. Qed.

Theorem m61_inv_correct x : 0 < x < 2 ^ 61 - 1 ->
  exists y, m61_inv x = Ok y /\ 0 <= y < 2 ^ 61 - 1 /\ (x * y) mod (2 ^ 61 - 1) = 1.
Proof. exact (m61_inv_ok x). Qed.
Print Assumptions m61_inv_correct.
Example m61_inv_example : m61_inv 2 = Ok (2 ^ 60).
Proof. vm_compute. reflexivity. Qed.
