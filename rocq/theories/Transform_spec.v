(* Specification of the transforms and convolutions over a commutative ring:
   plain sums over index sets. *)
From Verif Require Import Base RingSum.

(* number of one bits *)
Fixpoint pos_pop (p : positive) : Z := match p with xH => 1 | xO p => pos_pop p | xI p => 1 + pos_pop p end.
Definition popcount (x : Z) : Z := match x with Zpos p => pos_pop p | _ => 0 end.

Section Spec.
  Context {T : Type}.
  Variables (r0 r1 : T) (add mul : T -> T -> T) (opp : T -> T).
  Notation sum := (sum r0 add).
  Notation at_ := (at_ r0).
  (* vector of length n with entries f 0, ..., f (n-1) *)
  Definition tabulate (n : Z) (f : Z -> T) : list T := map f (zrange n).
  (* j is a subset of i, as sets of bit positions *)
  Definition subset (j i : Z) : bool := Z.land j i =? j.
  Definition subset_sums (a : list T) : list T :=
    tabulate (zlen a) (fun i => sum 0 (zlen a) (fun j => if subset j i then at_ a j else r0)).
  Definition supset_sums (a : list T) : list T :=
    tabulate (zlen a) (fun i => sum 0 (zlen a) (fun j => if subset i j then at_ a j else r0)).
  Definition hadamard_sums (a : list T) : list T :=
    tabulate (zlen a) (fun i => sum 0 (zlen a) (fun j => if Z.odd (popcount (Z.land i j)) then opp (at_ a j) else at_ a j)).
  (* sum of a[i] * b[j] over all pairs with OP i j = k *)
  Definition conv_by (OP : Z -> Z -> Z) (lo : Z) (a b : list T) (k : Z) : T :=
    sum lo (zlen a) (fun i => sum lo (zlen b) (fun j => if OP i j =? k then mul (at_ a i) (at_ b j) else r0)).
  Definition bit_convolution (OP : Z -> Z -> Z) (a b : list T) : list T := tabulate (zlen a) (conv_by OP 0 a b).

  (* g(i) = sum of f(d) over the divisors d of i, for 1 <= i; index 0 is left alone *)
  Definition divides (d i : Z) : bool := i mod d =? 0.
  Definition divisor_sums (a : list T) : list T :=
    tabulate (zlen a) (fun i => if i =? 0 then at_ a 0 else sum 1 (zlen a) (fun d => if divides d i then at_ a d else r0)).
  Definition multiple_sums (a : list T) : list T :=
    tabulate (zlen a) (fun i => if i =? 0 then at_ a 0 else sum 1 (zlen a) (fun m => if divides i m then at_ a m else r0)).
  (* index 0 is multiplied on its own; pairs whose OP exceeds the size are dropped *)
  Definition arith_convolution (OP : Z -> Z -> Z) (a b : list T) : list T :=
    tabulate (zlen a) (fun k => if k =? 0 then mul (at_ a 0) (at_ b 0) else conv_by OP 1 a b k).
  (* 1 + 1 + ... (2^k times), computed by doubling *)
  Definition int_pow2 (k : nat) : T := Nat.iter k (fun x => add x x) r1.

  (* entry (i, j) of the k-th Kronecker power of the D x D matrix A: the product of
     the entries of A at the base-D digits of i and j *)
  Fixpoint kron_entry (D : Z) (A : Z -> Z -> T) (k : nat) (i j : Z) : T :=
    match k with
    | O => r1
    | S k => mul (A ((i / D ^ Z.of_nat k) mod D) ((j / D ^ Z.of_nat k) mod D)) (kron_entry D A k i j)
    end.
  Definition kron_product (D : Z) (A : list (list T)) (k : nat) (x : list T) : list T :=
    tabulate (zlen x) (fun i => sum 0 (zlen x) (fun j =>
      mul (kron_entry D (fun r c => at_ (RingSum.at_ [] A r) c) k i j) (at_ x j))).
  (* pairs with i * j = k and an extra condition on the pair *)
  Definition dirichlet (ok : Z -> Z -> bool) (a b : list T) (k : Z) : T :=
    sum 1 (zlen a) (fun i => sum 1 (zlen b) (fun j => if (i * j =? k) && ok i j then mul (at_ a i) (at_ b j) else r0)).
End Spec.
