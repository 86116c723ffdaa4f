(* What modint arithmetic is supposed to compute: expression trees evaluated in
   the ring of integers; the residue of that integer is the expected value. *)
From Verif Require Import Base.

Inductive mexpr :=
| CSigned (v : Z)          (* mint(v) for a signed integer of up to 64 bits *)
| CUnsigned (v : Z)        (* mint(v) for an unsigned integer of up to 64 bits *)
| EAdd (a b : mexpr) | ESub (a b : mexpr) | EMul (a b : mexpr)
| ENeg (a : mexpr) | EInc (a : mexpr) | EDec (a : mexpr)
| EPow (a : mexpr) (n : Z).

Fixpoint ieval (e : mexpr) : Z :=
  match e with
  | CSigned v => v | CUnsigned v => v
  | EAdd a b => ieval a + ieval b
  | ESub a b => ieval a - ieval b
  | EMul a b => ieval a * ieval b
  | ENeg a => - ieval a
  | EInc a => ieval a + 1
  | EDec a => ieval a - 1
  | EPow a n => ieval a ^ n
  end.

(* constants and exponents fit their C++ types (exponents non-negative) *)
Fixpoint mexpr_ok (e : mexpr) : Prop :=
  match e with
  | CSigned v => - 2 ^ 63 <= v < 2 ^ 63
  | CUnsigned v => 0 <= v < 2 ^ 64
  | EAdd a b | ESub a b | EMul a b => mexpr_ok a /\ mexpr_ok b
  | ENeg a | EInc a | EDec a => mexpr_ok a
  | EPow a n => mexpr_ok a /\ 0 <= n < 2 ^ 63
  end.

(* dynamic_modint has no unary minus *)
Fixpoint no_neg (e : mexpr) : Prop :=
  match e with
  | CSigned _ | CUnsigned _ => True
  | EAdd a b | ESub a b | EMul a b => no_neg a /\ no_neg b
  | ENeg _ => False
  | EInc a | EDec a | EPow a _ => no_neg a
  end.
