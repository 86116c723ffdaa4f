(* Linear algebra over F2, on lists of bits *)
From Verif Require Import Base.

(* the sum of the products of corresponding bits *)
Definition inner (r x : list bool) : bool :=
  fold_right xorb false (map (fun '(a, b) => andb a b) (combine r x)).
(* A x *)
Definition times (a : list (list bool)) (x : list bool) : list bool := map (fun r => inner r x) a.
(* x + y *)
Definition plus (x y : list bool) : list bool := map (fun '(a, b) => xorb a b) (combine x y).
Definition zeros (n : Z) : list bool := vrep n false.
(* a has n rows of m bits *)
Definition shape (n m : Z) (a : list (list bool)) : Prop := zlen a = n /\ forall r, In r a -> zlen r = m.

(* A x = 0, x of m bits *)
Definition kernel (m : Z) (a : list (list bool)) (x : list bool) : Prop := zlen x = m /\ forall r, In r a -> inner r x = false.
(* the set P has exactly 2^d elements *)
Definition dim (P : list bool -> Prop) (d : Z) : Prop :=
  exists elements, NoDup elements /\ (forall x, In x elements <-> P x) /\ zlen elements = 2 ^ d.
(* x is a sum of vectors of l, all of m bits *)
Inductive spanned (m : Z) (l : list (list bool)) : list bool -> Prop :=
| spanned_zero : spanned m l (zeros m)
| spanned_add x y : In x l -> spanned m l y -> spanned m l (plus x y).
