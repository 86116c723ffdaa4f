(* C115: what a vector with a default value should contain after a history of accesses. *)
From Verif Require Import Base.
Inductive dop {T : Type} : Type :=
| Write (i : Z) (x : T)   (* v[i] = x *)
| Touch (i : Z)           (* v[i] read through a non-const vector *)
| Resize (n : Z).
Arguments dop : clear implicits.
(* indices and sizes an int can hold (v[i] needs size i + 1) *)
Definition dop_ok {T} (o : dop T) : Prop :=
  match o with Write i _ | Touch i => 0 <= i < 2 ^ 31 - 1 | Resize n => 0 <= n < 2 ^ 31 end.
(* the latest value put at index i: h has the most recent operation first, l are the initial contents *)
Fixpoint stored {T} (l : list T) (h : list (dop T)) (i : Z) : option T :=
  match h with
  | [] => if 0 <=? i then nth_error l (Z.to_nat i) else None
  | Write j x :: h => if i =? j then Some x else stored l h i
  | Touch _ :: h => stored l h i
  | Resize n :: h => if n <=? i then None else stored l h i
  end.
Definition value {T} (d : T) (l : list T) (h : list (dop T)) (i : Z) : T := match stored l h i with Some x => x | None => d end.
(* the size after the history *)
Fixpoint dsize {T} (l : list T) (h : list (dop T)) : Z :=
  match h with
  | [] => zlen l
  | Write j _ :: h | Touch j :: h => Z.max (dsize l h) (j + 1)
  | Resize n :: _ => n
  end.
