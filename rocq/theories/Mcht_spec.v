(* Specification vocabulary for MonotonicCHT: histories of added lines and evaluations. *)
From Verif Require Import Base.

Inductive qkind := QInc | QDec | QAny.
Inductive mop := Add (slope intercept : Z) | Query (x : Z).
Definition at_x (x : Z) (p : Z * Z) : Z := fst p * x + snd p.
(* v is the least (greatest) value at x of the lines A *)
Definition extreme (is_min : bool) (A : list (Z * Z)) (x v : Z) : Prop :=
  (exists p, In p A /\ v = at_x x p) /\ forall p, In p A -> if is_min then v <= at_x x p else at_x x p <= v.
(* what the interface asks for: slopes extend the range of the earlier slopes, questions come in the promised order
   (A: lines so far, X: points asked so far; the slopes and points have absolute value at most tmax) *)
Fixpoint allowed (tmax : Z) (k : qkind) (A : list (Z * Z)) (X : list Z) (os : list mop) : Prop :=
  match os with
  | [] => True
  | Add s i :: os => Z.abs s <= tmax /\ ((forall p, In p A -> s <= fst p) \/ (forall p, In p A -> fst p <= s)) /\ allowed tmax k (A ++ [(s, i)]) X os
  | Query x :: os => A <> [] /\ Z.abs x <= tmax /\ (forall y, In y X -> match k with QInc => y <= x | QDec => x <= y | QAny => True end) /\ allowed tmax k A (X ++ [x]) os
  end.
(* outs are the right answers to the questions of os *)
Fixpoint right_answers (is_min : bool) (A : list (Z * Z)) (os : list mop) (outs : list Z) : Prop :=
  match os with
  | [] => outs = []
  | Add s i :: os => right_answers is_min (A ++ [(s, i)]) os outs
  | Query x :: os => match outs with [] => False | v :: outs => extreme is_min A x v /\ right_answers is_min A os outs end
  end.
