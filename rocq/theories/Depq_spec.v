(* A double-ended priority queue as a sorted list, and the contracts of the standard algorithms it calls *)
From Verif Require Import Base Sorting.
From Coq Require Import Permutation Sorted.
Inductive op := Push (v : Z) | Min | Max | PopMin | PopMax | Size | Empty | Dump.
Inductive ans := Done | Val (x : Z) | Flag (b : bool) | Vals (l : list Z).
(* s is the multiset of elements, in increasing order; asking an empty queue for an element fails the assertion *)
Definition spec_step (o : op) (s : list Z) : res (list Z * ans) :=
  match o with
  | Push v => Ok (isort Z.leb (v :: s), Done)
  | Min => match s with [] => Abort | x :: _ => Ok (s, Val x) end
  | PopMin => match s with [] => Abort | x :: t => Ok (t, Val x) end
  | Max => match s with [] => Abort | _ => Ok (s, Val (last s 0)) end
  | PopMax => match s with [] => Abort | _ => Ok (removelast s, Val (last s 0)) end
  | Size => Ok (s, Val (zlen s))
  | Empty => Ok (s, Flag (match s with [] => true | _ => false end))
  | Dump => Ok (s, Vals s)
  end.
(* the answers to a sequence of calls, or the failure of one of them *)
Fixpoint history {S} (step : op -> S -> res (S * ans)) (ops : list op) (s : S) : res (list ans) :=
  match ops with [] => Ok [] | o :: ops => let* r := step o s in let* l := history step ops (fst r) in Ok (snd r :: l) end.

(* [less] is the comparison passed to the algorithm *)
Definition heap (less : Z -> Z -> bool) (l : list Z) : Prop :=
  forall i x y, 1 <= i -> vget l i = Ok x -> vget l ((i - 1) / 2) = Ok y -> less y x = false.
Record std := Std { make_heap : (Z -> Z -> bool) -> list Z -> list Z; push_heap : (Z -> Z -> bool) -> list Z -> list Z; pop_heap : (Z -> Z -> bool) -> list Z -> list Z;
  nth_element : (Z -> Z -> bool) -> Z -> list Z -> list Z; sort : (Z -> Z -> bool) -> list Z -> list Z }.
Definition order (less : Z -> Z -> bool) : Prop := less = Z.ltb \/ less = (fun x y => Z.ltb y x).
Record std_ok (a : std) : Prop := {
  make_heap_ok less l : order less -> heap less (make_heap a less l) /\ Permutation (make_heap a less l) l;
  push_heap_ok less l x : order less -> heap less l -> heap less (push_heap a less (l ++ [x])) /\ Permutation (push_heap a less (l ++ [x])) (l ++ [x]);
  pop_heap_ok less l x : order less -> heap less (x :: l) -> exists l', pop_heap a less (x :: l) = l' ++ [x] /\ heap less l' /\ Permutation l' l;
  nth_element_ok less k l : order less -> 0 <= k < zlen l -> Permutation (nth_element a less k l) l /\
    forall i j x y, i <= k <= j -> vget (nth_element a less k l) i = Ok x -> vget (nth_element a less k l) j = Ok y -> less y x = false;
  sort_ok less l : order less -> Permutation (sort a less l) l /\ StronglySorted (fun x y => less y x = false) (sort a less l) }.
