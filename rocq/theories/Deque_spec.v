(* What DequeAggregation and QueueAggregation should do, on plain lists. *)
From Verif Require Import Base.

(* moves of an iterator *)
Inductive move := MInc | MDec | MAdd (d : Z) | MSub (d : Z).
Definition delta (m : move) : Z := match m with MInc => 1 | MDec => -1 | MAdd d => d | MSub d => - d end.
(* positions visited starting from 0 must stay within 0..n *)
Fixpoint walk (n p : Z) (ms : list move) : res Z :=
  match ms with
  | [] => Ok p
  | m :: ms => let p := p + delta m in if (0 <=? p) && (p <=? n) then walk n p ms else UB
  end.

Section Spec.
  Context {T R : Type}.
  Variable total : list T -> R.      (* the aggregate of a sequence *)

  Inductive dqop :=
  | DqPushBack (v : T) | DqPushFront (v : T) | DqPopBack | DqPopFront
  | DqFront | DqBack | DqAt (i : Z) | DqSize | DqProd | DqClear
  | DqIter (ms : list move).         (* begin(), moved; then (it - begin, it == end, *it) *)
  Inductive dqout := DqUnit | DqVal (v : T) | DqInt (n : Z) | DqSum (r : R) | DqPos (p : Z) (v : option T).

  Definition dqspec (a : list T) (o : dqop) : res (dqout * list T) :=
    match o with
    | DqPushBack v => Ok (DqUnit, a ++ [v])
    | DqPushFront v => Ok (DqUnit, v :: a)
    | DqPopBack => match a with [] => Abort | _ => Ok (DqUnit, removelast a) end
    | DqPopFront => match a with [] => Abort | _ :: a => Ok (DqUnit, a) end
    | DqFront => let* x := vget a 0 in Ok (DqVal x, a)
    | DqBack => let* x := vget a (zlen a - 1) in Ok (DqVal x, a)
    | DqAt i => let* x := vget a i in Ok (DqVal x, a)
    | DqSize => Ok (DqInt (zlen a), a)
    | DqProd => Ok (DqSum (total a), a)
    | DqClear => Ok (DqUnit, [])
    | DqIter ms =>
        let* p := walk (zlen a) 0 ms in
        if p =? zlen a then Ok (DqPos p None, a)
        else let* x := vget a p in Ok (DqPos p (Some x), a)
    end.
  (* the queue has no push_front and no pop_back *)
  Definition queue_op (o : dqop) : Prop := match o with DqPushFront _ | DqPopBack => False | _ => True end.
End Spec.
Arguments dqop : clear implicits.
Arguments dqout : clear implicits.

(* [total] is computed by [append]/[merge] however the sequence is cut in two:
   the first part accumulated from its last element to its first, the second in order *)
Definition aggregates {T S R} (e : S) (append : S -> T -> S) (merge : S -> S -> R) (total : list T -> R) : Prop :=
  forall l r, merge (fold_left append (rev l) e) (fold_left append r e) = total (l ++ r).
