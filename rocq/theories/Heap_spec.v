(* Priority queues as multisets (lists up to permutation), for a strict weak order. *)
From Verif Require Import Base Heap_model.
From Coq Require Import Permutation.

Definition strict_weak_order {T} (lt : T -> T -> bool) : Prop :=
  (forall x, lt x x = false) /\
  (forall x y z, lt x y = true -> lt y z = true -> lt x z = true) /\
  (forall x y z, lt x y = false -> lt y z = false -> lt x z = false).

(* Histories against a specification that says which outcomes each call may have. *)
Section Answers.
  Context {A O R : Type}.
  Variable spec : A -> O -> res (R * A) -> Prop.
  Inductive answers : A -> list O -> list R * res unit -> Prop :=
  | answers_nil a : answers a [] ([], Ok tt)
  | answers_ok a o r a' ops rs f : spec a o (Ok (r, a')) -> answers a' ops (rs, f) -> answers a (o :: ops) (r :: rs, f)
  | answers_abort a o ops : spec a o Abort -> answers a (o :: ops) ([], Abort)
  | answers_ub a o ops : spec a o UB -> answers a (o :: ops) ([], UB).
End Answers.

Section Spec.
  Context {T : Type}.
  Variable lt : T -> T -> bool.
  (* no element of s is before x *)
  Definition first_of (s : list T) (x : T) : Prop := In x s /\ forall y, In y s -> lt y x = false.
  Definition last_of (s : list T) (x : T) : Prop := In x s /\ forall y, In y s -> lt x y = false.
  (* BinaryHeap: pop() on one element is undefined behaviour (it moves element 0 of an
     empty vector) *)
  Definition bh_spec (s : list T) (o : hop T) (r : res (hret T * list T)) : Prop :=
    match o, r with
    | HPush x, Ok (HUnit, s') => Permutation s' (x :: s)
    | HTop, Ok (HVal x, s') => first_of s x /\ s' = s
    | HTop, Abort => s = []
    | HPop, Ok (HVal x, s') => first_of s x /\ Permutation s (x :: s') /\ s' <> []
    | HPop, Abort => s = []
    | HPop, UB => exists x, s = [x]
    | HSize, Ok (HNum n, s') => n = zlen s /\ s' = s
    | _, _ => False
    end.
  Definition ih_spec (s : list T) (o : iop T) (r : res (hret T * list T)) : Prop :=
    match o, r with
    | IPush x, Ok (HUnit, s') => Permutation s' (x :: s)
    | IMin, Ok (HVal x, s') => first_of s x /\ s' = s
    | IMax, Ok (HVal x, s') => last_of s x /\ s' = s
    | IPopMin, Ok (HVal x, s') => first_of s x /\ Permutation s (x :: s')
    | IPopMax, Ok (HVal x, s') => last_of s x /\ Permutation s (x :: s')
    | IMin, Abort | IMax, Abort | IPopMin, Abort | IPopMax, Abort => s = []
    | ISize, Ok (HNum n, s') => n = zlen s /\ s' = s
    | _, _ => False
    end.
End Spec.
