(* A collection of arrays, each a plain list.  Calls that create an array append it. *)
From Verif Require Import Base PArray_model.

Definition pa_spec {T} (a : list (list T)) (o : pop T) (r : res (pret T * list (list T))) : Prop :=
  match o, r with
  | PBuild init, Ok (PUnit, a') => a' = a ++ [init]
  | PGet v i, Ok (PVal x, a') => exists A, vget a v = Ok A /\ vget A i = Ok x /\ a' = a
  | PSet v i x, Ok (PUnit, a') => exists A, vget a v = Ok A /\ 0 <= i < zlen A /\ a' = a ++ [zupd A i x]
  | PClone v, Ok (PUnit, a') => exists A, vget a v = Ok A /\ a' = a ++ [A]
  | PSize v, Ok (PNum n, a') => exists A, vget a v = Ok A /\ n = zlen A /\ a' = a
  (* mut_set assigns in place: in its own array always; another array that shares the cell
     sees the same assignment, and no array sees anything else *)
  | PMut v i x, Ok (PVal old, a') =>
      exists A, vget a v = Ok A /\ vget A i = Ok old /\ vget a' v = Ok (zupd A i x) /\ zlen a' = zlen a /\
        forall w B, vget a w = Ok B -> vget a' w = Ok B \/ vget a' w = Ok (zupd B i x)
  (* outside the contract: no such array, or an index beyond its end *)
  | PGet v i, UB | PSet v i _, UB | PMut v i _, UB => forall A, vget a v = Ok A -> zlen A <= i
  | PClone v, UB | PSize v, UB => vget a v = UB
  | _, _ => False
  end.
(* get, set and mut_set are called with a non-negative index; dump is treated separately *)
Definition pa_call {T} (o : pop T) : Prop :=
  match o with PGet _ i | PSet _ i _ | PMut _ i _ => 0 <= i | PDump _ => False | _ => True end.
