(* Subspaces of words under exclusive or *)
From Verif Require Import Base.

(* x is an exclusive or of elements of l *)
Inductive span (l : list Z) : Z -> Prop :=
| span_zero : span l 0
| span_add x y : In x l -> span l y -> span l (Z.lxor x y).

(* P has exactly 2^d elements *)
Definition dimension (P : Z -> Prop) (d : Z) : Prop :=
  exists elements, NoDup elements /\ (forall x, In x elements <-> P x) /\ zlen elements = 2 ^ d.

(* b represents the subspace P: its elements generate P and their number is the dimension of P *)
Definition basis_of (b : list Z) (P : Z -> Prop) : Prop :=
  (forall x, span b x <-> P x) /\ dimension P (zlen b) /\ forall x, In x b -> 0 <= x.

Definition words (a : list Z) : Prop := forall x, In x a -> 0 <= x.

From Verif Require Import XorBase_model.
(* The objects a program can build, each with the subspace it is meant to represent. *)
Inductive built : xor_base -> (Z -> Prop) -> Prop :=
| built_default : built xb_empty (fun x => x = 0)
| built_of a : words a -> built (xb_of a) (span a)
| built_add b P v : built b P -> 0 <= v -> built (fst (xb_add b v)) (fun x => P x \/ P (Z.lxor v x))
| built_plus_assign_word b P v : built b P -> 0 <= v -> built (xb_plus_assign_word b v) (fun x => P x \/ P (Z.lxor v x))
| built_plus_word b P v : built b P -> 0 <= v -> built (xb_plus_word b v) (fun x => P x \/ P (Z.lxor v x))
| built_plus_assign b P c Q : built b P -> built c Q ->
    built (xb_plus_assign b c) (fun x => exists y z, P y /\ Q z /\ x = Z.lxor y z)
| built_plus b P c Q : built b P -> built c Q ->
    built (xb_plus b c) (fun x => exists y z, P y /\ Q z /\ x = Z.lxor y z)
| built_intersection b P c Q : built b P -> built c Q -> built (xb_intersection b c) (fun x => P x /\ Q x).
