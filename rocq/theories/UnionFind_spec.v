(* Specification vocabulary for the union-find structures.  Nothing here refers
   to the model. *)
From Verif Require Import Base.
From Coq Require Import Relations Sorted.

(* [connected E x y]: x and y are joined by a path of merged pairs, i.e. the
   equivalence closure of the pairs in E *)
Definition connected (E : list (Z * Z)) : Z -> Z -> Prop :=
  clos_refl_sym_trans Z (fun x y => In (x, y) E).

(* [counts n P k]: exactly k of the integers 0..n-1 satisfy P *)
Definition counts (n : Z) (P : Z -> Prop) (k : Z) : Prop :=
  exists l, NoDup l /\ (forall v, In v l <-> 0 <= v < n /\ P v) /\ zlen l = k.

Inductive uop := Merge (x y : Z) | Same (x y : Z) | Size (x : Z) | Root (x : Z).
Inductive uout := OBool (b : bool) | OInt (k : Z).

Definition uop_ok (n : Z) (o : uop) : Prop :=
  match o with
  | Merge x y | Same x y => 0 <= x < n /\ 0 <= y < n
  | Size x | Root x => 0 <= x < n
  end.

(* the answer [r] of operation [o] is right when E are the pairs merged before *)
Definition uanswer (n : Z) (E : list (Z * Z)) (o : uop) (r : uout) : Prop :=
  match o, r with
  | Merge x y, OBool b => b = true <-> ~ connected E x y
  | Same x y, OBool b => b = true <-> connected E x y
  | Size x, OInt k => counts n (connected E x) k
  | Root x, OInt k => 0 <= k < n /\ connected E x k
  | _, _ => False
  end.

Definition uafter (E : list (Z * Z)) (o : uop) : list (Z * Z) :=
  match o with Merge x y => (x, y) :: E | _ => E end.

(* all answers of a history are right *)
Fixpoint uanswers (n : Z) (E : list (Z * Z)) (ops : list uop) (rs : list uout) : Prop :=
  match ops, rs with
  | [], [] => True
  | o :: ops, r :: rs => uanswer n E o r /\ uanswers n (uafter E o) ops rs
  | _, _ => False
  end.

Fixpoint uafters (E : list (Z * Z)) (ops : list uop) : list (Z * Z) :=
  match ops with [] => E | o :: ops => uafters (uafter E o) ops end.

(* [gs] is the partition of 0..n-1 into connected components, every component
   listed in increasing order *)
Definition partition_of (n : Z) (E : list (Z * Z)) (gs : list (list Z)) : Prop :=
  NoDup (concat gs) /\
  (forall v, In v (concat gs) <-> 0 <= v < n) /\
  (forall g, In g gs -> g <> [] /\ StronglySorted Z.lt g) /\
  (forall g x y, In g gs -> In x g -> 0 <= y < n -> (In y g <-> connected E x y)).

(* ---- structure with undo ------------------------------------------------ *)
Inductive vop :=
| VMerge (x y : Z) | VSame (x y : Z) | VSize (x : Z) | VUndo | VSnapshot | VRollback.
Inductive vout := VBool (b : bool) | VInt (k : Z) | VUnit.

Definition vop_ok (n : Z) (o : vop) : Prop :=
  match o with
  | VMerge x y | VSame x y => 0 <= x < n /\ 0 <= y < n
  | VSize x => 0 <= x < n
  | _ => True
  end.

(* the abstract state is the set of pairs in force and the stack of the sets
   that were in force before each not-yet-undone successful merge *)
Definition vstate : Type := list (Z * Z) * list (list (Z * Z)).

(* one abstract step; [None] output: the call must fail its assertion *)
Inductive vstep (n : Z) : vstate -> vop -> option vout -> vstate -> Prop :=
| vs_merge_new E st x y : ~ connected E x y ->
    vstep n (E, st) (VMerge x y) (Some (VBool true)) ((x, y) :: E, E :: st)
| vs_merge_old E st x y : connected E x y ->
    vstep n (E, st) (VMerge x y) (Some (VBool false)) (E, st)
| vs_same E st x y b : (b = true <-> connected E x y) ->
    vstep n (E, st) (VSame x y) (Some (VBool b)) (E, st)
| vs_size E st x k : counts n (connected E x) k ->
    vstep n (E, st) (VSize x) (Some (VInt k)) (E, st)
| vs_undo E E' st :
    vstep n (E, E' :: st) VUndo (Some VUnit) (E', st)
| vs_undo_empty E :
    vstep n (E, []) VUndo None (E, [])
| vs_snapshot E st :
    vstep n (E, st) VSnapshot (Some VUnit) (E, [])
| vs_rollback E st :
    vstep n (E, st) VRollback (Some VUnit) (last st E, []).

(* a history: outputs up to the end, or up to a failing assertion *)
Inductive vruns (n : Z) : vstate -> list vop -> list vout -> bool (* aborted *) -> Prop :=
| vr_nil st : vruns n st [] [] false
| vr_abort st o ops st' : vstep n st o None st' -> vruns n st (o :: ops) [] true
| vr_cons st o ops r st' rs a : vstep n st o (Some r) st' -> vruns n st' ops rs a ->
    vruns n st (o :: ops) (r :: rs) a.
