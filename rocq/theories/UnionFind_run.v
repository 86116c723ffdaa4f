(* Histories of calls on the modelled union-find structures: the client that
   issues one call after the other and records the answers. *)
From Verif Require Import Base UnionFind_model UnionFind_spec.

Definition uf_step (s : uf) (o : uop) : res (uout * uf) :=
  match o with
  | Merge x y => let* (b, s) := uf_merge s x y in Ok (OBool b, s)
  | Same x y => let* (b, s) := uf_same s x y in Ok (OBool b, s)
  | Size x => let* (k, s) := uf_size s x in Ok (OInt k, s)
  | Root x => let* (k, s) := uf_root s x in Ok (OInt k, s)
  end.

Fixpoint uf_run (s : uf) (ops : list uop) : res (list uout * uf) :=
  match ops with
  | [] => Ok ([], s)
  | o :: ops => let* (r, s) := uf_step s o in
                let* (rs, s) := uf_run s ops in Ok (r :: rs, s)
  end.

Definition uuf_step (s : uuf) (o : vop) : res (vout * uuf) :=
  match o with
  | VMerge x y => let* (b, s) := uuf_merge s x y in Ok (VBool b, s)
  | VSame x y => let* b := uuf_same s x y in Ok (VBool b, s)
  | VSize x => let* k := uuf_size s x in Ok (VInt k, s)
  | VUndo => let* s := uuf_undo s in Ok (VUnit, s)
  | VSnapshot => Ok (VUnit, uuf_snapshot s)
  | VRollback => let* s := uuf_rollback s in Ok (VUnit, s)
  end.

(* runs until the end or until an assertion fails; any other outcome (UB, fuel)
   is passed on *)
Fixpoint uuf_run (s : uuf) (ops : list vop) : res (list vout * bool) :=
  match ops with
  | [] => Ok ([], false)
  | o :: ops =>
      match uuf_step s o with
      | Ok (r, s) => let* (rs, a) := uuf_run s ops in Ok (r :: rs, a)
      | Abort => Ok ([], true)
      | UB => UB
      | OutOfFuel => OutOfFuel
      end
  end.

Fixpoint luf_merges (s : luf) (ops : list (Z * Z)) : res (list bool * luf) :=
  match ops with
  | [] => Ok ([], s)
  | (x, y) :: ops => let* (b, s) := luf_merge s x y in
                     let* (bs, s) := luf_merges s ops in Ok (b :: bs, s)
  end.

Fixpoint uuf_merges (s : uuf) (ops : list (Z * Z)) : res uuf :=
  match ops with
  | [] => Ok s
  | (x, y) :: ops => let* (_, s) := uuf_merge s x y in uuf_merges s ops
  end.

