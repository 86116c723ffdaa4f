(* Histories of calls on the structures of UnionFind2_model.v. *)
From Verif Require Import Base UnionFind_model UnionFind2_model UnionFind2_spec.

Fixpoint ufs_merges {T} (op : T -> T -> T) (s : ufs T) (ops : list (Z * Z)) : res (list bool * ufs T) :=
  match ops with
  | [] => Ok ([], s)
  | (x, y) :: ops => let* (b, s) := ufs_merge op s x y in
                     let* (bs, s) := ufs_merges op s ops in Ok (b :: bs, s)
  end.

Section W.
  Context {T : Type}.
  Variables (op : T -> T -> T) (e : T) (neg : T -> T).
  Definition wuf_step (s : wuf T) (o : wop T) : res (wout T * wuf T) :=
    match o with
    | WMerge x y d => let* (b, s) := wuf_merge op e neg s x y d in Ok (WBool b, s)
    | WSame x y => let* (b, s) := wuf_same op s x y in Ok (WBool b, s)
    | WDiff x y => let* (d, s) := wuf_diff op e neg s x y in Ok (WVal d, s)
    | WSize x => let* (k, s) := wuf_size op s x in Ok (WInt k, s)
    end.
  Fixpoint wuf_run (s : wuf T) (ops : list (wop T)) : res (list (wout T) * bool) :=
    match ops with
    | [] => Ok ([], false)
    | o :: ops =>
        match wuf_step s o with
        | Ok (r, s) => let* (rs, a) := wuf_run s ops in Ok (r :: rs, a)
        | Abort => Ok ([], true)
        | UB => UB
        | OutOfFuel => OutOfFuel
        end
    end.
End W.

Section L.
  Context {T F : Type}.
  Variables (add : T -> T -> T) (neg : T -> T).
  Variables (mapping : F -> T -> Z -> T) (comp : F -> F -> F) (idf : F) (inv : F -> F).
  Definition ufl_step (s : ufl T F) (o : lop T F) : res (lout T * ufl T F) :=
    match o with
    | LMerge x y => let* (b, s) := ufl_merge add mapping comp inv s x y in Ok (LBool b, s)
    | LGetComp x => let* (t, s) := ufl_get_component s x in Ok (LVal t, s)
    | LGetPoint x => let* (t, s) := ufl_get_point mapping s x in Ok (LVal t, s)
    | LApplyComp x f => let* s := ufl_apply_component mapping comp s x f in Ok (LUnit, s)
    | LApplyPoint x f => let* s := ufl_apply_point add neg mapping inv s x f in Ok (LUnit, s)
    | LSetPoint x t => let* s := ufl_set_point add neg mapping inv s x t in Ok (LUnit, s)
    | LPropagate x => let* s := ufl_propagate mapping idf s x in Ok (LUnit, s)
    end.
  Fixpoint ufl_run (s : ufl T F) (ops : list (lop T F)) : res (list (lout T) * ufl T F) :=
    match ops with
    | [] => Ok ([], s)
    | o :: ops => let* (r, s) := ufl_step s o in
                  let* (rs, s) := ufl_run s ops in Ok (r :: rs, s)
    end.
End L.
