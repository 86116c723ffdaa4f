(* Calls on the segment trees as history steps. *)
From Verif Require Import Base SegTree_model SegTree_spec.
Section Run.
  Context {T : Type}.
  Variables (op : T -> T -> T) (e : T).
  Definition sgstep (s : seg T) (o : sgop T) : res (sgout T * seg T) :=
    match o with
    | SgSet i v => let* s := seg_set op s i v in Ok (SgUnit, s)
    | SgApply i f => let* s := seg_apply op s i f in Ok (SgUnit, s)
    | SgGet i => let* x := seg_get s i in Ok (SgVal x, s)
    | SgProd l r => let* x := seg_prod op e s l r in Ok (SgVal x, s)
    | SgPrefix r => let* x := seg_prefix op e s r in Ok (SgVal x, s)
    | SgSuffix l => let* x := seg_suffix op e s l in Ok (SgVal x, s)
    | SgAll => let* x := seg_all s in Ok (SgVal x, s)
    | SgBuild b => let* s := seg_build op s b in Ok (SgUnit, s)
    end.
  Context {F : Type}.
  Variables (mapping : F -> T -> T) (comp : F -> F -> F) (idf : F).
  Definition lsstep (s : lseg T F) (o : lsop T F) : res (lsout T * lseg T F) :=
    match o with
    | LsApply l r f => let* s := lseg_apply op mapping comp idf s l r f in Ok (LsUnit, s)
    | LsApply1 i f => let* s := lseg_apply1 op mapping comp idf s i f in Ok (LsUnit, s)
    | LsSet i v => let* s := lseg_set op mapping comp idf s i v in Ok (LsUnit, s)
    | LsGet i => let* (x, s) := lseg_get mapping comp idf s i in Ok (LsVal x, s)
    | LsProd l r => let* (x, s) := lseg_prod op e mapping comp idf s l r in Ok (LsVal x, s)
    | LsPrefix r => let* (x, s) := lseg_prefix op e mapping comp idf s r in Ok (LsVal x, s)
    | LsAll => let* x := lseg_all s in Ok (LsVal x, s)
    | LsMaxRight l g => let* (r, s) := lseg_max_right op e mapping comp idf s l g in Ok (LsInt r, s)
    | LsMinLeft r g => let* (l, s) := lseg_min_left op e mapping comp idf s r g in Ok (LsInt l, s)
    end.
End Run.
