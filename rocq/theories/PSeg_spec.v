(* A collection of vectors.  set and apply add a new vector and leave the old ones alone.
   clear_pool makes every vector made so far unusable (the numbering starts again).  The flag
   says whether clear_pool has not been called: after it, dump is broken (see
   persistent_segment_tree_dump_refuted). *)
From Verif Require Import Base SegTree_spec PSeg_model.

Section Spec.
  Context {T : Type}.
  Variables (op : T -> T -> T) (e : T).
  (* [Abort]: the call fails its assertion; [UB]: outside the contract *)
  Definition ps_spec (s : bool * list (list T)) (o : psop T) : res (psout T * (bool * list (list T))) :=
    let '(fresh, vs) := s in
    match o with
    | PsNew => Ok (PsUnit, (fresh, vs ++ [[]]))
    | PsBuild d => if zlen d =? 0 then UB else Ok (PsUnit, (fresh, vs ++ [d]))
    | PsGet v i => let* a := vget vs v in if in_range i a then let* x := vget a i in Ok (PsVal x, s) else Abort
    | PsSet v i x => let* a := vget vs v in if in_range i a then Ok (PsUnit, (fresh, vs ++ [zupd a i x])) else Abort
    | PsApply v i f => let* a := vget vs v in if in_range i a then let* x := vget a i in Ok (PsUnit, (fresh, vs ++ [zupd a i (f x)])) else Abort
    | PsProd v l r => let* a := vget vs v in if in_interval l r a then Ok (PsVal (fold op e l r a), s) else Abort
    | PsAll v => let* a := vget vs v in Ok (PsVal (fold_right op e a), s)
    (* the largest r such that the predicate holds of the product of l..r-1; the predicate must
       be true of the products up to some point and false afterwards *)
    | PsMaxR v l g =>
        let* a := vget vs v in
        if in_interval l (zlen a) a then
          if g e then if initial (rights op e g l a) then Ok (PsInt (l + trues (rights op e g l a) - 1), s) else UB else Abort
        else Abort
    | PsMinL v r g =>
        let* a := vget vs v in
        if in_interval 0 r a then
          if g e then if initial (lefts op e g r a) then Ok (PsInt (r - (trues (lefts op e g r a) - 1)), s) else UB else Abort
        else Abort
    | PsDump v => let* a := vget vs v in if fresh then Ok (PsList a, s) else UB
    | PsClear => Ok (PsUnit, (false, []))
    end.
End Spec.
