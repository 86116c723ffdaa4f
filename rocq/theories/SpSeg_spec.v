(* A collection of sequences, each a length and a function from index to element (the length
   may be far too large for a list). *)
From Verif Require Import Base Seq SpSeg_model.

Section Spec.
  Context {T : Type}.
  Variables (op : T -> T -> T) (e : T) (base : Z -> T).

  Definition assign (f : Z -> T) (i : Z) (x : T) : Z -> T := fun j => if j =? i then x else f j.
  (* [Abort]: the call fails its assertion; [UB]: outside the contract (no such tree).
     Copies are not part of this contract, see sparse_segment_tree_copy_refuted. *)
  Definition sp_spec (a : list (Z * (Z -> T))) (o : spop T) : res (spout T * list (Z * (Z -> T))) :=
    match o with
    | SpNew n => if 0 <=? n then Ok (SpUnit, a ++ [(n, base)]) else UB
    | SpGet k i => let* (n, f) := vget a k in if (0 <=? i) && (i <? n) then Ok (SpVal (f i), a) else Abort
    | SpSet k i x => let* (n, f) := vget a k in if (0 <=? i) && (i <? n) then Ok (SpUnit, zupd a k (n, assign f i x)) else Abort
    | SpApply k i g => let* (n, f) := vget a k in if (0 <=? i) && (i <? n) then Ok (SpUnit, zupd a k (n, assign f i (g (f i)))) else Abort
    (* f l * f (l+1) * ... * f (r-1) *)
    | SpProd k l r => let* (n, f) := vget a k in if (0 <=? l) && (l <=? r) && (r <=? n) then Ok (SpVal (prod_ op e f l r), a) else Abort
    | SpAll k => let* (n, f) := vget a k in Ok (SpVal (prod_ op e f 0 n), a)
    | SpCopy _ => UB
    end.
End Spec.
