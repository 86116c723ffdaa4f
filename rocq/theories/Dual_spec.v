(* The plain vector.  [apply l r f] replaces the elements l..r-1 by their images under f and
   leaves the others alone; [get i] returns element i. *)
From Verif Require Import Base Dual_model.

Section Spec.
  Context {T F : Type}.
  Variable mapping : F -> T -> T.
  Definition apply_range (l r : Z) (f : F) (v : list T) : list T :=
    map (fun '(i, x) => if (l <=? i) && (i <? r) then mapping f x else x) (combine (zrange (zlen v)) v).
  (* [Abort]: an assertion fails; [UB]: outside the contract *)
  Definition dget (v : list T) (i : Z) : res (duout T * list T) :=
    if (0 <=? i) && (i <? zlen v) then let* x := vget v i in Ok (DuVal x, v) else Abort.
  (* DualSegmentTree: 0 <= l <= r <= n is required *)
  Definition duspec (v : list T) (o : duop F) : res (duout T * list T) :=
    match o with
    | DuApply l r f => if (0 <=? l) && (l <=? r) && (r <=? zlen v) then Ok (DuUnit, apply_range l r f v) else UB
    | DuGet i => dget v i
    end.
  (* CommutativeDualSegmentTree asserts 0 <= l and r <= n; an empty or inverted range changes nothing *)
  Definition cduspec (v : list T) (o : duop F) : res (duout T * list T) :=
    match o with
    | DuApply l r f => if (0 <=? l) && (r <=? zlen v) then Ok (DuUnit, apply_range l r f v) else Abort
    | DuGet i => dget v i
    end.

  Record is_act (comp : F -> F -> F) (idf : F) : Prop := {
    a_comp : forall f g x, mapping (comp f g) x = mapping f (mapping g x);
    a_id : forall x, mapping idf x = x
  }.
End Spec.
