(* A window [l, r) over a fixed sequence and its extreme element. *)
From Verif Require Import Base SlideMin_model.

(* [i] is the leftmost (rightmost) minimum (maximum) of a[l], .., a[r-1] *)
Definition in_window (a : list Z) (l r : Z) (Q : Z -> Z -> Prop) : Prop := forall j y, l <= j < r -> vget a j = Ok y -> Q j y.
Definition left_min (a : list Z) (l r i : Z) : Prop := l <= i < r /\ exists x, vget a i = Ok x /\ in_window a l r (fun j y => x <= y /\ (y = x -> i <= j)).
Definition right_min (a : list Z) (l r i : Z) : Prop := l <= i < r /\ exists x, vget a i = Ok x /\ in_window a l r (fun j y => x <= y /\ (y = x -> j <= i)).
Definition left_max (a : list Z) (l r i : Z) : Prop := l <= i < r /\ exists x, vget a i = Ok x /\ in_window a l r (fun j y => y <= x /\ (y = x -> i <= j)).
Definition right_max (a : list Z) (l r i : Z) : Prop := l <= i < r /\ exists x, vget a i = Ok x /\ in_window a l r (fun j y => y <= x /\ (y = x -> j <= i)).

(* what each call may do to the window and answer; [best l r i]: i is the element wanted.  The right end
   may move up to n; the left end may move up to the right end. *)
Section Spec.
  Variables (a : list Z) (best : Z -> Z -> Z -> Prop).
  Definition sw_spec (w : Z * Z) (o : swop) (out : res (swret Z * (Z * Z))) : Prop :=
    let '(l, r) := w in
    match o, out with
    | SRight, Ok (RUnit, w') => r < zlen a /\ w' = (l, r + 1)
    | SRight, Abort => r = zlen a
    | SRightTo to, Ok (RUnit, w') => to <= zlen a /\ w' = (l, Z.max r to)
    | SRightTo to, Abort => zlen a < to
    | SLeft, Ok (RUnit, w') => l < r /\ w' = (l + 1, r)
    | SLeft, Abort => l = r
    | SLeftTo to, Ok (RUnit, w') => to <= r /\ w' = (Z.max l to, r)
    | SLeftTo to, Abort => r < to
    | SProc l1 r1, Ok (RUnit, w') => r1 <= zlen a /\ l1 <= Z.max r r1 /\ w' = (Z.max l l1, Z.max r r1)
    | SProc l1 r1, Abort => zlen a < r1 \/ Z.max r r1 < l1
    | SArg, Ok (RInt i, w') => best l r i /\ w' = w
    | SQuery, Ok (RVal x, w') => (exists i, best l r i /\ vget a i = Ok x) /\ w' = w
    | SArg, Abort | SQuery, Abort => l = r
    | SGetL, Ok (RInt z, w') => z = l /\ w' = w
    | SGetR, Ok (RInt z, w') => z = r /\ w' = w
    | SSize, Ok (RInt z, w') => z = r - l /\ w' = w
    | _, _ => False
    end.
End Spec.
