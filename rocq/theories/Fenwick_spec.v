(* What the Fenwick trees should do, on plain vectors. *)
From Verif Require Import Base Seq Hist.

Record is_abgroup {T} (zero : T) (add sub : T -> T -> T) (neg : T -> T) : Prop := {
  ab_assoc : forall a b c, add a (add b c) = add (add a b) c;
  ab_comm : forall a b, add a b = add b a;
  ab_zero : forall a, add zero a = a;
  ab_neg : forall a, add a (neg a) = zero;
  ab_sub : forall a b, sub a b = add a (neg b)
}.

Section Spec.
  Context {T : Type}.
  Variables (zero : T) (add sub : T -> T -> T) (neg : T -> T).
  Inductive fop := FAdd (i : Z) (v : T) | FSub (i : Z) (v : T) | FSet (i : Z) (v : T) | FSum (l r : Z) | FGet (i : Z).
  Inductive fout := FUnit | FVal (v : T).

  (* on a plain vector; [UB] marks calls outside the contract *)
  Definition fspec (a : list T) (o : fop) : res (fout * list T) :=
    match o with
    | FAdd i v => let* x := vget a i in Ok (FUnit, zupd a i (add x v))
    | FSub i v => let* x := vget a i in Ok (FUnit, zupd a i (sub x v))
    | FSet i v => let* x := vget a i in Ok (FUnit, zupd a i v)
    | FSum l r => if (0 <=? l) && (l <=? r) && (r <=? zlen a)
                  then Ok (FVal (fold_right add zero (slice l r a)), a) else UB
    | FGet i => let* x := vget a i in Ok (FVal x, a)
    end.
End Spec.
Arguments fop : clear implicits.
Arguments fout : clear implicits.

(* prefix version: commutative monoid *)
Section PSpec.
  Context {T : Type}.
  Variables (op : T -> T -> T) (e : T).
  Inductive pop := PApply (i : Z) (v : T) | PQuery (r : Z).
  Definition pspec (a : list T) (o : pop) : res (fout T * list T) :=
    match o with
    | PApply i v => let* x := vget a i in Ok (FUnit, zupd a i (op x v))
    | PQuery r => if (0 <=? r) && (r <=? zlen a)
                  then Ok (FVal (fold_right op e (slice 0 r a)), a) else UB
    end.
End PSpec.
Arguments pop : clear implicits.

(* two-dimensional version: a vector of rows of equal length *)
Section Spec2.
  Context {T : Type}.
  Variables (zero : T) (add sub : T -> T -> T).
  Inductive f2op := F2Add (i j : Z) (v : T) | F2Sum (xl xr yl yr : Z).
  Definition f2spec (m : Z) (a : list (list T)) (o : f2op) : res (fout T * list (list T)) :=
    match o with
    | F2Add i j v => let* row := vget a i in let* x := vget row j in
                     Ok (FUnit, zupd a i (zupd row j (add x v)))
    | F2Sum xl xr yl yr =>
        if (0 <=? xl) && (xl <=? xr) && (xr <=? zlen a) && (0 <=? yl) && (yl <=? yr) && (yr <=? m)
        then Ok (FVal (fold_right add zero (map (fun row => fold_right add zero (slice yl yr row)) (slice xl xr a))), a)
        else UB
    end.
End Spec2.
Arguments f2op : clear implicits.
