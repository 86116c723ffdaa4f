(* What the segment trees should do, on plain vectors. *)
From Verif Require Import Base Seq Hist.

Section Spec.
  Context {T : Type}.
  Variables (op : T -> T -> T) (e : T).

  Definition fold (l r : Z) (a : list T) : T := fold_right op e (slice l r a).

  Inductive sgop :=
  | SgSet (i : Z) (v : T) | SgApply (i : Z) (f : T -> T) | SgGet (i : Z)
  | SgProd (l r : Z) | SgPrefix (r : Z) | SgSuffix (l : Z) | SgAll | SgBuild (b : list T).
  Inductive sgout := SgUnit | SgVal (v : T).

  Definition in_range (i : Z) (a : list T) : bool := (0 <=? i) && (i <? zlen a).
  Definition in_interval (l r : Z) (a : list T) : bool := (0 <=? l) && (l <=? r) && (r <=? zlen a).

  (* [Abort]: the call must fail an assertion; [UB]: outside the contract *)
  Definition sgspec (a : list T) (o : sgop) : res (sgout * list T) :=
    match o with
    | SgSet i v => if in_range i a then Ok (SgUnit, zupd a i v) else Abort
    | SgApply i f => if in_range i a then let* x := vget a i in Ok (SgUnit, zupd a i (f x)) else Abort
    | SgGet i => if in_range i a then let* x := vget a i in Ok (SgVal x, a) else Abort
    | SgProd l r => if in_interval l r a then Ok (SgVal (fold l r a), a) else UB
    | SgPrefix r => if in_interval 0 r a then Ok (SgVal (fold 0 r a), a) else UB
    | SgSuffix l => if in_interval l (zlen a) a then Ok (SgVal (fold l (zlen a) a), a) else UB
    | SgAll => Ok (SgVal (fold_right op e a), a)
    | SgBuild b => if zlen b <=? zlen a then Ok (SgUnit, b ++ skipn (length b) a) else UB
    end.

  (* ---- with range updates -------------------------------------------------- *)
  Context {F : Type}.
  Variables (mapping : F -> T -> T) (comp : F -> F -> F) (idf : F).

  Record is_action : Prop := {
    act_op : forall f x y, mapping f (op x y) = op (mapping f x) (mapping f y);
    act_comp : forall f g x, mapping (comp f g) x = mapping f (mapping g x);
    act_id : forall x, mapping idf x = x
  }.

  Inductive lsop :=
  | LsApply (l r : Z) (f : F) | LsApply1 (i : Z) (f : F) | LsSet (i : Z) (v : T) | LsGet (i : Z)
  | LsProd (l r : Z) | LsPrefix (r : Z) | LsAll
  | LsMaxRight (l : Z) (g : T -> bool) | LsMinLeft (r : Z) (g : T -> bool).
  Inductive lsout := LsUnit | LsVal (v : T) | LsInt (r : Z).

  (* apply [f] to the elements l..r-1 *)
  Definition map_range (l r : Z) (h : T -> T) (a : list T) : list T :=
    firstn (Z.to_nat l) a ++ map h (slice l r a) ++ skipn (Z.to_nat r) a.

  (* true on an initial segment, false afterwards *)
  Fixpoint initial (bs : list bool) : bool :=
    match bs with [] => true | true :: bs => initial bs | false :: bs => forallb negb bs end.
  (* the predicate on the products of l..r-1 for r = l, l+1, ..., n *)
  Definition rights (g : T -> bool) (l : Z) (a : list T) : list bool :=
    map (fun k => g (fold l (l + k) a)) (zrange (zlen a - l + 1)).
  (* ... and of l..r-1 for l = r, r-1, ..., 0 *)
  Definition lefts (g : T -> bool) (r : Z) (a : list T) : list bool :=
    map (fun k => g (fold (r - k) r a)) (zrange (r + 1)).
  (* a right end for which [min_left] is broken in the code (theorem
     [lazy_min_left_refuted]): the full range, when the length is a power of two >= 2 *)
  Definition full_pow2 (r : Z) (a : list T) : bool := (r =? zlen a) && (2 <=? r) && (r =? 2 ^ Z.log2 r).
  Definition trues (bs : list bool) : Z := zlen (filter (fun b => b) bs).

  Definition lsspec (a : list T) (o : lsop) : res (lsout * list T) :=
    match o with
    | LsApply l r f => if in_interval l r a then Ok (LsUnit, map_range l r (mapping f) a) else Abort
    | LsApply1 i f => if in_range i a then let* x := vget a i in Ok (LsUnit, zupd a i (mapping f x)) else Abort
    | LsSet i v => if in_range i a then Ok (LsUnit, zupd a i v) else Abort
    | LsGet i => if in_range i a then let* x := vget a i in Ok (LsVal x, a) else Abort
    | LsProd l r => if in_interval l r a then Ok (LsVal (fold l r a), a) else Abort
    | LsPrefix r => if in_interval 0 r a then Ok (LsVal (fold 0 r a), a) else Abort
    | LsAll => Ok (LsVal (fold_right op e a), a)
    | LsMaxRight l g =>
        if in_interval l (zlen a) a then
          if g e then
            if initial (rights g l a) then Ok (LsInt (l + trues (rights g l a) - 1), a) else UB
          else Abort
        else Abort
    | LsMinLeft r g =>
        if in_interval 0 r a then
          if g e then
            if full_pow2 r a then UB else
            if initial (lefts g r a) then Ok (LsInt (r - (trues (lefts g r a) - 1)), a) else UB
          else Abort
        else Abort
    end.
End Spec.
Arguments sgop : clear implicits.
Arguments sgout : clear implicits.
Arguments lsop : clear implicits.
Arguments lsout : clear implicits.
