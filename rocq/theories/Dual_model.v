(* Model of library/datastructure/segment_tree/commutative_dual_segment_tree.hpp and
   dual_segment_tree.hpp: range apply, point get.  Indices are C++ ints, taken unbounded
   (n <= 2^30 keeps 2 * m within int).  The default constructors (which leave n and m
   uninitialised) are not modelled. *)
From Verif Require Import Base Bits SegTree_model.

Section Dual.
  Context {T F : Type}.
  Variables (mapping : F -> T -> T) (comp : F -> F -> F) (idf : F).

  (* commutative_dual_segment_tree.hpp:32-34 *)
  Record dseg := mkD { d_n : Z; d_m : Z; d_data : list T; d_lazy : list F }.

  (* commutative_dual_segment_tree.hpp:11-12 *)
  Definition dual_of (a : list T) : res dseg :=
    let* m := ceil_pow2 (zlen a) in
    Ok (mkD (zlen a) m a (vrep m idf)).
  (* commutative_dual_segment_tree.hpp:13 *)
  Definition dual_new (n : Z) (x : T) : res dseg := dual_of (vrep n x).

  (* commutative_dual_segment_tree.hpp:15-23 *)
  Definition dual_get (s : dseg) (i : Z) : res T :=
    assert_ ((0 <=? i) && (i <? d_n s)) ;;;
    let* x := vget (d_data s) i in
    loop (S (Z.to_nat (i + d_m s))) (fun '(i, x) =>
      if i =? 0 then Ok (inr x) else
      let* f := vget (d_lazy s) i in
      Ok (inl (i / 2, mapping f x))) ((i + d_m s) / 2, x).

  (* commutative_dual_segment_tree.hpp:36-42 *)
  Definition dual_apply_node (s : dseg) (k : Z) (f : F) : res dseg :=
    if k <? d_m s then
      let* g := vget (d_lazy s) k in
      let* lazy := vset (d_lazy s) k (comp f g) in
      Ok (mkD (d_n s) (d_m s) (d_data s) lazy)
    else if k - d_m s <? d_n s then
      let* x := vget (d_data s) (k - d_m s) in
      let* data := vset (d_data s) (k - d_m s) (mapping f x) in
      Ok (mkD (d_n s) (d_m s) data (d_lazy s))
    else Ok s.
  (* commutative_dual_segment_tree.hpp:26-29 *)
  Definition dual_walk (s : dseg) (l r : Z) (f : F) : res dseg :=
    loop (S (Z.to_nat r)) (fun '(l, r, s) =>
      if l <? r then
        let* (l, s) := (if Z.odd l then let* s := dual_apply_node s l f in Ok (l + 1, s) else Ok (l, s)) in
        let* (r, s) := (if Z.odd r then let* s := dual_apply_node s (r - 1) f in Ok (r - 1, s) else Ok (r, s)) in
        Ok (inl (l / 2, r / 2, s))
      else Ok (inr s)) (l, r, s).
  (* commutative_dual_segment_tree.hpp:24-30 *)
  Definition cdual_apply (s : dseg) (l r : Z) (f : F) : res dseg :=
    assert_ ((0 <=? l) && (r <=? d_n s)) ;;;
    dual_walk s (l + d_m s) (r + d_m s) f.

  (* dual_segment_tree.hpp:16-19 *)
  Definition dual_push (s : dseg) (k : Z) : res dseg :=
    let* f := vget (d_lazy s) k in
    let* s := dual_apply_node s (2 * k) f in
    let* f := vget (d_lazy s) k in
    let* s := dual_apply_node s (2 * k + 1) f in
    let* lazy := vset (d_lazy s) k idf in
    Ok (mkD (d_n s) (d_m s) (d_data s) lazy).
  (* dual_segment_tree.hpp:25-28, one round *)
  Definition push_body (l r i : Z) (s : dseg) : res dseg :=
    let* s := (if negb (l / 2 ^ i * 2 ^ i =? l) then dual_push s (l / 2 ^ i) else Ok s) in
    (if negb (r / 2 ^ i * 2 ^ i =? r) then dual_push s ((r - 1) / 2 ^ i) else Ok s).
  (* dual_segment_tree.hpp:20-29 *)
  Definition dual_push2 (s : dseg) (l r : Z) : res dseg :=
    let* log := ctz_ (d_m s) in
    let l := l + d_m s in let r := r + d_m s in
    ford_ log 0 (push_body l r) s.
  (* dual_segment_tree.hpp:11-14 *)
  Definition dual_apply (s : dseg) (l r : Z) (f : F) : res dseg :=
    let* s := dual_push2 s l r in
    cdual_apply s l r f.
End Dual.
Arguments dseg : clear implicits.

Inductive duop (F : Type) := DuApply (l r : Z) (f : F) | DuGet (i : Z).
Arguments DuApply {F}. Arguments DuGet {F}.
Inductive duout (T : Type) := DuUnit | DuVal (x : T).
Arguments DuUnit {T}. Arguments DuVal {T}.

Definition cdustep {T F} (mapping : F -> T -> T) comp (s : dseg T F) (o : duop F) : res (duout T * dseg T F) :=
  match o with
  | DuApply l r f => let* s := cdual_apply mapping comp s l r f in Ok (DuUnit, s)
  | DuGet i => let* x := dual_get mapping s i in Ok (DuVal x, s)
  end.
Definition dustep {T F} (mapping : F -> T -> T) comp idf (s : dseg T F) (o : duop F) : res (duout T * dseg T F) :=
  match o with
  | DuApply l r f => let* s := dual_apply mapping comp idf s l r f in Ok (DuUnit, s)
  | DuGet i => let* x := dual_get mapping s i in Ok (DuVal x, s)
  end.
