(* convolution/subset_convolution.hpp and the operations of polynomial/fps_naive.hpp it uses.  The coefficient type and its operations are parameters. *)
From Verif Require Import Base Bits RingSum Transform_spec Transform_model.
Section SubConv.
  Context {T : Type}.
  Variables (r0 : T) (add sub mul : T -> T -> T).
  (* library/polynomial/fps_naive.hpp:265-267 *)
  Definition ensure_deg (f : list T) (d : Z) : list T := f ++ vrep (d + 1 - zlen f) r0.
  (* fps_naive.hpp:33-35, assignment through the non-const operator[] *)
  Definition fset (f : list T) (i : Z) (v : T) : res (list T) := vset (ensure_deg f i) i v.
  (* fps_naive.hpp:30-32, the const operator[] *)
  Definition fget (f : list T) (i : Z) : res T := if i <=? zlen f - 1 then vget f i else Ok r0.
  (* fps_naive.hpp:69-73 and 74-78 (op is + or -): the vector is padded with zeros, then combined entry by entry *)
  Fixpoint fop (op : T -> T -> T) (f g : list T) : list T :=
    match f, g with
    | _, [] => f
    | [], y :: g => op r0 y :: fop op [] g
    | x :: f, y :: g => op x y :: fop op f g
    end.
  (* fps_naive.hpp:147-158 *)
  Definition fmul (f g : list T) (n : Z) : res (list T) :=
    let n := if n <? 0 then zlen f else n in
    if (zlen f =? 0) || (zlen g =? 0) then Ok [] else
    let m := zlen f in let k := zlen g in
    for_ 0 m (fun i h => for_ 0 (Z.min k (n - i)) (fun j h =>
      let* x := vget f i in let* y := vget g j in
      let* z := vget h (i + j) in vset h (i + j) (add z (mul x y))) h) (vrep (Z.min n (m + k - 1)) r0).
  (* library/convolution/subset_convolution.hpp:14-20 *)
  Definition ranked (a : list T) : res (list (list T)) :=
    let n := zlen a in
    assert_ (Z.land (- n) n =? n) ;;;
    let* c := ctz_ n in
    for_ 0 n (fun i fs =>
      let* f := vget fs i in let* v := vget a i in
      let* f := fset f (popcount i) v in vset fs i f) (vrep n (vrep (c + 1) r0)).
  (* subset_convolution.hpp:22-28 *)
  Definition deranked (polys : list (list T)) : res (list T) :=
    let n := zlen polys in
    assert_ (Z.land (- n) n =? n) ;;;
    for_ 0 n (fun i a => let* f := vget polys i in let* v := fget f (popcount i) in vset a i v) (vrep n r0).
  (* subset_convolution.hpp:31-36 *)
  Definition ranked_zeta (a : list T) : res (list (list T)) := let* r := ranked a in subset_zeta [] (fop add) r.
  (* subset_convolution.hpp:37-41 *)
  Definition deranked_mobius (r : list (list T)) : res (list T) := let* r := subset_mobius [] (fop sub) r in deranked r.
  (* subset_convolution.hpp:44-50 *)
  Definition subset_convolution (a b : list T) : res (list T) :=
    let n := zlen a in
    let* ra := ranked_zeta a in
    let* rb := ranked_zeta b in
    let* ra := for_ 0 n (fun i ra =>
      let* f := vget ra i in let* g := vget rb i in
      let* h := fmul f g (zlen f) in vset ra i h) ra in
    deranked_mobius ra.
End SubConv.
