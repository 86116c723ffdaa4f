(* XorBase: library/linear_algebra/xor_base.hpp
   T is an unsigned integer type; a value is a non-negative Z, [^] is Z.lxor, [<] is Z.ltb.
   The width of T is immaterial: no operation leaves the set of words of a given width. *)
From Verif Require Import Base.

(* xor_base.hpp:60: the only field is the vector _basis *)
Definition xor_base := list Z.

(* xor_base.hpp:15, the loop of [add]: for each e in order, v becomes e^v if that is smaller *)
Definition reduce (basis : list Z) (v : Z) : Z :=
  fold_left (fun v e => let w := Z.lxor e v in if w <? v then w else v) basis v.
(* xor_base.hpp:14-17 *)
Definition xb_add (b : xor_base) (v : Z) : xor_base * bool :=
  let v := reduce b v in if negb (v =? 0) then (b ++ [v], true) else (b, false).
(* xor_base.hpp:9 *)
Definition xb_empty : xor_base := [].
(* xor_base.hpp:10-12 *)
Definition xb_of (a : list Z) : xor_base := fold_left (fun b v => fst (xb_add b v)) a xb_empty.
(* xor_base.hpp:18-21 *)
Definition xb_plus_assign (b rhs : xor_base) : xor_base := fold_left (fun b e => fst (xb_add b e)) rhs b.
(* xor_base.hpp:22-25 *)
Definition xb_plus_assign_word (b : xor_base) (v : Z) : xor_base := fst (xb_add b v).
(* xor_base.hpp:26-30 *)
Definition xb_plus (b rhs : xor_base) : xor_base := xb_plus_assign b rhs.
(* xor_base.hpp:31-33 *)
Definition xb_plus_word (b : xor_base) (v : Z) : xor_base := xb_plus b (xb_of [v]).

(* xor_base.hpp:42: the inner loop of [intersection] on the pair (e, s) *)
Definition reduce_pair (basis : list (Z * Z)) (es : Z * Z) : Z * Z :=
  fold_left (fun '(e, s) '(v, t) => let w := Z.lxor e v in if w <? e then (w, Z.lxor s t) else (e, s)) basis es.
(* xor_base.hpp:35-47; s starts at 0 because T is an integer type *)
Definition xb_intersection (b rhs : xor_base) : xor_base :=
  snd (fold_left (fun '(basis, r) e =>
    let '(e, s) := reduce_pair basis (e, 0) in
    if negb (e =? 0) then (basis ++ [(e, s)], r) else (basis, fst (xb_add r s)))
    rhs (map (fun e => (e, e)) b, xb_empty)).
(* xor_base.hpp:55 *)
Definition xb_dim (b : xor_base) : Z := zlen b.
