(* algebra/monoid/affine.hpp and affine_clamp.hpp with T = long long: products and sums in T that do not fit are undefined behaviour; those in __int128_t always fit. *)
From Verif Require Import Base AffC_spec.
(* library/algebra/monoid/affine.hpp:10, library/algebra/monoid/affine_clamp.hpp:16 *)
Record ac := AC { ca : Z; cb : Z; cl : Z; cr : Z }.
(* library/algebra/monoid/affine_clamp.hpp:13-14, 17, 20 *)
Definition ac_id : ac := AC 1 0 (- 2 ^ 63) (2 ^ 63 - 1).
(* library/algebra/monoid/affine.hpp:18-19 affine<T> *)
Definition affine_T (f : ac) (x : Z) : res Z := let* p := i64 (ca f * x) in i64 (p + cb f).
(* library/algebra/monoid/affine_clamp.hpp:29: std::clamp with hi < lo is undefined behaviour *)
Definition affine_clamp (f : ac) (x : Z) : res Z :=
  if cr f <? cl f then UB else
  let v := ca f * x + cb f in
  Ok (if v <? cl f then cl f else if cr f <? v then cr f else v).
(* library/algebra/monoid/affine.hpp:14-16, library/algebra/monoid/affine_clamp.hpp:21-25 *)
Definition ac_compose (f g : ac) : res ac :=
  let* a := i64 (ca f * ca g) in
  let* b := affine_T f (cb g) in
  let* l := affine_clamp f (cl g) in
  let* r := affine_clamp f (cr g) in
  if r <? l then Ok (AC a b r l) else Ok (AC a b l r).
(* library/algebra/monoid/affine.hpp:40 operator== (the only one found for AffineClamp) *)
Definition ac_eqb (f g : ac) : bool := (ca f =? ca g) && (cb f =? cb g).
(* a fold of functions as a segment tree does it: each new function is applied after the earlier ones *)
Definition ac_fold (fs : list ac) : res ac := for_each fs (fun f h => ac_compose f h) ac_id.
(* a well-formed value: the members are 64-bit integers and the bounds are in order (library/algebra/monoid/affine_clamp.hpp:16-18) *)
Definition fits (f : ac) : Prop := in64 (ca f) /\ in64 (cb f) /\ in64 (cl f) /\ in64 (cr f) /\ cl f <= cr f.
