(* Model of library/number/bezout_equation.hpp.  long long arithmetic is unbounded Z, except the product of the two
   interval lengths in count(); division by zero is UB. *)
From Verif Require Import Base ExtGcd_model.

Definition bez_neginf : Z := - 2 ^ 62.      (* line 14: min() / 2 *)
Definition bez_posinf : Z := 2 ^ 62 - 1.    (* line 15: max() / 2 *)
Inductive bez_type := BNone | BArb | BLin.  (* lines 8-10 *)
(* lines 17-28 *)
Record bez := mkBez { z_t : bez_type; z_x0 : Z; z_cx : Z; z_y0 : Z; z_cy : Z; z_xl : Z; z_xh : Z; z_yl : Z; z_yh : Z }.
(* lines 29, 57-65 *)
Definition bez_mk (t : bez_type) (x0 cx y0 cy : Z) : bez := mkBez t x0 cx y0 cy bez_neginf bez_posinf bez_neginf bez_posinf.
Definition bez_none : bez := bez_mk BNone 0 0 0 0.
Definition bez_arb : bez := bez_mk BArb 0 1 0 1.
Definition bez_lin (x0 cx y0 cy : Z) : bez := bez_mk BLin x0 cx y0 cy.
(* lines 31-39 *)
Definition bez_pair (s : bez) (k : Z) : Z * Z := (z_x0 s + k * z_cx s, z_y0 s + k * z_cy s).
(* lines 41-49 *)
Definition bez_range (s : bez) : option (Z * Z) :=
  let kmin := Z.max (z_xl s) (z_yl s) in let kmax := Z.min (z_xh s) (z_yh s) in
  if kmin <=? kmax then Some (kmin, kmax) else None.
(* lines 52-55 *)
Definition bez_fld (x y : Z) : Z := Z.quot x y - Z.b2z ((Z.lxor x y <? 0) && negb (Z.rem x y =? 0)).
Definition bez_cld (x y : Z) : Z := Z.quot x y + Z.b2z ((0 <? Z.lxor x y) && negb (Z.rem x y =? 0)).
(* lines 67-75 *)
Definition bez_has (s : bez) : bool :=
  match z_t s with BNone => false | BArb => true | BLin => match bez_range s with Some _ => true | None => false end end.
(* lines 76-92; the value type is long long *)
Definition bez_count (s : bez) : res (option Z) :=
  match z_t s with
  | BNone => Ok (Some 0)
  | BArb => let* a := i64 (z_xh s - z_xl s + 1) in let* b := i64 (z_yh s - z_yl s + 1) in let* c := i64 (a * b) in Ok (Some c)
  | BLin => match bez_range s with
            | Some (kl, kr) => if (kl =? bez_neginf) || (kr =? bez_posinf) then Ok None else Ok (Some (kr - kl + 1))
            | None => Ok (Some 0)
            end
  end.
Definition set_t (s : bez) (t : bez_type) : bez := mkBez t (z_x0 s) (z_cx s) (z_y0 s) (z_cy s) (z_xl s) (z_xh s) (z_yl s) (z_yh s).
Definition set_xk (s : bez) (l h : Z) : bez := mkBez (if h <? l then BNone else z_t s) (z_x0 s) (z_cx s) (z_y0 s) (z_cy s) l h (z_yl s) (z_yh s).
Definition set_yk (s : bez) (l h : Z) : bez := mkBez (if h <? l then BNone else z_t s) (z_x0 s) (z_cx s) (z_y0 s) (z_cy s) (z_xl s) (z_xh s) l h.
Definition bez_live (s : bez) : bool := match z_t s with BNone => false | _ => true end.
(* lines 94-107; set_x_range (125-127) and set_y_range (158-160) are two calls in a row; the returned bool is bez_live of the new state *)
Definition bez_min_x (s : bez) (v : Z) : bez :=
  if negb (bez_live s) then s else
  if z_cx s =? 0 then (if z_x0 s <? v then set_t s BNone else s)
  else if 0 <? z_cx s then set_xk s (Z.max (z_xl s) (bez_cld (v - z_x0 s) (z_cx s))) (z_xh s)
  else set_xk s (z_xl s) (Z.min (z_xh s) (bez_fld (v - z_x0 s) (z_cx s))).
(* lines 109-123 *)
Definition bez_max_x (s : bez) (v : Z) : bez :=
  if negb (bez_live s) then s else
  if z_cx s =? 0 then (if v <? z_x0 s then set_t s BNone else s)
  else if 0 <? z_cx s then set_xk s (z_xl s) (Z.min (z_xh s) (bez_fld (v - z_x0 s) (z_cx s)))
  else set_xk s (Z.max (z_xl s) (bez_cld (v - z_x0 s) (z_cx s))) (z_xh s).
(* lines 128-141 *)
Definition bez_min_y (s : bez) (v : Z) : bez :=
  if negb (bez_live s) then s else
  if z_cy s =? 0 then (if z_y0 s <? v then set_t s BNone else s)
  else if 0 <? z_cy s then set_yk s (Z.max (z_yl s) (bez_cld (v - z_y0 s) (z_cy s))) (z_yh s)
  else set_yk s (z_yl s) (Z.min (z_yh s) (bez_fld (v - z_y0 s) (z_cy s))).
(* lines 143-157 *)
Definition bez_max_y (s : bez) (v : Z) : bez :=
  if negb (bez_live s) then s else
  if z_cy s =? 0 then (if v <? z_y0 s then set_t s BNone else s)
  else if 0 <? z_cy s then set_yk s (z_yl s) (Z.min (z_yh s) (bez_fld (v - z_y0 s) (z_cy s)))
  else set_yk s (Z.max (z_yl s) (bez_cld (v - z_y0 s) (z_cy s))) (z_yh s).
(* lines 162-174 *)
Definition bez_pick (kl kr : Z) : Z := if negb (kl =? bez_neginf) then kl else if negb (kr =? bez_posinf) then kr else 0.
Definition bez_ends (s : bez) (arb : Z * Z) (c : Z) (low : bool) : res (Z * Z) :=
  assert_ (bez_has s) ;;;
  match z_t s with
  | BArb => Ok arb
  | _ => match bez_range s with
         | Some (kl, kr) => Ok (bez_pair s (if c =? 0 then bez_pick kl kr else if low then kl else kr))
         | None => UB
         end
  end.
Definition bez_xmin (s : bez) : res (Z * Z) := bez_ends s (z_xl s, z_yl s) (z_cx s) (0 <=? z_cx s).
(* lines 175-187 *)
Definition bez_xmax (s : bez) : res (Z * Z) := bez_ends s (z_xh s, z_yh s) (z_cx s) (z_cx s <=? 0).
(* lines 188-200 *)
Definition bez_ymin (s : bez) : res (Z * Z) := bez_ends s (z_xl s, z_yl s) (z_cy s) (0 <=? z_cy s).
(* lines 201-213 *)
Definition bez_ymax (s : bez) : res (Z * Z) := bez_ends s (z_xh s, z_yh s) (z_cy s) (z_cy s <=? 0).
(* lines 217-245: the constructor followed by solve(z) *)
Definition bez_solve (a b z : Z) : res bez :=
  let* (x, y, g) := ext_gcd a b in
  if g =? 0 then Ok (if negb (z =? 0) then bez_none else bez_arb)
  else if negb (Z.rem z g =? 0) then Ok bez_none
  else
    let cx := Z.quot b g in let cy := Z.quot (- a) g in
    let z := Z.quot z g in
    let x0 := x * z in let y0 := y * z in
    if cx =? 0 then UB else
    let k0 := Z.quot (- x0) cx in
    Ok (bez_lin (x0 + k0 * cx) cx (y0 + k0 * cy) cy).
