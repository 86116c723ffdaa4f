(* Model of library/datastructure/slope_trick.hpp.  T is Z (no overflow), the constant inf is a parameter.
   std::priority_queue is a list: top is its extreme element, pop removes one occurrence of it. *)
From Verif Require Import Base Slope_spec.

Definition top_max (l : list Z) : res Z := match l with [] => UB | x :: r => Ok (fold_right Z.max x r) end.
Definition top_min (l : list Z) : res Z := match l with [] => UB | x :: r => Ok (fold_right Z.min x r) end.
Fixpoint rem1 (m : Z) (l : list Z) : list Z := match l with [] => [] | x :: r => if x =? m then r else x :: rem1 m r end.
Definition pop_max (l : list Z) : res (list Z) := let* m := top_max l in Ok (rem1 m l).
Definition pop_min (l : list Z) : res (list Z) := let* m := top_min l in Ok (rem1 m l).
(* lines 95-98 *)
Record slope := mkS { s_base : Z; s_al : Z; s_ar : Z; s_l : list Z; s_r : list Z }.
(* lines 20-22 *)
Definition sl_new (inf : Z) : slope := mkS 0 0 0 [- inf] [inf].
(* lines 24-26 *)
Definition sl_min (s : slope) : Z := s_base s.
(* lines 27-29 *)
Definition sl_argmin (s : slope) : res (Z * Z) := let* a := top_max (s_l s) in let* b := top_min (s_r s) in Ok (a + s_al s, b + s_ar s).
(* lines 30-33 *)
Definition sl_const (s : slope) (a : Z) : slope := mkS (s_base s + a) (s_al s) (s_ar s) (s_l s) (s_r s).
(* lines 35-43 *)
Definition sl_right (s : slope) (a : Z) : res slope :=
  let* t := top_max (s_l s) in
  if t + s_al s <=? a then Ok (mkS (s_base s) (s_al s) (s_ar s) (s_l s) (a - s_ar s :: s_r s))
  else
    let base := s_base s + (t + s_al s - a) in
    let l := a - s_al s :: s_l s in
    let* t := top_max l in
    let r := t + s_al s - s_ar s :: s_r s in
    let* l := pop_max l in
    Ok (mkS base (s_al s) (s_ar s) l r).
(* lines 45-53 *)
Definition sl_left (s : slope) (a : Z) : res slope :=
  let* t := top_min (s_r s) in
  if a <=? t + s_ar s then Ok (mkS (s_base s) (s_al s) (s_ar s) (a - s_al s :: s_l s) (s_r s))
  else
    let base := s_base s + (a - (t + s_ar s)) in
    let r := a - s_ar s :: s_r s in
    let* t := top_min r in
    let l := t + s_ar s - s_al s :: s_l s in
    let* r := pop_min r in
    Ok (mkS base (s_al s) (s_ar s) l r).
(* lines 55-58 *)
Definition sl_abs (s : slope) (a : Z) : res slope := let* s := sl_left s a in sl_right s a.
(* lines 59-66 *)
Definition sl_cml (inf : Z) (s : slope) : slope := mkS (s_base s) (s_al s) (s_ar s) (s_l s) [inf].
Definition sl_cmr (inf : Z) (s : slope) : slope := mkS (s_base s) (s_al s) (s_ar s) [- inf] (s_r s).
(* lines 67-74 *)
Definition sl_shl (s : slope) (d : Z) : slope := mkS (s_base s) (s_al s - d) (s_ar s - d) (s_l s) (s_r s).
Definition sl_shr (s : slope) (d : Z) : slope := mkS (s_base s) (s_al s + d) (s_ar s + d) (s_l s) (s_r s).
(* lines 75-77 *)
Definition sl_tr (s : slope) (d : Z) : slope := if 0 <=? d then sl_shr s d else sl_shl s (- d).
(* lines 79-83 *)
Definition sl_slide (s : slope) (a b : Z) : res slope := assert_ (a <=? b) ;;; Ok (mkS (s_base s) (s_al s + a) (s_ar s + b) (s_l s) (s_r s)).
Definition sl_do (inf : Z) (o : sop) (s : slope) : res slope :=
  match o with
  | AddConst a => Ok (sl_const s a)
  | AddRight a => sl_right s a
  | AddLeft a => sl_left s a
  | AddAbs a => sl_abs s a
  | CumMinLeft => Ok (sl_cml inf s)
  | CumMinRight => Ok (sl_cmr inf s)
  | ShiftL d => Ok (sl_shl s d)
  | ShiftR d => Ok (sl_shr s d)
  | Translate d => Ok (sl_tr s d)
  | Slide a b => sl_slide s a b
  end.
Definition sl_run (inf : Z) (os : list sop) : res slope := for_each os (sl_do inf) (sl_new inf).
