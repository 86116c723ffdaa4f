(* Model of library/datastructure/segment_tree/li_chao_segment_tree.hpp with T = long long.
   std::sort, std::unique, std::lower_bound and std::upper_bound are those of
   Compress_model.v; indices are unbounded (they are below 2^31). *)
From Verif Require Import Base Sorting Compress_model SegTree_model.

(* li_chao_segment_tree.hpp:12-22; T max *)
Definition line : Type := Z * Z.
Definition tmax : Z := 2 ^ 63 - 1.
Definition tmin : Z := - 2 ^ 63.
Definition line_e : line := (0, tmax).
Definition line_eqb (f g : line) : bool := (fst f =? fst g) && (snd f =? snd g).
Definition lc_eval (f : line) (x : Z) : res Z :=
  if line_eqb f line_e then Ok tmax else let* p := i64 (fst f * x) in i64 (p + snd f).
Definition line_neg (f : line) : res line := let* a := i64 (- fst f) in let* b := i64 (- snd f) in Ok (a, b).

(* li_chao_segment_tree.hpp:90-92 *)
Record lichao := LC { lc_pos : list Z; lc_n : Z; lc_m : Z; lc_log : Z; lc_seg : list line }.
(* li_chao_segment_tree.hpp:99-101: 31 - __builtin_clz(n), undefined for 0 *)
Definition lc_floor_log2 (n : Z) : res Z := if 0 <? n then Ok (Z.log2 n) else UB.
(* li_chao_segment_tree.hpp:28-36; ceil_pow2 (94-98) is the loop of SegTree_model.v *)
Definition lc_new (xs : list Z) : res lichao :=
  let pos := unique (isort Z.leb xs) in
  let n := zlen pos in
  let* m := ceil_pow2 n in
  let* lg := lc_floor_log2 m in
  let* fill := (if n =? 0 then Ok 0 else vget pos (n - 1)) in
  Ok (LC (pos ++ vrep (m - n) fill) n m lg (vrep (2 * m) line_e)).

(* li_chao_segment_tree.hpp:102-106 *)
Definition lc_range (s : lichao) (k : Z) : res (Z * Z) :=
  let* lk := lc_floor_log2 k in
  let log_w := lc_log s - lk in
  let w := 2 ^ log_w in
  let l := k * 2 ^ log_w - lc_m s in
  Ok (l, l + w).
(* li_chao_segment_tree.hpp:110-124, one round *)
Definition lc_body (pos : list Z) (st : list line * Z * Z * Z * Z * line) : res ((list line * Z * Z * Z * Z * line) + list line) :=
  let '(seg, k, l, r, w, f) := st in
  if w =? 0 then Ok (inr seg) else
  let* g := vget seg k in
  let* xl := vget pos l in
  let* xm := vget pos ((l + r) / 2) in
  let* xr := vget pos (r - 1) in
  let* fl := lc_eval f xl in let* fm := lc_eval f xm in let* fr := lc_eval f xr in
  let* gl := lc_eval g xl in let* gm := lc_eval g xm in let* gr := lc_eval g xr in
  let* (seg, f, fl, fr, gl, gr) :=
    (if fm <? gm then let* seg := vset seg k f in Ok (seg, g, gl, gr, fl, fr) else Ok (seg, f, fl, fr, gl, gr)) in
  let k := 2 * k in let w := w / 2 in
  if fl <? gl then Ok (inl (seg, k, l, r - w, w, f))
  else if fr <? gr then Ok (inl (seg, k + 1, l + w, r, w, f))
  else Ok (inr seg).
(* li_chao_segment_tree.hpp:108-125 *)
Definition lc_insert (s : lichao) (k : Z) (f : line) : res lichao :=
  let* (l, r) := lc_range s k in
  let* seg := loop (S (S (Z.to_nat (r - l)))) (lc_body (lc_pos s)) (lc_seg s, k, l, r, r - l, f) in
  Ok (LC (lc_pos s) (lc_n s) (lc_m s) (lc_log s) seg).
(* li_chao_segment_tree.hpp:39-50; [neg] is [not is_min_query] *)
Definition lc_walk (f : line) (st : Z * Z * lichao) : res ((Z * Z * lichao) + lichao) :=
  let '(l, r, s) := st in
  if l <? r then
    let* (l, s) := (if Z.odd l then let* s := lc_insert s l f in Ok (l + 1, s) else Ok (l, s)) in
    let* (r, s) := (if Z.odd r then let* s := lc_insert s (r - 1) f in Ok (r - 1, s) else Ok (r, s)) in
    Ok (inl (l / 2, r / 2, s))
  else Ok (inr s).
Definition lc_add (neg : bool) (s : lichao) (min_x max_x a b : Z) : res lichao :=
  let* f := (if neg then line_neg (a, b) else Ok (a, b)) in
  let l := lower_bound (lc_pos s) min_x in
  let r := upper_bound (lc_pos s) max_x in
  let r := if r =? lc_n s then lc_m s else r in
  loop (S (Z.to_nat (r + lc_m s))) (lc_walk f) (l + lc_m s, r + lc_m s, s).
(* li_chao_segment_tree.hpp:53-55 *)
Definition lc_add_line (neg : bool) (s : lichao) (a b : Z) : res lichao := lc_add neg s tmin tmax a b.
(* li_chao_segment_tree.hpp:68-71 *)
Definition lc_up (seg : list line) (x : Z) (st : Z * bool * Z) : res ((Z * bool * Z) + (bool * Z)) :=
  let '(p, none, r) := st in
  if p =? 0 then Ok (inr (none, r)) else
  let* g := vget seg p in
  let* v := lc_eval g x in
  Ok (inl (p / 2, none && line_eqb g line_e, Z.min r v)).
(* li_chao_segment_tree.hpp:63-78 *)
Definition lc_query (neg : bool) (s : lichao) (x : Z) : res (option Z) :=
  let p := lower_bound (lc_pos s) x in
  let* y := vget (lc_pos s) p in
  assert_ (y =? x) ;;;
  let* (none, r) := loop (S (Z.to_nat (p + lc_m s))) (lc_up (lc_seg s) x) (p + lc_m s, true, tmax) in
  if none then Ok None else
  if neg then let* r := i64 (- r) in Ok (Some r) else Ok (Some r).

Inductive lcop := LcAdd (min_x max_x a b : Z) | LcLine (a b : Z) | LcQuery (x : Z).
Inductive lcout := LcUnit | LcAns (r : option Z).
Definition lc_step (neg : bool) (s : lichao) (o : lcop) : res (lcout * lichao) :=
  match o with
  | LcAdd lo hi a b => let* s := lc_add neg s lo hi a b in Ok (LcUnit, s)
  | LcLine a b => let* s := lc_add_line neg s a b in Ok (LcUnit, s)
  | LcQuery x => let* r := lc_query neg s x in Ok (LcAns r, s)
  end.
