(* Model of library/datastructure/segment_tree/segment_tree.hpp and
   lazy_segment_tree.hpp (enable_beats = false).  Indices are C++ ints, taken
   unbounded (n <= 2^30 keeps 2 * m within int).  SegmentTree::max_right and
   min_left are not modelled: they use the function pointer [e] as a value and
   cannot be instantiated. *)
From Verif Require Import Base Bits.

(* segment_tree.hpp:102-106, lazy_segment_tree.hpp:113-117 *)
Definition ceil_pow2 (n : Z) : res Z :=
  loop (S (Z.to_nat n)) (fun m => if m <? n then Ok (inl (2 * m)) else Ok (inr m)) 1.

(* std::copy(a.begin(), a.end(), data.begin() + m) *)
Definition copy_at {T} (a : list T) (data : list T) (m : Z) : res (list T) :=
  for_ 0 (zlen a) (fun i data => let* x := vget a i in vset data (m + i) x) data.

Section Seg.
  Context {T : Type}.
  Variables (op : T -> T -> T) (e : T).

  (* segment_tree.hpp:98-99 *)
  Record seg := mkSeg { sg_n : Z; sg_m : Z; sg_data : list T }.

  (* segment_tree.hpp:110-112, lazy_segment_tree.hpp:140-142 *)
  Definition node_update (data : list T) (k : Z) : res (list T) :=
    let* x := vget data (k * 2) in
    let* y := vget data (k * 2 + 1) in
    vset data k (op x y).

  (* segment_tree.hpp:15-23 *)
  Definition seg_build (s : seg) (a : list T) : res seg :=
    assert_ (zlen a <=? sg_m s) ;;;
    let* data := copy_at a (sg_data s) (sg_m s) in
    let* data := ford_ (sg_m s - 1) 0 (fun k data => node_update data k) data in
    Ok (mkSeg (sg_n s) (sg_m s) data).
  Definition seg_of (a : list T) : res seg :=
    let* m := ceil_pow2 (zlen a) in
    seg_build (mkSeg (zlen a) m (vrep (2 * m) e)) a.
  (* segment_tree.hpp:14 *)
  Definition seg_new (n : Z) : res seg := seg_of (vrep n e).

  (* segment_tree.hpp:24-27 *)
  Definition seg_get (s : seg) (i : Z) : res T :=
    assert_ ((0 <=? i) && (i <? sg_n s)) ;;;
    vget (sg_data s) (i + sg_m s).

  (* segment_tree.hpp:29-34, lazy_segment_tree.hpp:37-42: the bottom-up walk *)
  Definition seg_walk (data : list T) (l r : Z) : res T :=
    loop (S (Z.to_nat r)) (fun '(l, r, rl, rr) =>
      if l <? r then
        let* (l, rl) := (if Z.odd l then let* x := vget data l in Ok (l + 1, op rl x) else Ok (l, rl)) in
        let* (r, rr) := (if Z.odd r then let* x := vget data (r - 1) in Ok (r - 1, op x rr) else Ok (r, rr)) in
        Ok (inl (l / 2, r / 2, rl, rr))
      else Ok (inr (op rl rr))) (l, r, e, e).
  (* segment_tree.hpp:28-35 *)
  Definition seg_prod (s : seg) (l r : Z) : res T :=
    seg_walk (sg_data s) (l + sg_m s) (r + sg_m s).
  (* segment_tree.hpp:37-39 *)
  Definition seg_prefix (s : seg) (r : Z) : res T := seg_prod s 0 r.
  Definition seg_suffix (s : seg) (l : Z) : res T := seg_prod s l (sg_m s).
  Definition seg_all (s : seg) : res T := vget (sg_data s) 1.

  (* segment_tree.hpp:107-109: the loop [for (k >>= 1; k; k >>= 1)] *)
  Definition seg_update_from (data : list T) (k : Z) : res (list T) :=
    loop (S (Z.to_nat k)) (fun '(k, data) =>
      if k =? 0 then Ok (inr data) else
      let* data := node_update data k in
      Ok (inl (k / 2, data))) (k / 2, data).
  (* segment_tree.hpp:41-48: [set] assigns through the proxy of operator[] *)
  Definition seg_set (s : seg) (i : Z) (v : T) : res seg :=
    assert_ ((0 <=? i) && (i <? sg_n s)) ;;;
    let k := i + sg_m s in
    let* data := vset (sg_data s) k v in
    let* data := seg_update_from data k in
    Ok (mkSeg (sg_n s) (sg_m s) data).
  (* update_proxy_object.hpp:23-24  [seg[i].apply(f)]; [+=] etc. are instances *)
  Definition seg_apply (s : seg) (i : Z) (f : T -> T) : res seg :=
    assert_ ((0 <=? i) && (i <? sg_n s)) ;;;
    let k := i + sg_m s in
    let* x := vget (sg_data s) k in
    let* data := vset (sg_data s) k (f x) in
    let* data := seg_update_from data k in
    Ok (mkSeg (sg_n s) (sg_m s) data).
End Seg.
Arguments seg : clear implicits.

(* ---- LazySegmentTree<T, op, e, F, mapping, composition, id> ----------------- *)
Section Lazy.
  Context {T F : Type}.
  Variables (op : T -> T -> T) (e : T) (mapping : F -> T -> T) (comp : F -> F -> F) (idf : F).

  (* lazy_segment_tree.hpp:109-111 *)
  Record lseg := mkLseg { ls_n : Z; ls_m : Z; ls_lg : Z; ls_data : list T; ls_lazy : list F }.
  Definition ls_put (s : lseg) (data : list T) (lazy : list F) : lseg :=
    mkLseg (ls_n s) (ls_m s) (ls_lg s) data lazy.

  (* lazy_segment_tree.hpp:16-19 *)
  Definition lseg_of (a : list T) : res lseg :=
    let n := zlen a in
    let* m := ceil_pow2 n in
    let* lg := ctz_ m in
    let* data := copy_at a (vrep (2 * m) e) m in
    let* data := ford_ (m - 1) 0 (fun k data => node_update op data k) data in
    Ok (mkLseg n m lg data (vrep m idf)).
  (* lazy_segment_tree.hpp:15 *)
  Definition lseg_new (n : Z) : res lseg := lseg_of (vrep n e).

  (* lazy_segment_tree.hpp:119-125 *)
  Definition all_apply (s : lseg) (k : Z) (f : F) : res lseg :=
    let* x := vget (ls_data s) k in
    let* data := vset (ls_data s) k (mapping f x) in
    if k <? ls_m s then
      let* g := vget (ls_lazy s) k in
      let* lazy := vset (ls_lazy s) k (comp f g) in
      Ok (ls_put s data lazy)
    else Ok (ls_put s data (ls_lazy s)).
  (* lazy_segment_tree.hpp:126-129 *)
  Definition lpush (s : lseg) (k : Z) : res lseg :=
    let* f := vget (ls_lazy s) k in
    let* s := all_apply s (2 * k) f in
    let* f := vget (ls_lazy s) k in
    let* s := all_apply s (2 * k + 1) f in
    let* lazy := vset (ls_lazy s) k idf in
    Ok (ls_put s (ls_data s) lazy).
  (* lazy_segment_tree.hpp:132, 137, 138: [for (int i = lg; i >= lo + 1; --i) push(p >> i)] *)
  Definition push_path (s : lseg) (p lo : Z) : res lseg :=
    ford_ (ls_lg s) lo (fun i s => lpush s (p / 2 ^ i)) s.
  (* lazy_segment_tree.hpp:130-133 *)
  Definition push_to1 (s : lseg) (p : Z) : res lseg := push_path s (p + ls_m s) 0.
  (* lazy_segment_tree.hpp:134-139 *)
  Definition push_to2 (s : lseg) (l r : Z) : res lseg :=
    let l := l + ls_m s in let r := r + ls_m s in
    let* li := ctz_ l in
    let* ri := ctz_ r in
    let* s := push_path s l li in
    push_path s r ri.
  (* lazy_segment_tree.hpp:140-142 *)
  Definition lupdate (s : lseg) (k : Z) : res lseg :=
    let* data := node_update op (ls_data s) k in
    Ok (ls_put s data (ls_lazy s)).
  (* lazy_segment_tree.hpp:145, 150, 151 *)
  Definition update_path (s : lseg) (p lo : Z) : res lseg :=
    for_ (lo + 1) (ls_lg s + 1) (fun i s => lupdate s (p / 2 ^ i)) s.
  (* lazy_segment_tree.hpp:143-146 *)
  Definition update_from1 (s : lseg) (p : Z) : res lseg := update_path s (p + ls_m s) 0.
  (* lazy_segment_tree.hpp:147-152 *)
  Definition update_from2 (s : lseg) (l r : Z) : res lseg :=
    let l := l + ls_m s in let r := r + ls_m s in
    let* li := ctz_ l in
    let* ri := ctz_ r in
    let* s := update_path s l li in
    update_path s r ri.

  (* lazy_segment_tree.hpp:24-27 *)
  Definition apply_walk (s : lseg) (l r : Z) (f : F) : res lseg :=
    loop (S (Z.to_nat r)) (fun '(l, r, s) =>
      if l <? r then
        let* (l, s) := (if Z.odd l then let* s := all_apply s l f in Ok (l + 1, s) else Ok (l, s)) in
        let* (r, s) := (if Z.odd r then let* s := all_apply s (r - 1) f in Ok (r - 1, s) else Ok (r, s)) in
        Ok (inl (l / 2, r / 2, s))
      else Ok (inr s)) (l, r, s).
  (* lazy_segment_tree.hpp:21-29 *)
  Definition lseg_apply (s : lseg) (l r : Z) (f : F) : res lseg :=
    assert_ ((0 <=? l) && (l <=? r) && (r <=? ls_n s)) ;;;
    let* s := push_to2 s l r in
    let* s := apply_walk s (l + ls_m s) (r + ls_m s) f in
    update_from2 s l r.

  (* lazy_segment_tree.hpp:34-43 *)
  Definition lseg_prod (s : lseg) (l r : Z) : res (T * lseg) :=
    assert_ ((0 <=? l) && (l <=? r) && (r <=? ls_n s)) ;;;
    let* s := push_to2 s l r in
    let* x := seg_walk op e (ls_data s) (l + ls_m s) (r + ls_m s) in
    Ok (x, s).
  (* lazy_segment_tree.hpp:46-48 *)
  Definition lseg_prefix (s : lseg) (r : Z) : res (T * lseg) := lseg_prod s 0 r.
  Definition lseg_suffix (s : lseg) (l : Z) : res (T * lseg) := lseg_prod s l (ls_m s).
  Definition lseg_all (s : lseg) : res T := vget (ls_data s) 1.

  (* lazy_segment_tree.hpp:50-54, 55 (get: conversion of the proxy, no update) *)
  Definition lseg_get (s : lseg) (p : Z) : res (T * lseg) :=
    assert_ ((0 <=? p) && (p <? ls_n s)) ;;;
    let* s := push_to1 s p in
    let* x := vget (ls_data s) (p + ls_m s) in
    Ok (x, s).
  (* lazy_segment_tree.hpp:56 *)
  Definition lseg_set (s : lseg) (p : Z) (v : T) : res lseg :=
    assert_ ((0 <=? p) && (p <? ls_n s)) ;;;
    let* s := push_to1 s p in
    let* data := vset (ls_data s) (p + ls_m s) v in
    update_from1 (ls_put s data (ls_lazy s)) p.
  (* lazy_segment_tree.hpp:30-32 (the right operand is evaluated first in C++17;
     either order gives the same state) *)
  Definition lseg_apply1 (s : lseg) (p : Z) (f : F) : res lseg :=
    let* (x, s) := lseg_get s p in
    lseg_set s p (mapping f x).

  (* lazy_segment_tree.hpp:67: [while ((l & 1) == 0) l >>= 1] *)
  Definition strip_even (l : Z) : res Z :=
    loop (S (Z.to_nat l)) (fun l => if Z.even l then Ok (inl (l / 2)) else Ok (inr l)) l.
  (* lazy_segment_tree.hpp:69-73 *)
  Definition mr_descend (g : T -> bool) (s : lseg) (l : Z) (sum : T) : res (Z * lseg) :=
    loop (S (Z.to_nat (ls_m s))) (fun '(l, sum, s) =>
      if l <? ls_m s then
        let* s := lpush s l in
        let l := 2 * l in
        let* x := vget (ls_data s) l in
        if g (op sum x) then Ok (inl (l + 1, op sum x, s)) else Ok (inl (l, sum, s))
      else Ok (inr (l, s))) (l, sum, s).
  (* lazy_segment_tree.hpp:58-79 *)
  Definition lseg_max_right (s : lseg) (l : Z) (g : T -> bool) : res (Z * lseg) :=
    assert_ ((0 <=? l) && (l <=? ls_n s)) ;;;
    assert_ (g e) ;;;
    if l =? ls_n s then Ok (ls_n s, s) else
    let* s := push_path s (l + ls_m s) 0 in
    loop (S (Z.to_nat (2 * ls_m s))) (fun '(l, sum, s) =>
      let* l := strip_even l in
      let* x := vget (ls_data s) l in
      if negb (g (op sum x)) then
        let* (l, s) := mr_descend g s l sum in
        Ok (inr (l - ls_m s, s))
      else
        let sum := op sum x in
        let l := l + 1 in
        if negb (lowbit l =? l) then Ok (inl (l, sum, s)) else Ok (inr (ls_n s, s)))
      (l + ls_m s, e, s).

  (* lazy_segment_tree.hpp:93: [while (r > 1 and (r & 1)) r >>= 1] *)
  Definition strip_odd (r : Z) : res Z :=
    loop (S (Z.to_nat r)) (fun r => if (1 <? r) && Z.odd r then Ok (inl (r / 2)) else Ok (inr r)) r.
  (* lazy_segment_tree.hpp:95-99 *)
  Definition ml_descend (g : T -> bool) (s : lseg) (r : Z) (sum : T) : res (Z * lseg) :=
    loop (S (Z.to_nat (ls_m s))) (fun '(r, sum, s) =>
      if r <? ls_m s then
        let* s := lpush s r in
        let r := 2 * r + 1 in
        let* x := vget (ls_data s) r in
        if g (op x sum) then Ok (inl (r - 1, op x sum, s)) else Ok (inl (r, sum, s))
      else Ok (inr (r, s))) (r, sum, s).
  (* lazy_segment_tree.hpp:83-105 *)
  Definition lseg_min_left (s : lseg) (r : Z) (g : T -> bool) : res (Z * lseg) :=
    assert_ ((0 <=? r) && (r <=? ls_n s)) ;;;
    assert_ (g e) ;;;
    if r =? 0 then Ok (0, s) else
    let* s := push_path s (r + ls_m s) 0 in
    loop (S (Z.to_nat (2 * ls_m s))) (fun '(r, sum, s) =>
      let* r := strip_odd (r - 1) in
      let* x := vget (ls_data s) r in
      if negb (g (op x sum)) then
        let* (r, s) := ml_descend g s r sum in
        Ok (inr (r + 1 - ls_m s, s))
      else
        let sum := op x sum in
        if negb (lowbit r =? r) then Ok (inl (r, sum, s)) else Ok (inr (0, s)))
      (r + ls_m s, e, s).
End Lazy.
Arguments lseg : clear implicits.
