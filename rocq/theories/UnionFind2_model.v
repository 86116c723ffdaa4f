(* Model of library/datastructure/union_find/{union_find_component_sum,
   weighted_union_find,union_find_lazy}.hpp. *)
From Verif Require Import Base UnionFind_model.

(* ---- UnionFindComponentSum<T, merge_data> -------------------------------- *)
Section ComponentSum.
  Context {T : Type}.
  (* merge_data(T& a, T b) is "a = op(a, b)" *)
  Variable op : T -> T -> T.

  (* union_find_component_sum.hpp:26 *)
  Record ufs := mkUFS { ufs_uf : uf; ufs_sum : list T }.

  (* union_find_component_sum.hpp:11 *)
  Definition ufs_init (vals : list T) : ufs := mkUFS (uf_init (zlen vals)) vals.

  (* union_find_component_sum.hpp:13-21; the moved-from [_sum[y]] is left as it
     was (it is never read again) *)
  Definition ufs_merge (s : ufs) (x y : Z) : res (bool * ufs) :=
    let* (x, u) := uf_root (ufs_uf s) x in
    let* (y, u) := uf_root u y in
    let* (b, u) := uf_merge u x y in
    if b then
      let* (r, u) := uf_root u x in
      let '(x, y) := if r =? y then (y, x) else (x, y) in
      let* sx := vget (ufs_sum s) x in
      let* sy := vget (ufs_sum s) y in
      let* sum := vset (ufs_sum s) x (op sx sy) in
      Ok (true, mkUFS u sum)
    else Ok (false, mkUFS u (ufs_sum s)).

  (* union_find_component_sum.hpp:22-24 *)
  Definition ufs_sumof (s : ufs) (x : Z) : res (T * ufs) :=
    let* (r, u) := uf_root (ufs_uf s) x in
    let* v := vget (ufs_sum s) r in
    Ok (v, mkUFS u (ufs_sum s)).
End ComponentSum.
Arguments ufs : clear implicits.

(* ---- WeightedUnionFind<T, op, e, neg> ------------------------------------- *)
Section Weighted.
  Context {T : Type}.
  Variables (op : T -> T -> T) (e : T) (neg : T -> T).

  (* weighted_union_find.hpp:76-78 *)
  Record wuf := mkWUF { w_n : Z; w_par : list Z; w_siz : list Z; w_val : list T }.

  (* weighted_union_find.hpp:18-20 *)
  Definition wuf_init (n : Z) : wuf := mkWUF n (zrange n) (vrep n 1) (vrep n e).

  (* weighted_union_find.hpp:22-29 and 80-89: both loops share the path-halving
     step; [root] is [weight] without the accumulated [res]. *)
  Definition wuf_halve (par : list Z) (val : list T) (x : Z) : res (Z * list Z * list T) :=
    let* p := vget par x in
    let* vp := vget val p in
    let* vx := vget val x in
    let* val := vset val x (op vp vx) in
    let* pp := vget par p in
    let* par := vset par x pp in
    Ok (pp, par, val).

  (* weighted_union_find.hpp:22-29 *)
  Fixpoint wuf_root_loop (fuel : nat) (par : list Z) (val : list T) (x : Z) : res (Z * list Z * list T) :=
    match fuel with
    | O => OutOfFuel
    | S k =>
        let* p := vget par x in
        if p =? x then Ok (x, par, val) else
        let* (x', par, val) := wuf_halve par val x in
        wuf_root_loop k par val x'
    end.
  Definition wuf_root (s : wuf) (x : Z) : res (Z * wuf) :=
    let* (r, par, val) := wuf_root_loop (S (length (w_par s))) (w_par s) (w_val s) x in
    Ok (r, mkWUF (w_n s) par (w_siz s) val).

  (* weighted_union_find.hpp:80-89 *)
  Fixpoint wuf_weight_loop (fuel : nat) (par : list Z) (val : list T) (x : Z) (r : T) : res (T * list Z * list T) :=
    match fuel with
    | O => OutOfFuel
    | S k =>
        let* p := vget par x in
        if p =? x then Ok (r, par, val) else
        let* (x', par, val) := wuf_halve par val x in
        let* vx := vget val x in
        wuf_weight_loop k par val x' (op vx r)
    end.
  Definition wuf_weight (s : wuf) (x : Z) : res (T * wuf) :=
    let* (w, par, val) := wuf_weight_loop (S (length (w_par s))) (w_par s) (w_val s) x e in
    Ok (w, mkWUF (w_n s) par (w_siz s) val).

  (* weighted_union_find.hpp:35-54; the two [weight] calls are evaluated left to
     right here (either order gives the same values) *)
  Definition wuf_merge (s : wuf) (x y : Z) (d : T) : res (bool * wuf) :=
    let* (wx, s) := wuf_weight s x in
    let* (wy, s) := wuf_weight s y in
    let rd := op (op wx d) (neg wy) in
    let* (x, s) := wuf_root s x in
    let* (y, s) := wuf_root s y in
    if x =? y then Ok (false, s) else
    let* sx := vget (w_siz s) x in
    let* sy := vget (w_siz s) y in
    let '(x, y, rd) := if sx <? sy then (y, x, neg rd) else (x, y, rd) in
    let* sx := vget (w_siz s) x in
    let* sy := vget (w_siz s) y in
    let* siz := vset (w_siz s) x (sx + sy) in
    let* par := vset (w_par s) y x in
    let* val := vset (w_val s) y rd in
    Ok (true, mkWUF (w_n s) par siz val).

  (* weighted_union_find.hpp:61-63 *)
  Definition wuf_same (s : wuf) (x y : Z) : res (bool * wuf) :=
    let* (rx, s) := wuf_root s x in
    let* (ry, s) := wuf_root s y in
    Ok (rx =? ry, s).

  (* weighted_union_find.hpp:56-59 *)
  Definition wuf_diff (s : wuf) (x y : Z) : res (T * wuf) :=
    let* (b, s) := wuf_same s x y in
    assert_ b ;;;
    let* (wx, s) := wuf_weight s x in
    let* (wy, s) := wuf_weight s y in
    Ok (op (neg wx) wy, s).

  (* weighted_union_find.hpp:65-67 *)
  Definition wuf_size (s : wuf) (x : Z) : res (Z * wuf) :=
    let* (r, s) := wuf_root s x in
    let* k := vget (w_siz s) r in
    Ok (k, s).
End Weighted.
Arguments wuf : clear implicits.

(* ---- UnionFindLazy<T, merge_sum, neg, F, mapping, composition, id, inv> ---- *)
Section Lazy.
  Context {T F : Type}.
  Variables (add : T -> T -> T) (neg : T -> T).
  Variables (mapping : F -> T -> Z -> T) (comp : F -> F -> F) (idf : F) (inv : F -> F).

  (* union_find_lazy.hpp:77-79 *)
  Record ufl := mkUFL { fl_luf : luf; fl_val : list T; fl_sum : list T; fl_laz : list F }.

  (* union_find_lazy.hpp:22 *)
  Definition ufl_init (vals : list T) : ufl :=
    mkUFL (luf_init (zlen vals)) vals vals (vrep (zlen vals) idf).

  Definition ufl_root (s : ufl) (x : Z) : res (Z * ufl) :=
    let* (r, u) := uf_root (luf_uf (fl_luf s)) x in
    Ok (r, mkUFL (mkLUF u (luf_link (fl_luf s))) (fl_val s) (fl_sum s) (fl_laz s)).

  (* union_find_lazy.hpp:32-34, 65-67  [for (int v : connected_component(y)) mapping(laz, _val[v], 1)] *)
  Definition ufl_map_vals (laz : F) (l : list Z) (val : list T) : res (list T) :=
    for_each l (fun v val => let* t := vget val v in vset val v (mapping laz t 1)) val.

  (* union_find_lazy.hpp:24-40 *)
  Definition ufl_merge (s : ufl) (x y : Z) : res (bool * ufl) :=
    let* (x, s) := ufl_root s x in
    let* (y, s) := ufl_root s y in
    if x =? y then Ok (false, s) else
    let link := luf_link (fl_luf s) in
    let* (_, u) := uf_merge (luf_uf (fl_luf s)) x y in
    let* (r, u) := uf_root u x in
    let '(x, y) := if r =? y then (y, x) else (x, y) in
    let* lx := vget (fl_laz s) x in
    let* ly := vget (fl_laz s) y in
    let laz := comp (inv lx) ly in
    let* cmp := luf_component (mkLUF u link) y in
    let* val := ufl_map_vals laz cmp (fl_val s) in
    let* sx := vget (fl_sum s) x in
    let* sy := vget (fl_sum s) y in
    let* sum := vset (fl_sum s) x (add sx sy) in
    let* kx := vget link x in
    let* ky := vget link y in
    let* link := vset link x ky in
    let* link := vset link y kx in
    Ok (true, mkUFL (mkLUF u link) val sum (fl_laz s)).

  (* union_find_lazy.hpp:42-44 *)
  Definition ufl_get_component (s : ufl) (x : Z) : res (T * ufl) :=
    let* (r, s) := ufl_root s x in
    let* v := vget (fl_sum s) r in Ok (v, s).

  (* union_find_lazy.hpp:45-49 *)
  Definition ufl_get_point (s : ufl) (x : Z) : res (T * ufl) :=
    let* v := vget (fl_val s) x in
    let* (r, s) := ufl_root s x in
    let* lz := vget (fl_laz s) r in
    Ok (mapping lz v 1, s).

  (* union_find_lazy.hpp:50-54; [size(x)] is UnionFind::size *)
  Definition ufl_apply_component (s : ufl) (x : Z) (f : F) : res ufl :=
    let* (x, s) := ufl_root s x in
    let* sx := vget (fl_sum s) x in
    let* (k, u) := uf_size (luf_uf (fl_luf s)) x in
    let* sum := vset (fl_sum s) x (mapping f sx k) in
    let* lx := vget (fl_laz s) x in
    let* laz := vset (fl_laz s) x (comp f lx) in
    Ok (mkUFL (mkLUF u (luf_link (fl_luf s))) (fl_val s) sum laz).

  (* union_find_lazy.hpp:82-89  [f] changes the old value *)
  Definition ufl_apply_point_ (s : ufl) (x : Z) (f : T -> T) : res ufl :=
    let* (r, s) := ufl_root s x in
    let* (v, s) := ufl_get_point s x in
    let* sr := vget (fl_sum s) r in
    let* sum := vset (fl_sum s) r (add sr (neg v)) in
    let v := f v in
    let* sr := vget sum r in
    let* sum := vset sum r (add sr v) in
    let* lr := vget (fl_laz s) r in
    let* val := vset (fl_val s) x (mapping (inv lr) v 1) in
    Ok (mkUFL (fl_luf s) val sum (fl_laz s)).

  (* union_find_lazy.hpp:55-57 *)
  Definition ufl_apply_point (s : ufl) (x : Z) (f : F) : res ufl :=
    ufl_apply_point_ s x (fun t => mapping f t 1).
  (* union_find_lazy.hpp:58-60 *)
  Definition ufl_set_point (s : ufl) (x : Z) (v : T) : res ufl :=
    ufl_apply_point_ s x (fun _ => v).

  (* union_find_lazy.hpp:62-68 *)
  Definition ufl_propagate (s : ufl) (x : Z) : res ufl :=
    let* (x, s) := ufl_root s x in
    let* lz := vget (fl_laz s) x in
    let* laz := vset (fl_laz s) x idf in
    let* cmp := luf_component (fl_luf s) x in
    let* val := ufl_map_vals lz cmp (fl_val s) in
    Ok (mkUFL (fl_luf s) val (fl_sum s) laz).
End Lazy.
Arguments ufl : clear implicits.
