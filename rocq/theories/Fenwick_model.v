(* Model of library/datastructure/fenwick_tree/{fenwick_tree,fenwick_tree_prefix,
   fenwick_tree_2d}.hpp.  [i & -i] is [lowbit i]. *)
From Verif Require Import Base Bits.

(* ---- FenwickTree<T> (std::vector container) -------------------------------- *)
Section Fenwick.
  Context {T : Type}.
  (* T{}, a += b, a - b, -a *)
  Variables (zero : T) (add : T -> T -> T) (sub : T -> T -> T) (neg : T -> T).

  (* fenwick_tree.hpp:45-46 *)
  Record fen := mkFen { fn_n : Z; fn_data : list T }.

  (* fenwick_tree.hpp:64 *)
  Definition fen_zero (n : Z) : fen := mkFen n (vrep n zero).

  (* fenwick_tree.hpp:65-70 *)
  Definition fen_of (a : list T) : res fen :=
    let n := zlen a in
    let* data := for_ 1 (n + 1) (fun i data =>
      let p := i + lowbit i in
      if p <=? n then
        let* x := vget data (p - 1) in
        let* y := vget data (i - 1) in
        vset data (p - 1) (add x y)
      else Ok data) a in
    Ok (mkFen n data).

  (* fenwick_tree.hpp:19-21 *)
  Definition fen_add (s : fen) (i : Z) (v : T) : res fen :=
    let* data := loop (S (Z.to_nat (fn_n s))) (fun '(i, data) =>
      if i <=? fn_n s then
        let* x := vget data (i - 1) in
        let* data := vset data (i - 1) (add x v) in
        Ok (inl (i + lowbit i, data))
      else Ok (inr data)) (i + 1, fn_data s) in
    Ok (mkFen (fn_n s) data).

  (* fenwick_tree.hpp:50-54 *)
  Definition fen_sum1 (s : fen) (r : Z) : res T :=
    loop (S (Z.to_nat r)) (fun '(r, acc) =>
      if r =? 0 then Ok (inr acc) else
      let* x := vget (fn_data s) (r - 1) in
      Ok (inl (r - lowbit r, add acc x))) (r, zero).

  (* fenwick_tree.hpp:22-24, 41 *)
  Definition fen_sum (s : fen) (l r : Z) : res T :=
    let* sr := fen_sum1 s r in
    let* sl := fen_sum1 s l in
    Ok (sub sr sl).

  (* fenwick_tree.hpp:25-40: the proxy returned by operator[]: conversion to T,
     [+=], [-=] and [=] *)
  Definition fen_get (s : fen) (i : Z) : res T := fen_sum s i (i + 1).
  Definition fen_sub (s : fen) (i : Z) (v : T) : res fen := fen_add s i (neg v).
  Definition fen_set (s : fen) (i : Z) (v : T) : res fen :=
    let* cur := fen_sum s i (i + 1) in fen_add s i (sub v cur).
End Fenwick.
Arguments fen : clear implicits.

(* ---- FenwickTreePrefix<T, op, e> -------------------------------------------- *)
Section Prefix.
  Context {T : Type}.
  Variables (op : T -> T -> T) (e : T).

  (* fenwick_tree_prefix.hpp:27-29 *)
  Record fpre := mkFPre { fp_n : Z; fp_dat : list T }.

  (* fenwick_tree_prefix.hpp:10 *)
  Definition fpre_init (n : Z) : fpre := mkFPre n (vrep (n + 1) e).

  (* fenwick_tree_prefix.hpp:11-16 *)
  Definition fpre_of (a : list T) : res fpre :=
    let n := zlen a in
    let* dat := ford_ n 0 (fun i dat =>
      let* x := vget dat i in
      let* y := vget a (i - 1) in
      let* dat := vset dat i (op x y) in
      let p := i + lowbit i in
      if p <=? n then
        let* x := vget dat p in
        let* y := vget dat i in
        vset dat p (op x y)
      else Ok dat) (vrep (n + 1) e) in
    Ok (mkFPre n dat).

  (* fenwick_tree_prefix.hpp:17-19 *)
  Definition fpre_apply (s : fpre) (i : Z) (v : T) : res fpre :=
    let* dat := loop (S (Z.to_nat (fp_n s))) (fun '(i, dat) =>
      if i <=? fp_n s then
        let* x := vget dat i in
        let* dat := vset dat i (op x v) in
        Ok (inl (i + lowbit i, dat))
      else Ok (inr dat)) (i + 1, fp_dat s) in
    Ok (mkFPre (fp_n s) dat).

  (* fenwick_tree_prefix.hpp:20-24 *)
  Definition fpre_query (s : fpre) (r : Z) : res T :=
    loop (S (Z.to_nat r)) (fun '(r, acc) =>
      if r =? 0 then Ok (inr acc) else
      let* x := vget (fp_dat s) r in
      Ok (inl (r - lowbit r, op acc x))) (r, e).
End Prefix.
Arguments fpre : clear implicits.

(* ---- FenwickTree2D<T> --------------------------------------------------------- *)
Section Fenwick2.
  Context {T : Type}.
  Variables (zero : T) (add : T -> T -> T) (sub : T -> T -> T).

  (* fenwick_tree_2d.hpp:41-42 *)
  Record fen2 := mkFen2 { f2_n : Z; f2_m : Z; f2_data : list (list T) }.

  (* fenwick_tree_2d.hpp:12 *)
  Definition fen2_zero (n m : Z) : fen2 := mkFen2 n m (vrep n (vrep m zero)).

  (* fenwick_tree_2d.hpp:13-17 *)
  Definition fen2_add (s : fen2) (i j : Z) (v : T) : res fen2 :=
    let* data := loop (S (Z.to_nat (f2_n s))) (fun '(x, data) =>
      if x <=? f2_n s then
        let* data := loop (S (Z.to_nat (f2_m s))) (fun '(y, data) =>
          if y <=? f2_m s then
            let* row := vget data (x - 1) in
            let* c := vget row (y - 1) in
            let* row := vset row (y - 1) (add c v) in
            let* data := vset data (x - 1) row in
            Ok (inl (y + lowbit y, data))
          else Ok (inr data)) (j + 1, data) in
        Ok (inl (x + lowbit x, data))
      else Ok (inr data)) (i + 1, f2_data s) in
    Ok (mkFen2 (f2_n s) (f2_m s) data).

  (* fenwick_tree_2d.hpp:44-50 *)
  Definition fen2_sum1 (s : fen2) (xr yr : Z) : res T :=
    loop (S (Z.to_nat xr)) (fun '(x, acc) =>
      if x =? 0 then Ok (inr acc) else
      let* acc := loop (S (Z.to_nat yr)) (fun '(y, acc) =>
        if y =? 0 then Ok (inr acc) else
        let* row := vget (f2_data s) (x - 1) in
        let* c := vget row (y - 1) in
        Ok (inl (y - lowbit y, add acc c))) (yr, acc) in
      Ok (inl (x - lowbit x, acc))) (xr, zero).

  (* fenwick_tree_2d.hpp:18-20, 39 *)
  Definition fen2_sum (s : fen2) (xl xr yl yr : Z) : res T :=
    let* a := fen2_sum1 s xr yr in
    let* b := fen2_sum1 s xl yr in
    let* c := fen2_sum1 s xr yl in
    let* d := fen2_sum1 s xl yl in
    Ok (add (sub (sub a b) c) d).
End Fenwick2.
Arguments fen2 : clear implicits.
