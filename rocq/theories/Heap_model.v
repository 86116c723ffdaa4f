(* Model of datastructure/heap/binary_heap.hpp and interval_heap.hpp.  A moved-from
   element keeps its value; data() and the constructors taking a comparator object are
   not modelled separately. *)
From Verif Require Import Base.

Section Heap.
  Context {T : Type}.
  Variable comp : T -> T -> bool.

  (* std::swap(v[i], v[j]) *)
  Definition swap (v : list T) (i j : Z) : res (list T) :=
    let* x := vget v i in
    let* y := vget v j in
    let* v := vset v i y in
    vset v j x.

  Section Binary.
    Variable is_min_heap : bool.
    (* binary_heap.hpp:126-132 *)
    Definition compare (lhs rhs : T) : bool := if is_min_heap then comp lhs rhs else comp rhs lhs.
    (* binary_heap.hpp:100-109, root = 0 *)
    Definition heapify_up (dat : list T) (leaf : Z) : res (list T) :=
      let* val := vget dat leaf in
      let* s := loop (S (Z.to_nat leaf)) (fun '(cur, dat) =>
        if negb (cur =? 0) then
          let par := Z.shiftr (cur - 1) 1 in
          let* p := vget dat par in
          if negb (compare val p) then Ok (inr (cur, dat))
          else let* dat := vset dat cur p in Ok (inl (par, dat))
        else Ok (inr (cur, dat))) (leaf, dat) in
      vset (snd s) (fst s) val.
    (* binary_heap.hpp:110-123 *)
    Definition heapify_down (dat : list T) (root : Z) : res (list T) :=
      let n := zlen dat in
      let m := Z.shiftr n 1 in
      let* val := vget dat root in
      let* s := loop (S (Z.to_nat n)) (fun '(cur, dat) =>
        if cur <? m then
          let ch := Z.shiftl cur 1 + 1 in
          let* ch := (if ch + 1 <? n then
            let* x := vget dat (ch + 1) in let* y := vget dat ch in Ok (if compare x y then ch + 1 else ch)
            else Ok ch) in
          let* x := vget dat ch in
          if negb (compare x val) then Ok (inr (cur, dat))
          else let* dat := vset dat cur x in Ok (inl (ch, dat))
        else Ok (inr (cur, dat))) (root, dat) in
      vset (snd s) (fst s) val.
    (* binary_heap.hpp:80-83 *)
    Definition construct_heap (dat : list T) : res (list T) :=
      let m := Z.shiftr (zlen dat) 1 in
      ford_ m 0 (fun i dat => heapify_down dat (i - 1)) dat.
    (* binary_heap.hpp:49-52 *)
    Definition bh_push (dat : list T) (v : T) : res (list T) :=
      let dat := dat ++ [v] in heapify_up dat (zlen dat - 1).
    (* binary_heap.hpp:58-61 *)
    Definition bh_top (dat : list T) : res T := assert_ (negb (zlen dat =? 0)) ;;; vget dat 0.
    (* binary_heap.hpp:63-71 *)
    Definition bh_pop (dat : list T) : res (T * list T) :=
      assert_ (negb (zlen dat =? 0)) ;;;
      let* dat := swap dat 0 (zlen dat - 1) in
      let* x := vget dat (zlen dat - 1) in
      let dat := removelast dat in
      let* dat := heapify_down dat 0 in
      Ok (x, dat).
  End Binary.

  (* interval_heap.hpp:161-166 *)
  Definition min_heap_parent (idx : Z) : Z := Z.shiftl (Z.shiftr (idx - 2) 2) 1.
  Definition max_heap_parent (idx : Z) : Z := Z.lor (min_heap_parent idx) 1.
  Definition min_heap_child_l (idx : Z) : Z := Z.shiftl (idx + 1) 1.
  Definition min_heap_child_r (idx : Z) : Z := Z.shiftl (idx + 2) 1.
  Definition max_heap_child_l (idx : Z) : Z := Z.lor (min_heap_child_l (idx - 1)) 1.
  Definition max_heap_child_r (idx : Z) : Z := Z.lor (min_heap_child_r (idx - 1)) 1.
  (* interval_heap.hpp:100-101 *)
  Definition max_heap_top_index (dat : list T) : Z := if 2 <=? zlen dat then 1 else 0.
  (* interval_heap.hpp:111-116 *)
  Definition fix_min_heap_up (idx : Z) (dat : list T) : res (list T) :=
    loop (S (Z.to_nat idx)) (fun '(idx, dat) =>
      if 2 <=? idx then
        let par := min_heap_parent idx in
        let* x := vget dat idx in let* y := vget dat par in
        if comp x y then let* dat := swap dat idx par in Ok (inl (par, dat))
        else Ok (inr dat)
      else Ok (inr dat)) (idx, dat).
  (* interval_heap.hpp:117-122 *)
  Definition fix_max_heap_up (idx : Z) (dat : list T) : res (list T) :=
    loop (S (Z.to_nat idx)) (fun '(idx, dat) =>
      if 2 <=? idx then
        let par := max_heap_parent idx in
        let* x := vget dat par in let* y := vget dat idx in
        if comp x y then let* dat := swap dat idx par in Ok (inl (par, dat))
        else Ok (inr dat)
      else Ok (inr dat)) (idx, dat).
  (* interval_heap.hpp:103-110 *)
  Definition fix_up (idx : Z) (dat : list T) : res (list T) :=
    let l := Z.land idx (Z.lnot 1) in
    let r := Z.lor l 1 in
    if r <? zlen dat then
      let* x := vget dat r in let* y := vget dat l in
      let* dat := (if comp x y then swap dat l r else Ok dat) in
      let* dat := fix_min_heap_up l dat in
      fix_max_heap_up r dat
    else
      let* dat := fix_min_heap_up l dat in
      fix_max_heap_up l dat.
  (* interval_heap.hpp:123-135 *)
  Definition fix_min_heap_down (idx : Z) (dat : list T) : res (list T) :=
    let siz := zlen dat in
    loop (S (Z.to_nat siz)) (fun '(idx, dat) =>
      let lch := min_heap_child_l idx in
      let rch := min_heap_child_r idx in
      if siz <=? lch then let* dat := fix_up idx dat in Ok (inr dat)
      else
        let* b := (if rch <? siz then let* x := vget dat rch in let* y := vget dat lch in Ok (comp x y) else Ok false) in
        let ch := if b : bool then rch else lch in
        let* x := vget dat ch in let* y := vget dat idx in
        if comp x y then let* dat := swap dat idx ch in Ok (inl (ch, dat))
        else Ok (inr dat)) (idx, dat).
  (* interval_heap.hpp:136-149 *)
  Definition fix_max_heap_down (idx : Z) (dat : list T) : res (list T) :=
    let siz := zlen dat in
    loop (S (Z.to_nat siz)) (fun '(idx, dat) =>
      let lch := max_heap_child_l idx in
      let rch := max_heap_child_r idx in
      let lch := lch - (if siz <=? lch then 1 else 0) in
      let rch := rch - (if siz <=? rch then 1 else 0) in
      if siz <=? lch then let* dat := fix_up idx dat in Ok (inr dat)
      else
        let* b := (if rch <? siz then let* x := vget dat lch in let* y := vget dat rch in Ok (comp x y) else Ok false) in
        let ch := if b : bool then rch else lch in
        let* x := vget dat idx in let* y := vget dat ch in
        if comp x y then let* dat := swap dat idx ch in Ok (inl (ch, dat))
        else Ok (inr dat)) (idx, dat).
  (* interval_heap.hpp:25-28 *)
  Definition ih_push (dat : list T) (v : T) : res (list T) :=
    let dat := dat ++ [v] in fix_up (zlen dat - 1) dat.
  (* interval_heap.hpp:34-41 *)
  Definition ih_max (dat : list T) : res T := assert_ (negb (zlen dat =? 0)) ;;; vget dat (max_heap_top_index dat).
  Definition ih_min (dat : list T) : res T := assert_ (negb (zlen dat =? 0)) ;;; vget dat 0.
  (* interval_heap.hpp:43-51 *)
  Definition ih_pop_max (dat : list T) : res (T * list T) :=
    assert_ (negb (zlen dat =? 0)) ;;;
    let idx := max_heap_top_index dat in
    let* dat := swap dat idx (zlen dat - 1) in
    let* x := vget dat (zlen dat - 1) in
    let dat := removelast dat in
    let* dat := fix_max_heap_down idx dat in
    Ok (x, dat).
  (* interval_heap.hpp:52-60 *)
  Definition ih_pop_min (dat : list T) : res (T * list T) :=
    assert_ (negb (zlen dat =? 0)) ;;;
    let idx := 0 in
    let* dat := swap dat idx (zlen dat - 1) in
    let* x := vget dat (zlen dat - 1) in
    let dat := removelast dat in
    let* dat := fix_min_heap_down idx dat in
    Ok (x, dat).

  Inductive hop := HPush (x : T) | HTop | HPop | HSize.
  Inductive hret := HUnit | HVal (x : T) | HNum (n : Z).
  Definition bh_step (is_min_heap : bool) (dat : list T) (o : hop) : res (hret * list T) :=
    match o with
    | HPush x => let* d := bh_push is_min_heap dat x in Ok (HUnit, d)
    | HTop => let* x := bh_top dat in Ok (HVal x, dat)
    | HPop => let* (x, d) := bh_pop is_min_heap dat in Ok (HVal x, d)
    | HSize => Ok (HNum (zlen dat), dat)
    end.
  Inductive iop := IPush (x : T) | IMin | IMax | IPopMin | IPopMax | ISize.
  Definition ih_step (dat : list T) (o : iop) : res (hret * list T) :=
    match o with
    | IPush x => let* d := ih_push dat x in Ok (HUnit, d)
    | IMin => let* x := ih_min dat in Ok (HVal x, dat)
    | IMax => let* x := ih_max dat in Ok (HVal x, dat)
    | IPopMin => let* (x, d) := ih_pop_min dat in Ok (HVal x, d)
    | IPopMax => let* (x, d) := ih_pop_max dat in Ok (HVal x, d)
    | ISize => Ok (HNum (zlen dat), dat)
    end.
End Heap.
Arguments hop : clear implicits.
Arguments iop : clear implicits.
Arguments hret : clear implicits.
