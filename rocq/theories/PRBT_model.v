(* The persistent red-black trees, with their memory: library/datastructure/bbst/
   persistent_red_black_tree_base.hpp over red_black_tree_base.hpp and util/object_pool.hpp.

   The plain class (persistent_red_black_tree.hpp) and the one with op alone
   (persistent_red_black_segment_tree.hpp) inherit push from RedBlackTreeNodeBase, which returns its
   argument: [clones = false].  The lazy classes clone in push: [clones = true], here without any
   operator or flag pending, so that only the structure is left. *)
From Verif Require Import Base RBT_model.

Section PRBT.
  Context {T : Type}.
  Variables (d : T) (clones : bool).
  (* red_black_tree_base.hpp:200-203; null is -1 *)
  Record hnode := HN { n_col : color; n_ch0 : Z; n_ch1 : Z; n_val : T; n_siz : Z; n_lev : Z }.
  (* object_pool.hpp:17-19 *)
  Record heap := Heap { pool : list hnode; stock : list Z; it : Z }.
  Definition null : Z := -1.
  (* object_pool.hpp:22-24, 41-45 *)
  Definition pool_new (n : Z) : heap := Heap (vrep n (HN BLACK null null d 0 0)) (zrange n) 0.
  (* object_pool.hpp:29-32, with the assignment to the node *)
  Definition alloc (h : heap) (x : hnode) : res (heap * Z) :=
    let* p := vget (stock h) (it h) in
    let* pl := vset (pool h) p x in
    Ok (Heap pl (stock h) (it h + 1), p).
  (* object_pool.hpp:34-36 *)
  Definition free_node (h : heap) (p : Z) : res heap :=
    if p =? null then Ok h else
    let* st := vset (stock h) (it h - 1) p in Ok (Heap (pool h) st (it h - 1)).
  (* p->...; a null pointer is outside the pool *)
  Definition fetch (h : heap) (p : Z) : res hnode := vget (pool h) p.
  Definition store (h : heap) (p : Z) (x : hnode) : res heap := let* pl := vset (pool h) p x in Ok (Heap pl (stock h) (it h)).
  Definition with_col (c : color) (x : hnode) := HN c (n_ch0 x) (n_ch1 x) (n_val x) (n_siz x) (n_lev x).
  Definition with_ch0 (p : Z) (x : hnode) := HN (n_col x) p (n_ch1 x) (n_val x) (n_siz x) (n_lev x).
  Definition with_ch1 (p : Z) (x : hnode) := HN (n_col x) (n_ch0 x) p (n_val x) (n_siz x) (n_lev x).
  Definition with_val (v : T) (x : hnode) := HN (n_col x) (n_ch0 x) (n_ch1 x) v (n_siz x) (n_lev x).
  Definition modify (h : heap) (p : Z) (f : hnode -> hnode) : res heap := let* x := fetch h p in store h p (f x).
  (* red_black_tree_base.hpp:33, 211-212 *)
  Definition hsize (h : heap) (p : Z) : res Z := if p =? null then Ok 0 else let* x := fetch h p in Ok (n_siz x).
  Definition hcolor (h : heap) (p : Z) : res color := if p =? null then Ok BLACK else let* x := fetch h p in Ok (n_col x).
  Definition hheight (h : heap) (p : Z) : res Z := if p =? null then Ok 0 else let* x := fetch h p in Ok (n_lev x).
  Definition is_leaf (x : hnode) : bool := (n_ch0 x =? null) && (n_ch1 x =? null).
  (* red_black_tree_base.hpp:219-223 *)
  Definition hupdate (h : heap) (p : Z) : res heap :=
    let* x := fetch h p in
    let* s0 := hsize h (n_ch0 x) in let* s1 := hsize h (n_ch1 x) in
    let* l0 := hheight h (n_ch0 x) in let* c0 := hcolor h (n_ch0 x) in
    store h p (HN (n_col x) (n_ch0 x) (n_ch1 x) (n_val x) (if is_leaf x then 1 else s0 + s1)
                  (if n_ch0 x =? null then 0 else l0 + b2z (is_black c0))).
  (* red_black_tree_base.hpp:224-226; persistent_red_black_tree_base.hpp:47-50 called by the push of
     the lazy classes *)
  Definition hpush (h : heap) (p : Z) : res (heap * Z) :=
    if clones then (if p =? null then Ok (h, p) else let* x := fetch h p in alloc h x) else Ok (h, p).
  (* red_black_tree_base.hpp:228-233 *)
  Definition hrotate (h : heap) (p : Z) (index : bool) : res (heap * Z) :=
    let* (h, p) := hpush h p in
    let* x := fetch h p in
    let* (h, q) := hpush h (if index then n_ch1 x else n_ch0 x) in
    let* y := fetch h q in
    let* h := store h q (if index then with_ch0 p y else with_ch1 p y) in
    let* h := modify h p (if index then with_ch1 (n_ch0 y) else with_ch0 (n_ch1 y)) in
    let* h := hupdate h p in
    let* h := hupdate h q in
    Ok (h, q).
  (* red_black_tree_base.hpp:206, 235-237 *)
  Definition hcreate_leaf (h : heap) (v : T) : res (heap * Z) := alloc h (HN BLACK null null v 1 0).
  (* red_black_tree_base.hpp:207, 239-241 *)
  Definition hcreate_branch (h : heap) (l r : Z) : res (heap * Z) :=
    let* x := fetch h l in let* y := fetch h r in
    let* (h, p) := alloc h (HN RED l r d (n_siz x + n_siz y) (n_lev x + b2z (is_black (n_col x)))) in
    let* h := hupdate h p in Ok (h, p).
  (* red_black_tree_base.hpp:36-65 *)
  Fixpoint hmerge (fuel : nat) (force : bool) (h : heap) (l r : Z) : res (heap * Z) :=
    match fuel with
    | O => OutOfFuel
    | S fuel =>
        if l =? null then Ok (h, r) else
        if r =? null then Ok (h, l) else
        let* hl := hheight h l in let* hr := hheight h r in
        let done h p := (if force then let* h := modify h p (with_col BLACK) in Ok (h, p) else Ok (h, p)) in
        if hr <? hl then
          let* (h, l) := hpush h l in
          let* x := fetch h l in
          let* (h, c) := hmerge fuel false h (n_ch1 x) r in
          let* h := modify h l (with_ch1 c) in
          let* x := fetch h l in let* y := fetch h c in
          let* cc := hcolor h (n_ch1 y) in
          if is_black (n_col x) && is_red (n_col y) && is_red cc then
            let* h := modify h l (with_col (n_col y)) in
            let* h := modify h c (with_col (n_col x)) in
            let* a := fetch h (n_ch0 x) in
            let* h := modify h (n_ch0 x) (with_col BLACK) in
            if is_black (n_col a) then hrotate h l true
            else let* h := hupdate h l in done h l
          else let* h := hupdate h l in done h l
        else if hl <? hr then
          let* (h, r) := hpush h r in
          let* x := fetch h r in
          let* (h, c) := hmerge fuel false h l (n_ch0 x) in
          let* h := modify h r (with_ch0 c) in
          let* x := fetch h r in let* y := fetch h c in
          let* cc := hcolor h (n_ch0 y) in
          if is_black (n_col x) && is_red (n_col y) && is_red cc then
            let* h := modify h r (with_col (n_col y)) in
            let* h := modify h c (with_col (n_col x)) in
            let* a := fetch h (n_ch1 x) in
            let* h := modify h (n_ch1 x) (with_col BLACK) in
            if is_black (n_col a) then hrotate h r false
            else let* h := hupdate h r in done h r
          else let* h := hupdate h r in done h r
        else let* (h, p) := hcreate_branch h l r in done h p
    end.
  (* if (color(l) == RED) l->_col = BLACK, red_black_tree_base.hpp:78-79 *)
  Definition hblacken (h : heap) (p : Z) : res heap := let* c := hcolor h p in if is_red c then modify h p (with_col BLACK) else Ok h.
  (* red_black_tree_base.hpp:67-92 *)
  Fixpoint hsplit (fuel : nat) (h : heap) (p k : Z) : res (heap * Z * Z) :=
    match fuel with
    | O => OutOfFuel
    | S f =>
        if p =? null then Ok (h, null, null) else
        let* (h, p) := hpush h p in
        if k =? 0 then Ok (h, null, p) else
        let* s := hsize h p in
        if k =? s then Ok (h, p, null) else
        let* x := fetch h p in
        let l := n_ch0 x in let r := n_ch1 x in
        let* h := store h p (with_ch0 null (with_ch1 null x)) in
        let* h := free_node h p in
        let* h := hblacken h l in
        let* h := hblacken h r in
        let* szl := hsize h l in
        if k <? szl then
          let* (h, l, m) := hsplit f h l k in
          let* (h, mr) := hmerge fuel true h m r in Ok (h, l, mr)
        else if szl <? k then
          let* (h, m, r) := hsplit f h r (k - szl) in
          let* (h, lm) := hmerge fuel true h l m in Ok (h, lm, r)
        else Ok (h, l, r)
    end.
  (* red_black_tree_base.hpp:100-105 *)
  Definition hinsert (fuel : nat) (h : heap) (p k : Z) (v : T) : res (heap * Z) :=
    let* (h, l, r) := hsplit fuel h p k in
    let* (h, q) := hcreate_leaf h v in
    let* (h, l) := hmerge fuel true h l q in hmerge fuel true h l r.
  (* red_black_tree_base.hpp:131-141 *)
  Fixpoint hbuild_ (fuel : nat) (h : heap) (a : list T) (l r : Z) : res (heap * Z) :=
    match fuel with
    | O => OutOfFuel
    | S f =>
        if r - l =? 1 then let* x := vget a l in hcreate_leaf h x else
        let m := Z.shiftr (l + r) 1 in
        let* (h, x) := hbuild_ f h a l m in let* (h, y) := hbuild_ f h a m r in hmerge fuel true h x y
    end.
  Definition hbuild (fuel : nat) (h : heap) (a : list T) : res (heap * Z) :=
    match a with [] => Ok (h, null) | _ => hbuild_ fuel h a 0 (zlen a) end.
  (* red_black_tree_base.hpp:143-155 *)
  Fixpoint hdump_ (fuel : nat) (h : heap) (p : Z) : res (list T) :=
    match fuel with
    | O => OutOfFuel
    | S fuel =>
        let* x := fetch h p in
        if is_leaf x then Ok [n_val x] else
        let* a := hdump_ fuel h (n_ch0 x) in let* b := hdump_ fuel h (n_ch1 x) in Ok (a ++ b)
    end.
  Definition hdump (fuel : nat) (h : heap) (p : Z) : res (list T) := if p =? null then Ok [] else hdump_ fuel h p.
  (* red_black_tree_base.hpp:184-198 *)
  Fixpoint hcheck_ (fuel : nat) (h : heap) (p : Z) : res Z :=
    match fuel with
    | O => OutOfFuel
    | S fuel =>
        if p =? null then Ok 0 else
        let* x := fetch h p in
        (if is_red (n_col x) then
           let* a := hcolor h (n_ch0 x) in let* b := hcolor h (n_ch1 x) in
           assert_ (is_black a) ;;; assert_ (is_black b)
         else Ok tt) ;;;
        let* bl := hcheck_ fuel h (n_ch0 x) in let* br := hcheck_ fuel h (n_ch1 x) in
        assert_ (bl =? br) ;;; Ok (bl + b2z (is_black (n_col x)))
    end.
  Definition hcheck (fuel : nat) (h : heap) (p : Z) : res unit :=
    let* c := hcolor h p in assert_ (is_black c) ;;; let* _ := hcheck_ fuel h p in Ok tt.
End PRBT.
Arguments hnode T : clear implicits.
Arguments heap T : clear implicits.
