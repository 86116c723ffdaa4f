(* Model of library/datastructure/segment_tree/sparse_segment_tree.hpp.  The static node pool
   is shared by all trees of one type; node 0 is the "no node" marker.  Indices are unbounded
   integers (the index type must hold 2 n); a pool index fits uint32_t. *)
From Verif Require Import Base.

(* sparse_segment_tree.hpp:26-30 *)
Record snode (T : Type) := SN { sn0 : Z; sn1 : Z; sn_dat : T }.
Arguments SN {T}. Arguments sn0 {T}. Arguments sn1 {T}. Arguments sn_dat {T}.
(* sparse_segment_tree.hpp:87-88 *)
Record stree := ST { st_n : Z; st_root : Z }.

Inductive spop (T : Type) :=
  | SpNew (n : Z) | SpGet (t i : Z) | SpSet (t i : Z) (x : T) | SpApply (t i : Z) (f : T -> T)
  | SpProd (t l r : Z) | SpAll (t : Z) | SpCopy (t : Z).
Arguments SpNew {T}. Arguments SpGet {T}. Arguments SpSet {T}. Arguments SpApply {T}. Arguments SpProd {T}.
Arguments SpAll {T}. Arguments SpCopy {T}.
Inductive spout (T : Type) := SpUnit | SpVal (x : T).
Arguments SpUnit {T}. Arguments SpVal {T}.

Section SpSeg.
  Context {T : Type}.
  Variables (op : T -> T -> T) (e : T) (init : Z -> Z -> T).
  Notation pool := (list (snode T)).

  (* sparse_segment_tree.hpp:32 *)
  Definition sp_pool0 : pool := [SN 0 0 e].
  (* sparse_segment_tree.hpp:34-37 *)
  Definition sp_new_node (m : pool) (x : T) : pool * Z := (m ++ [SN 0 0 x], zlen m).
  (* sparse_segment_tree.hpp:40 *)
  Definition sp_new (m : pool) (n : Z) : pool * stree :=
    let '(m, r) := sp_new_node m (init 0 n) in (m, ST n r).
  (* sparse_segment_tree.hpp:90-92 *)
  Definition sp_dat (m : pool) (p l r : Z) : res T :=
    if negb (p =? 0) then let* nd := vget m p in Ok (sn_dat nd) else Ok (init l r).
  (* pool[node].ch[index] *)
  Definition sp_ch (m : pool) (p : Z) (b : bool) : res Z :=
    let* nd := vget m p in Ok (if b then sn1 nd else sn0 nd).
  (* sparse_segment_tree.hpp:46-55 *)
  Definition sp_get (m : pool) (t : stree) (i : Z) : res T :=
    assert_ ((0 <=? i) && (i <? st_n t)) ;;;
    let* cur := loop (S (Z.to_nat (st_n t))) (fun '(cur, l, r) =>
      if negb (cur =? 0) && (1 <? r - l) then
        let mid := (l + r) / 2 in
        if i <? mid then let* c := sp_ch m cur false in Ok (inl (c, l, mid))
        else let* c := sp_ch m cur true in Ok (inl (c, mid, r))
      else Ok (inr cur)) (st_root t, 0, st_n t) in
    sp_dat m cur i (i + 1).
  (* sparse_segment_tree.hpp:94-98 *)
  Definition sp_goc (m : pool) (p : Z) (b : bool) (l r : Z) : res (pool * Z) :=
    let* c := sp_ch m p b in
    if negb (c =? 0) then Ok (m, c) else
    let '(m, c) := sp_new_node m (init l r) in
    let* nd := vget m p in
    let* m := vset m p (if b then SN (sn0 nd) c (sn_dat nd) else SN c (sn1 nd) (sn_dat nd)) in
    Ok (m, c).
  (* sparse_segment_tree.hpp:59-68 *)
  Fixpoint sp_rec (fuel : nat) (m : pool) (i : Z) (f : T -> T) (cur l r : Z) : res pool :=
    match fuel with
    | O => OutOfFuel
    | S fuel =>
        if r - l =? 1 then
          let* x := sp_dat m cur l r in
          let* nd := vget m cur in
          vset m cur (SN (sn0 nd) (sn1 nd) (f x))
        else
          let mid := (l + r) / 2 in
          let* m := (if i <? mid then
                       let* (m, c) := sp_goc m cur false l mid in sp_rec fuel m i f c l mid
                     else
                       let* (m, c) := sp_goc m cur true mid r in sp_rec fuel m i f c mid r) in
          let* c0 := sp_ch m cur false in
          let* x := sp_dat m c0 l mid in
          let* c1 := sp_ch m cur true in
          let* y := sp_dat m c1 mid r in
          let* nd := vget m cur in
          vset m cur (SN (sn0 nd) (sn1 nd) (op x y))
    end.
  (* sparse_segment_tree.hpp:56-70 *)
  Definition sp_apply (m : pool) (t : stree) (i : Z) (f : T -> T) : res pool :=
    assert_ ((0 <=? i) && (i <? st_n t)) ;;;
    sp_rec (S (Z.to_nat (st_n t))) m i f (st_root t) 0 (st_n t).
  (* sparse_segment_tree.hpp:71-73 *)
  Definition sp_set (m : pool) (t : stree) (i : Z) (x : T) : res pool := sp_apply m t i (fun _ => x).
  (* sparse_segment_tree.hpp:100-106 *)
  Fixpoint sp_query (fuel : nat) (m : pool) (node ql qr tl tr : Z) : res T :=
    match fuel with
    | O => OutOfFuel
    | S fuel =>
        if (tr <=? ql) || (qr <=? tl) then Ok e else
        if node =? 0 then Ok (init (Z.max ql tl) (Z.min qr tr)) else
        if (ql <=? tl) && (tr <=? qr) then let* nd := vget m node in Ok (sn_dat nd) else
        let tm := (tl + tr) / 2 in
        let* c0 := sp_ch m node false in
        let* x := sp_query fuel m c0 ql qr tl tm in
        let* c1 := sp_ch m node true in
        let* y := sp_query fuel m c1 ql qr tm tr in
        Ok (op x y)
    end.
  (* sparse_segment_tree.hpp:75-81 *)
  Definition sp_prod (m : pool) (t : stree) (l r : Z) : res T :=
    assert_ ((0 <=? l) && (l <=? r) && (r <=? st_n t)) ;;;
    sp_query (S (Z.to_nat (st_n t))) m (st_root t) l r 0 (st_n t).
  (* sparse_segment_tree.hpp:82-84 *)
  Definition sp_all (m : pool) (t : stree) : res T := let* nd := vget m (st_root t) in Ok (sn_dat nd).

  (* calls on the pool and the tree objects made so far; SpNew and SpCopy (the implicit copy
     constructor) add an object *)
  Definition sp_step (s : pool * list stree) (o : spop T) : res (spout T * (pool * list stree)) :=
    let '(m, ts) := s in
    match o with
    | SpNew n => let '(m, t) := sp_new m n in Ok (SpUnit, (m, ts ++ [t]))
    | SpGet k i => let* t := vget ts k in let* x := sp_get m t i in Ok (SpVal x, s)
    | SpSet k i x => let* t := vget ts k in let* m := sp_set m t i x in Ok (SpUnit, (m, ts))
    | SpApply k i f => let* t := vget ts k in let* m := sp_apply m t i f in Ok (SpUnit, (m, ts))
    | SpProd k l r => let* t := vget ts k in let* x := sp_prod m t l r in Ok (SpVal x, s)
    | SpAll k => let* t := vget ts k in let* x := sp_all m t in Ok (SpVal x, s)
    | SpCopy k => let* t := vget ts k in Ok (SpUnit, (m, ts ++ [t]))
    end.
End SpSeg.
