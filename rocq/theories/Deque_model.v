(* Model of datastructure/deque_aggregation.hpp and queue_aggregation.hpp.
   A stack is a vector of pairs (value, sum); its top is the last element.
   Simplification: [std::move] is a copy (the moved-from slots are erased before
   they can be observed); [int]/[size_t] sizes are unbounded. *)
From Verif Require Import Base.

(* the four iterators of DequeAggregationIterator, as offsets from
   [_st_l.rbegin()] and [_st_r.begin()]; deque_aggregation.hpp:54-57 *)
Record dqit := mkIt { it_l : Z; it_r : Z }.

Section Iter.
  Variables (nl nr : Z).   (* sizes of the two stacks: it_l_end = nl, it_r_end = nr *)
  (* deque_aggregation.hpp:59-63, queue_aggregation.hpp:36-40 *)
  Definition it_inc (x : dqit) : dqit := if it_l x =? nl then mkIt (it_l x) (it_r x + 1) else mkIt (it_l x + 1) (it_r x).
  (* deque_aggregation.hpp:65-69, queue_aggregation.hpp:42-46 *)
  Definition it_dec (x : dqit) : dqit := if it_r x =? 0 then mkIt (it_l x - 1) (it_r x) else mkIt (it_l x) (it_r x - 1).
  (* deque_aggregation.hpp:73-74 *)
  Definition it_add_ (x : dqit) (dif : Z) : dqit :=
    let d := nl - it_l x in if d <? dif then mkIt nl (it_r x + (dif - d)) else mkIt (it_l x + dif) (it_r x).
  (* deque_aggregation.hpp:81-82 *)
  Definition it_sub_ (x : dqit) (dif : Z) : dqit :=
    let d := it_r x in if d <? dif then mkIt (it_l x - (dif - d)) 0 else mkIt (it_l x) (it_r x - dif).
  (* deque_aggregation.hpp:71-76, queue_aggregation.hpp:48-53 *)
  Definition it_add (x : dqit) (dif : Z) : dqit := if dif <? 0 then it_sub_ x (- dif) else it_add_ x dif.
  (* deque_aggregation.hpp:79-84, queue_aggregation.hpp:56-61 *)
  Definition it_sub (x : dqit) (dif : Z) : dqit := if dif <? 0 then it_add_ x (- dif) else it_sub_ x dif.
  (* deque_aggregation.hpp:86-90, queue_aggregation.hpp:63-67 *)
  Definition it_diff (x y : dqit) : Z :=
    let d1 := if it_l x =? nl then it_r x else it_l x - nl in
    let d2 := if it_l y =? nl then it_r y else it_l y - nl in
    d1 - d2.
  (* deque_aggregation.hpp:93-94, queue_aggregation.hpp:70-71 *)
  Definition it_eq (x y : dqit) : bool := negb (negb (it_l x =? it_l y) || negb (it_r x =? it_r y)).
  (* deque_aggregation.hpp:153-154, queue_aggregation.hpp:115-116 *)
  Definition it_begin : dqit := mkIt 0 0.
  Definition it_end : dqit := mkIt nl nr.
End Iter.
(* deque_aggregation.hpp:92, queue_aggregation.hpp:69 *)
Definition it_deref {T S} (l r : list (T * S)) (x : dqit) : res T :=
  if it_l x =? zlen l then let* p := vget r (it_r x) in Ok (fst p)
  else let* p := vget l (zlen l - 1 - it_l x) in Ok (fst p).

(* deque_aggregation.hpp:142-143, queue_aggregation.hpp:104-105 *)
Definition st_front {T S} (l r : list (T * S)) : res T :=
  if negb (zlen l =? 0) then let* p := vget l (zlen l - 1) in Ok (fst p) else let* p := vget r 0 in Ok (fst p).
Definition st_back {T S} (l r : list (T * S)) : res T :=
  if negb (zlen r =? 0) then let* p := vget r (zlen r - 1) in Ok (fst p) else let* p := vget l 0 in Ok (fst p).
(* deque_aggregation.hpp:144-147, queue_aggregation.hpp:106-109; ~k = -k-1 *)
Definition st_at {T S} (l r : list (T * S)) (i : Z) : res T :=
  let k := i - zlen l in
  if k <? 0 then let* p := vget l (- k - 1) in Ok (fst p) else let* p := vget r k in Ok (fst p).
(* deque_aggregation.hpp:161-163, queue_aggregation.hpp:123-125 *)
Definition st_prod {T S} (e : S) (st : list (T * S)) : res S :=
  if zlen st =? 0 then Ok e else let* p := vget st (zlen st - 1) in Ok (snd p).

Section Deque.
  Context {T : Type}.
  Variables (op : T -> T -> T) (e : T).
  Notation stack := (list (T * T)).
  Record deque := mkDq { dq_l : stack; dq_r : stack }.
  Definition dq_empty : deque := mkDq [] [].

  (* deque_aggregation.hpp:115-117 *)
  Definition dq_prod (d : deque) : res T :=
    let* x := st_prod e (dq_l d) in let* y := st_prod e (dq_r d) in Ok (op x y).
  (* deque_aggregation.hpp:118 *)
  Definition dq_push_back (d : deque) (v : T) : res deque :=
    let* x := st_prod e (dq_r d) in Ok (mkDq (dq_l d) (dq_r d ++ [(v, op x v)])).
  (* deque_aggregation.hpp:119 *)
  Definition dq_push_front (d : deque) (v : T) : res deque :=
    let* x := st_prod e (dq_l d) in Ok (mkDq (dq_l d ++ [(v, op v x)]) (dq_r d)).
  (* deque_aggregation.hpp:107-113 *)
  Definition dq_of (c : list T) : res deque := for_each c (fun v d => dq_push_back d v) dq_empty.

  (* deque_aggregation.hpp:120-130 *)
  Definition dq_pop_back (d : deque) : res deque :=
    if negb (zlen (dq_r d) =? 0) then Ok (mkDq (dq_l d) (removelast (dq_r d))) else
    let siz := zlen (dq_l d) in
    let l := siz / 2 in
    let r := siz - l in
    assert_ (negb (r =? 0)) ;;;
    let* d := ford_ (r - 1) 0 (fun i d => let* p := vget (dq_l d) i in dq_push_back d (fst p)) d in
    let st := skipn (Z.to_nat r) (dq_l d) in
    if l =? 0 then Ok (mkDq st (dq_r d)) else
    let* p := vget st 0 in
    let* st := vset st 0 (fst p, fst p) in
    let* st := for_ 1 l (fun i st =>
      let* p := vget st i in let* q := vget st (i - 1) in vset st i (fst p, op (fst p) (snd q))) st in
    Ok (mkDq st (dq_r d)).
  (* deque_aggregation.hpp:131-141 *)
  Definition dq_pop_front (d : deque) : res deque :=
    if negb (zlen (dq_l d) =? 0) then Ok (mkDq (removelast (dq_l d)) (dq_r d)) else
    let siz := zlen (dq_r d) in
    let r := siz / 2 in
    let l := siz - r in
    assert_ (negb (l =? 0)) ;;;
    let* d := ford_ (l - 1) 0 (fun i d => let* p := vget (dq_r d) i in dq_push_front d (fst p)) d in
    let st := skipn (Z.to_nat l) (dq_r d) in
    if r =? 0 then Ok (mkDq (dq_l d) st) else
    let* p := vget st 0 in
    let* st := vset st 0 (fst p, fst p) in
    let* st := for_ 1 r (fun i st =>
      let* q := vget st (i - 1) in let* p := vget st i in vset st i (fst p, op (snd q) (fst p))) st in
    Ok (mkDq (dq_l d) st).
  (* deque_aggregation.hpp:149-150 *)
  Definition dq_size (d : deque) : Z := zlen (dq_l d) + zlen (dq_r d).
  Definition dq_clear (d : deque) : deque := mkDq [] [].
End Deque.
Arguments deque : clear implicits.

Section Queue.
  Context {T S R : Type}.
  Variables (e : S) (append : S -> T -> S) (merge : S -> S -> R).
  Notation stack := (list (T * S)).
  Record queue := mkQu { qu_l : stack; qu_r : stack }.
  Definition qu_empty : queue := mkQu [] [].
  (* queue_aggregation.hpp:90-92 *)
  Definition qu_prod (q : queue) : res R :=
    let* x := st_prod e (qu_l q) in let* y := st_prod e (qu_r q) in Ok (merge x y).
  (* queue_aggregation.hpp:93 *)
  Definition qu_push_back (q : queue) (v : T) : res queue :=
    let* x := st_prod e (qu_r q) in Ok (mkQu (qu_l q) (qu_r q ++ [(v, append x v)])).
  (* queue_aggregation.hpp:82-88 *)
  Definition qu_of (c : list T) : res queue := for_each c (fun v q => qu_push_back q v) qu_empty.
  (* queue_aggregation.hpp:94-103 *)
  Definition qu_pop_front (q : queue) : res queue :=
    if negb (zlen (qu_l q) =? 0) then Ok (mkQu (removelast (qu_l q)) (qu_r q)) else
    let siz := zlen (qu_r q) in
    assert_ (negb (siz =? 0)) ;;;
    let* l := ford_ (siz - 1) 0 (fun i l =>
      let* p := vget (qu_r q) i in
      let* x := st_prod e l in
      Ok (l ++ [(fst p, append x (fst p))])) (qu_l q) in
    Ok (mkQu l []).
  (* queue_aggregation.hpp:111-112 *)
  Definition qu_size (q : queue) : Z := zlen (qu_l q) + zlen (qu_r q).
  Definition qu_clear (q : queue) : queue := mkQu [] [].
End Queue.
Arguments queue : clear implicits.
