(* Model of library/datastructure/util/priority_sum.hpp over the integers.
   std::priority_queue is a list kept in the order of removal: its head is top().
   [cmp] is Comparator; RevComparator is the reverse (std::less and std::greater in
   the two aliases at priority_sum.hpp:83-86). *)
From Verif Require Import Base Sorting.

Section PrioSum.
  Variable cmp : Z -> Z -> bool.
  Definition rev_cmp (x y : Z) : bool := cmp y x.

  (* std::priority_queue with comparator [c]: the top is an element that is not less
     (under [c]) than any other *)
  Definition pq_push (c : Z -> Z -> bool) (q : list Z) (v : Z) : list Z := insert (fun x y => negb (c x y)) v q.

  (* priority_sum.hpp:51-56 *)
  Record psum := PS { ps_k : Z; ps_sum : Z; ps_head : list Z; ps_dhead : list Z; ps_tail : list Z; ps_dtail : list Z }.

  (* priority_sum.hpp:15-16 *)
  Definition ps_new (k : Z) : psum := PS k 0 [] [] [] [].

  (* priority_sum.hpp:59-68 *)
  Definition fix_grow (s : psum) : res (psum + psum) :=
    if (zlen (ps_head s) - zlen (ps_dhead s) <? ps_k s) && negb (zlen (ps_tail s) =? 0) then
      match ps_tail s with
      | [] => UB
      | v :: tail =>
          match ps_dtail s with
          | w :: dtail => if w =? v then Ok (inl (PS (ps_k s) (ps_sum s) (ps_head s) (ps_dhead s) tail dtail))
                          else Ok (inl (PS (ps_k s) (ps_sum s + v) (pq_push cmp (ps_head s) v) (ps_dhead s) tail (ps_dtail s)))
          | [] => Ok (inl (PS (ps_k s) (ps_sum s + v) (pq_push cmp (ps_head s) v) (ps_dhead s) tail (ps_dtail s)))
          end
      end
    else Ok (inr s).
  (* priority_sum.hpp:69-78 *)
  Definition fix_shrink (s : psum) : res (psum + psum) :=
    if ps_k s <? zlen (ps_head s) - zlen (ps_dhead s) then
      match ps_head s with
      | [] => UB
      | v :: head =>
          match ps_dhead s with
          | w :: dhead => if w =? v then Ok (inl (PS (ps_k s) (ps_sum s) head dhead (ps_tail s) (ps_dtail s)))
                          else Ok (inl (PS (ps_k s) (ps_sum s - v) head (ps_dhead s) (pq_push rev_cmp (ps_tail s) v) (ps_dtail s)))
          | [] => Ok (inl (PS (ps_k s) (ps_sum s - v) head (ps_dhead s) (pq_push rev_cmp (ps_tail s) v) (ps_dtail s)))
          end
      end
    else Ok (inr s).
  Definition ps_fix (s : psum) : res psum :=
    let* s := loop (S (length (ps_tail s))) fix_grow s in
    loop (S (length (ps_head s))) fix_shrink s.

  (* priority_sum.hpp:22-26 *)
  Definition ps_insert (s : psum) (v : Z) : res psum :=
    ps_fix (PS (ps_k s) (ps_sum s + v) (pq_push cmp (ps_head s) v) (ps_dhead s) (ps_tail s) (ps_dtail s)).

  (* priority_sum.hpp:28-39 *)
  Definition ps_erase (s : psum) (v : Z) : res psum :=
    match ps_head s with
    | t :: head =>
        if v =? t then ps_fix (PS (ps_k s) (ps_sum s - v) head (ps_dhead s) (ps_tail s) (ps_dtail s))
        else if rev_cmp v t then ps_fix (PS (ps_k s) (ps_sum s - v) (ps_head s) (pq_push cmp (ps_dhead s) v) (ps_tail s) (ps_dtail s))
        else ps_fix (PS (ps_k s) (ps_sum s) (ps_head s) (ps_dhead s) (ps_tail s) (pq_push rev_cmp (ps_dtail s) v))
    | [] => ps_fix (PS (ps_k s) (ps_sum s) (ps_head s) (ps_dhead s) (ps_tail s) (pq_push rev_cmp (ps_dtail s) v))
    end.

  (* priority_sum.hpp:43-45; incr_k and decr_k are set_k of get_k() + 1 and - 1 *)
  Definition ps_set_k (s : psum) (k : Z) : res psum :=
    ps_fix (PS k (ps_sum s) (ps_head s) (ps_dhead s) (ps_tail s) (ps_dtail s)).

  (* priority_sum.hpp:47-49 *)
  Definition ps_size (s : psum) : Z := zlen (ps_head s) + zlen (ps_tail s) - (zlen (ps_dhead s) + zlen (ps_dtail s)).

  Inductive ps_op := PInsert (v : Z) | PSetK (k : Z).
  Definition ps_do (o : ps_op) (s : psum) : res psum :=
    match o with PInsert v => ps_insert s v | PSetK k => ps_set_k s k end.
End PrioSum.
