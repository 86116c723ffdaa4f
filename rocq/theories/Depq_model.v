(* datastructure/double_ended_priority_queue.hpp for integers with std::less.  The heap algorithms, nth_element and sort of the standard library are the record [a]. *)
From Verif Require Import Base Depq_spec.
Section Model.
  Variable a : std.
  (* library/datastructure/double_ended_priority_queue.hpp:84-91.  pivot is None while it is uninitialised *)
  Record dq := DQ { d_max : list Z; d_min : list Z; d_pivot : option Z }.
  Definition less : Z -> Z -> bool := Z.ltb.
  Definition rev_less (x y : Z) : bool := less y x.
  (* lines 16-31: the queue of the elements of a range; the default constructor (no make_heap) is the empty range *)
  Definition dq_new (l : list Z) : dq := DQ (make_heap a less l) [] None.
  Definition dq_size (q : dq) : Z := zlen (d_min q) + zlen (d_max q).
  (* reading pivot before it has been assigned is undefined *)
  Definition piv (q : dq) : res Z := match d_pivot q with Some p => Ok p | None => UB end.
  (* lines 36-44 *)
  Definition dq_push (v : Z) (q : dq) : res dq :=
    let* big := (match d_min q with [] => Ok true | _ => let* p := piv q in Ok (less p v) end) in
    if (big : bool) then Ok (DQ (push_heap a less (d_max q ++ [v])) (d_min q) (d_pivot q))
    else Ok (DQ (d_max q) (push_heap a rev_less (d_min q ++ [v])) (d_pivot q)).
  (* lines 93-110 *)
  Definition ensure_min (q : dq) : res dq :=
    let siz := dq_size q in
    assert_ (negb (siz =? 0)) ;;;
    match d_min q with
    | _ :: _ => Ok q
    | [] =>
      if siz =? 1 then
        let* p := vget (d_max q) 0 in Ok (DQ (d_min q) (d_max q) (Some p))
      else
        let mid := (siz + 1) / 2 in
        let mx := nth_element a less (mid - 1) (d_max q) in
        let* p := vget mx (mid - 1) in
        Ok (DQ (make_heap a less (skipn (Z.to_nat mid) mx)) (make_heap a rev_less (d_min q ++ firstn (Z.to_nat mid) mx)) (Some p))
    end.
  (* lines 111-127 *)
  Definition ensure_max (q : dq) : res dq :=
    let siz := dq_size q in
    assert_ (negb (siz =? 0)) ;;;
    match d_max q with
    | _ :: _ => Ok q
    | [] =>
      if siz =? 1 then Ok (DQ (d_min q) (d_max q) (d_pivot q))
      else
        let mid := siz / 2 in
        let mn := nth_element a less (mid - 1) (d_min q) in
        let* p := vget mn (mid - 1) in
        Ok (DQ (make_heap a less (d_max q ++ skipn (Z.to_nat mid) mn)) (make_heap a rev_less (firstn (Z.to_nat mid) mn)) (Some p))
    end.
  (* lines 48-51 *)
  Definition dq_top (q : dq) : res Z := assert_ (negb (dq_size q =? 0)) ;;; match d_max q with x :: _ => Ok x | [] => piv q end.
  (* lines 52-55 *)
  Definition dq_bot (q : dq) : res (dq * Z) := let* q := ensure_min q in let* x := vget (d_min q) 0 in Ok (q, x).
  (* back() of an empty vector is undefined *)
  Definition pop_back (l : list Z) : res (list Z * Z) := match rev l with [] => UB | x :: r => Ok (rev r, x) end.
  (* lines 58-64 *)
  Definition dq_pop_max (q : dq) : res (dq * Z) :=
    let* q := ensure_max q in
    let* r := pop_back (pop_heap a less (d_max q)) in
    Ok (DQ (fst r) (d_min q) (d_pivot q), snd r).
  (* lines 65-71 *)
  Definition dq_pop_min (q : dq) : res (dq * Z) :=
    let* q := ensure_min q in
    let* r := pop_back (pop_heap a rev_less (d_min q)) in
    Ok (DQ (d_max q) (fst r) (d_pivot q), snd r).
  (* lines 74-81 *)
  Definition dq_dump (q : dq) : list Z := sort a less (d_min q) ++ sort a less (d_max q).
  (* the public interface, line by line as above; empty and size are lines 33-34 *)
  Definition dq_step (o : op) (q : dq) : res (dq * ans) :=
    match o with
    | Push v => let* q := dq_push v q in Ok (q, Done)
    | Min => let* r := dq_bot q in Ok (fst r, Val (snd r))
    | Max => let* x := dq_top q in Ok (q, Val x)
    | PopMin => let* r := dq_pop_min q in Ok (fst r, Val (snd r))
    | PopMax => let* r := dq_pop_max q in Ok (fst r, Val (snd r))
    | Size => Ok (q, Val (dq_size q))
    | Empty => Ok (q, Flag (dq_size q =? 0))
    | Dump => Ok (q, Vals (dq_dump q))
    end.
End Model.
