(* Model of library/datastructure/monotonic_convex_hull_trick.hpp.  value_type is Z (no overflow); numeric_limits min and max
   are the parameters tmin, tmax; std::deque is a list, worked from the back by reversing it. *)
From Verif Require Import Base Mcht_spec.

(* lines 94-97 and prev_x of lines 28, 45 *)
Record cht := mkC { h_lines : list (Z * Z); h_max : Z; h_min : Z; h_prev : Z }.
Definition cht_new (tmin tmax : Z) (k : qkind) : cht := mkC [] tmin tmax (match k with QInc => tmin | _ => tmax end).
(* lines 100-103 *)
Definition is_nec (l m r : Z * Z) : bool := (snd m - snd r) * (fst m - fst l) <? (snd l - snd m) * (fst r - fst m).
(* lines 105-117; the deque from its front *)
Fixpoint add_left (lines : list (Z * Z)) (p : Z * Z) : list (Z * Z) :=
  match lines with
  | [] => [p]
  | q :: r =>
    if fst q =? fst p then (if snd q <=? snd p then lines else add_left r p)
    else match r with
         | [] => p :: lines
         | q2 :: _ => if is_nec q2 q p then p :: lines else add_left r p
         end
  end.
(* lines 119-131; the deque from its back *)
Fixpoint add_back (lines : list (Z * Z)) (p : Z * Z) : list (Z * Z) :=
  match lines with
  | [] => [p]
  | q :: r =>
    if fst q =? fst p then (if snd q <=? snd p then lines else add_back r p)
    else match r with
         | [] => p :: lines
         | q2 :: _ => if is_nec p q q2 then p :: lines else add_back r p
         end
  end.
Definition add_right (lines : list (Z * Z)) (p : Z * Z) : list (Z * Z) := rev (add_back (rev lines) p).
(* lines 79-88 *)
Definition cht_add (is_min : bool) (h : cht) (s i : Z) : res cht :=
  let '(s, i) := if is_min then (s, i) else (- s, - i) in
  if s <=? h_min h then Ok (mkC (add_right (h_lines h) (s, i)) (Z.max (h_max h) s) s (h_prev h))
  else if h_max h <=? s then Ok (mkC (add_left (h_lines h) (s, i)) s (Z.min (h_min h) s) (h_prev h))
  else Abort.
(* lines 133-136 *)
Definition ev (lines : list (Z * Z)) (x i : Z) : res Z := let* p := vget lines i in Ok (fst p * x + snd p).
(* lines 33-40 and 50-57: the loop over the deque from one end; res is the value of the first line *)
Fixpoint q_pop (x res : Z) (lines : list (Z * Z)) : Z * list (Z * Z) :=
  match lines with
  | p :: ((q :: _) as r) => let nxt := fst q * x + snd q in if res <? nxt then (res, lines) else q_pop x nxt r
  | _ => (res, lines)
  end.
(* lines 62-76 *)
Definition q_tern (lines : list (Z * Z)) (x : Z) : res Z :=
  let* (l, r) := loop (Z.to_nat (zlen lines + 2)) (fun st => let '(l, r) := st in
    if 3 <=? r - l then
      let ml := l + (r - l) / 3 in
      let mr := r - (r - l) / 3 in
      let* a := ev lines x ml in let* b := ev lines x mr in
      Ok (inl (if a <? b then (l, mr) else (ml, r)))
    else Ok (inr (l, r))) (-1, zlen lines) in
  assert_ (r - l =? 2) ;;; ev lines x (l + 1).
(* lines 26-77, 90-92 *)
Definition cht_query (is_min : bool) (k : qkind) (h : cht) (x : Z) : res (Z * cht) :=
  let* (v, h) := (match k with
    | QInc => assert_ (h_prev h <=? x) ;;; assert_ (negb (zlen (h_lines h) =? 0)) ;;;
        let* v := ev (h_lines h) x 0 in let '(v, ls) := q_pop x v (h_lines h) in Ok (v, mkC ls (h_max h) (h_min h) x)
    | QDec => assert_ (x <=? h_prev h) ;;; assert_ (negb (zlen (h_lines h) =? 0)) ;;;
        let* v := ev (h_lines h) x (zlen (h_lines h) - 1) in let '(v, ls) := q_pop x v (rev (h_lines h)) in Ok (v, mkC (rev ls) (h_max h) (h_min h) x)
    | QAny => assert_ (negb (zlen (h_lines h) =? 0)) ;;; let* v := q_tern (h_lines h) x in Ok (v, h)
    end) in
  Ok ((if is_min then 1 else -1) * v, h).
Definition cht_do (is_min : bool) (k : qkind) (o : mop) (st : cht * list Z) : res (cht * list Z) :=
  let '(h, outs) := st in
  match o with
  | Add s i => let* h := cht_add is_min h s i in Ok (h, outs)
  | Query x => let* (v, h) := cht_query is_min k h x in Ok (h, outs ++ [v])
  end.
Definition cht_run (tmin tmax : Z) (is_min : bool) (k : qkind) (os : list mop) : res (list Z) :=
  let* (h, outs) := for_each os (cht_do is_min k) (cht_new tmin tmax k, []) in Ok outs.
