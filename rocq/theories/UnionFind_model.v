(* Model of library/datastructure/union_find/{union_find,undo_union_find,
   linked_union_find}.hpp.  Vertices and parent entries are C++ ints -> Z. *)
From Verif Require Import Base.

(* union_find.hpp:46-47  [int _n; std::vector<int> _dat;] *)
Record uf := mkUF { uf_n : Z; uf_dat : list Z }.

(* union_find.hpp:10  [UnionFind(int _n) : _n(_n), _dat(_n, -1)] *)
Definition uf_init (n : Z) : uf := mkUF n (vrep n (-1)).

(* union_find.hpp:14  [while (_dat[x] >= 0) buf.push_back(x), x = _dat[x];]
   [buf] is kept as a stack, head = back().  The static buffer is empty on
   entry because line 15 always empties it. *)
Fixpoint root_climb (fuel : nat) (dat : list Z) (x : Z) (buf : list Z) : res (Z * list Z) :=
  match fuel with
  | O => OutOfFuel
  | S k =>
      let* d := vget dat x in
      if 0 <=? d then root_climb k dat d (x :: buf) else Ok (x, buf)
  end.

(* union_find.hpp:15  [while (buf.size()) _dat[buf.back()] = x, buf.pop_back();] *)
Definition root_compress (dat : list Z) (buf : list Z) (x : Z) : res (list Z) :=
  for_each buf (fun b d => vset d b x) dat.

(* union_find.hpp:12-17  root *)
Definition uf_root (s : uf) (x : Z) : res (Z * uf) :=
  let* (r, buf) := root_climb (S (length (uf_dat s))) (uf_dat s) x [] in
  let* dat := root_compress (uf_dat s) buf r in
  Ok (r, mkUF (uf_n s) dat).

(* union_find.hpp:23-29  merge *)
Definition uf_merge (s : uf) (x y : Z) : res (bool * uf) :=
  let* (x, s) := uf_root s x in
  let* (y, s) := uf_root s y in
  if x =? y then Ok (false, s) else
  let* dx := vget (uf_dat s) x in
  let* dy := vget (uf_dat s) y in
  let '(x, y) := if dx >? dy then (y, x) else (x, y) in
  let* dx := vget (uf_dat s) x in
  let* dy := vget (uf_dat s) y in
  let* dat := vset (uf_dat s) x (dx + dy) in
  let* dat := vset dat y x in
  Ok (true, mkUF (uf_n s) dat).

(* union_find.hpp:31-33  same *)
Definition uf_same (s : uf) (x y : Z) : res (bool * uf) :=
  let* (rx, s) := uf_root s x in
  let* (ry, s) := uf_root s y in
  Ok (rx =? ry, s).

(* union_find.hpp:35-37  size *)
Definition uf_size (s : uf) (x : Z) : res (Z * uf) :=
  let* (r, s) := uf_root s x in
  let* d := vget (uf_dat s) r in
  Ok (- d, s).

(* union_find.hpp:39-44  groups; [res.erase(remove_if(empty))] is a filter *)
Definition uf_groups (s : uf) : res (list (list Z) * uf) :=
  let* (g, s) := for_ 0 (uf_n s) (fun i '(g, s) =>
      let* (r, s) := uf_root s i in
      let* gr := vget g r in
      let* g := vset g r (gr ++ [i]) in
      Ok (g, s)) (vrep (uf_n s) [], s) in
  Ok (filter (fun l => match l with [] => false | _ => true end) g, s).

(* ------------------------------------------------------------------------- *)
(* undo_union_find.hpp:53-55 (fields).  [_history] is a stack, head = back(). *)
Record uuf := mkUUF { uuf_n : Z; uuf_dat : list Z; uuf_hist : list (Z * Z) }.

(* undo_union_find.hpp:12 *)
Definition uuf_init (n : Z) : uuf := mkUUF n (vrep n (-1)) [].

(* undo_union_find.hpp:14-17  root (recursive, no compression) *)
Fixpoint uuf_root_ (fuel : nat) (n : Z) (dat : list Z) (x : Z) : res Z :=
  match fuel with
  | O => OutOfFuel
  | S k =>
      assert_ (x <? n) ;;;
      let* d := vget dat x in
      if d <? 0 then Ok x else uuf_root_ k n dat d
  end.
Definition uuf_root (s : uuf) (x : Z) : res Z :=
  uuf_root_ (S (length (uuf_dat s))) (uuf_n s) (uuf_dat s) x.

(* undo_union_find.hpp:21-28  merge *)
Definition uuf_merge (s : uuf) (x y : Z) : res (bool * uuf) :=
  let* x := uuf_root s x in
  let* y := uuf_root s y in
  if x =? y then Ok (false, s) else
  let* dx := vget (uuf_dat s) x in
  let* dy := vget (uuf_dat s) y in
  let '(x, y) := if dx >? dy then (y, x) else (x, y) in
  let* dx := vget (uuf_dat s) x in
  let* dy := vget (uuf_dat s) y in
  let* dat := vset (uuf_dat s) x (dx + dy) in
  let hist := (x, dx) :: uuf_hist s in
  let* dy' := vget dat y in
  let* dat := vset dat y x in
  let hist := (y, dy') :: hist in
  Ok (true, mkUUF (uuf_n s) dat hist).

(* undo_union_find.hpp:29-31 *)
Definition uuf_same (s : uuf) (x y : Z) : res bool :=
  let* rx := uuf_root s x in let* ry := uuf_root s y in Ok (rx =? ry).

(* undo_union_find.hpp:32-34 *)
Definition uuf_size (s : uuf) (x : Z) : res Z :=
  let* r := uuf_root s x in let* d := vget (uuf_dat s) r in Ok (- d).

(* undo_union_find.hpp:41-43  snapshot: forget the history *)
Definition uuf_snapshot (s : uuf) : uuf := mkUUF (uuf_n s) (uuf_dat s) [].

(* undo_union_find.hpp:44-48  undo: pops two history records.  [back()] of an
   empty vector is UB; the first emptiness is asserted by line 45. *)
Definition uuf_undo (s : uuf) : res uuf :=
  match uuf_hist s with
  | [] => Abort
  | [_] => UB
  | (p1, v1) :: (p2, v2) :: h =>
      let* dat := vset (uuf_dat s) p1 v1 in
      let* dat := vset dat p2 v2 in
      Ok (mkUUF (uuf_n s) dat h)
  end.

(* undo_union_find.hpp:49-51  rollback: [while (_history.size()) undo();] *)
Definition uuf_rollback (s : uuf) : res uuf :=
  loop (S (length (uuf_hist s))) (fun s =>
    match uuf_hist s with
    | [] => Ok (inr s)
    | _ => let* s' := uuf_undo s in Ok (inl s')
    end) s.

(* ------------------------------------------------------------------------- *)
(* linked_union_find.hpp:28 *)
Record luf := mkLUF { luf_uf : uf; luf_link : list Z }.

(* linked_union_find.hpp:10-12  iota *)
Definition luf_init (n : Z) : luf :=
  mkLUF (uf_init n) (map Z.of_nat (seq 0 (Z.to_nat n))).

(* linked_union_find.hpp:14-20  merge: swaps the links of the *arguments* *)
Definition luf_merge (s : luf) (x y : Z) : res (bool * luf) :=
  let* (b, u) := uf_merge (luf_uf s) x y in
  if b then
    let* lx := vget (luf_link s) x in
    let* ly := vget (luf_link s) y in
    let* l := vset (luf_link s) x ly in
    let* l := vset l y lx in
    Ok (true, mkLUF u l)
  else Ok (false, mkLUF u (luf_link s)).

(* linked_union_find.hpp:22-26  connected_component; [comp] accumulated reversed *)
Definition luf_component (s : luf) (x : Z) : res (list Z) :=
  let* y := vget (luf_link s) x in
  let* comp := loop (S (length (luf_link s))) (fun '(y, comp) =>
      if y =? x then Ok (inr comp)
      else let* y' := vget (luf_link s) y in Ok (inl (y', y :: comp))) (y, [x]) in
  Ok (rev comp).
