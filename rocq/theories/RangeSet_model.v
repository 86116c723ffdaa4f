(* Model of datastructure/util/range_set.hpp: RangeSet<T, merge_adjacent_segment>.
   The base std::map is its list of (key, value) nodes in increasing key order; an
   iterator is a splitting of that list into the nodes before it and the nodes from
   it on.  T is unbounded.  in_the_same_range calls a member that does not exist and
   is not modelled. *)
From Verif Require Import Base.

Definition node : Type := (Z * Z)%type.
(* std::map::upper_bound: the first node whose key exceeds x *)
Fixpoint upper_bound (x : Z) (m : list node) : list node * list node :=
  match m with
  | [] => ([], [])
  | a :: m' => if x <? fst a then ([], m) else let '(p, q) := upper_bound x m' in (a :: p, q)
  end.
(* std::prev; begin() has no predecessor *)
Definition prev (pre : list node) : option (list node * node) :=
  match rev pre with [] => None | a :: p => Some (rev p, a) end.
(* std::map::operator[] followed by an assignment *)
Fixpoint mset (k v : Z) (m : list node) : list node :=
  match m with
  | [] => [(k, v)]
  | a :: m' => if k <? fst a then (k, v) :: m else if k =? fst a then (k, v) :: m' else a :: mset k v m'
  end.

Record rset := mkR { rs_map : list node; rs_size : Z }.
(* range_set.hpp:11 *)
Definition rs_empty : rset := mkR [] 0.
(* range_set.hpp:14-18 *)
Definition rs_elements (s : rset) : Z := rs_size s.
Definition rs_ranges (s : rset) : Z := zlen (rs_map s).
(* range_set.hpp:31-34 *)
Definition rs_find_range (s : rset) (x : Z) : option node :=
  match prev (fst (upper_bound x (rs_map s))) with
  | Some (_, a) => if x <=? snd a then Some a else None
  | None => None
  end.
(* range_set.hpp:21-24 *)
Definition rs_contains (s : rset) (x : Z) : bool :=
  match prev (fst (upper_bound x (rs_map s))) with
  | Some (_, a) => x <=? snd a
  | None => false
  end.
Section Merge.
  Variable merge : bool.
  (* range_set.hpp:120-122 *)
  Definition is_mergeable (cur_r next_l : Z) : bool := next_l <=? cur_r + (if merge then 1 else 0).
  (* range_set.hpp:56-60: the loop that erases the absorbed nodes *)
  Fixpoint absorb (q : list node) (r inserted : Z) : list node * Z * Z :=
    match q with
    | [] => ([], r, inserted)
    | (cl, cr) :: q' => if is_mergeable r cl then absorb q' (Z.max r cr) (inserted - (cr - cl + 1)) else (q, r, inserted)
    end.
  (* range_set.hpp:48-65 *)
  Definition rs_insert (s : rset) (l r : Z) : Z * rset :=
    if r <? l then (0, s) else
    let '(p, q) := upper_bound l (rs_map s) in
    let '(p, q, l) :=
      match prev p with
      | Some (p', a) => if is_mergeable (snd a) l then (p', a :: q, Z.min l (fst a)) else (p, q, l)
      | None => (p, q, l)
      end in
    let '(q, r, inserted) := absorb q r 0 in
    let inserted := inserted + (r - l + 1) in
    (inserted, mkR (mset l r (p ++ q)) (rs_size s + inserted)).
  (* range_set.hpp:83-87 *)
  Fixpoint cut (q : list node) (r tr erased : Z) : list node * Z * Z :=
    match q with
    | [] => ([], tr, erased)
    | (cl, cr) :: q' => if cl <=? r then cut q' r cr (erased + (cr - cl + 1)) else (q, tr, erased)
    end.
  (* range_set.hpp:73-98 *)
  Definition rs_erase (s : rset) (l r : Z) : Z * rset :=
    if r <? l then (0, s) else
    let '(p, q) := upper_bound l (rs_map s) in
    let '(p, q, tl) :=
      match prev p with
      | Some (p', a) => if l <=? snd a then (p', a :: q, fst a) else (p, q, l)
      | None => (p, q, l)
      end in
    let '(q, tr, erased) := cut q r r 0 in
    let m := p ++ q in
    let '(m, erased) := if tl <? l then (mset tl (l - 1) m, erased - (l - tl)) else (m, erased) in
    let '(m, erased) := if r <? tr then (mset (r + 1) tr m, erased - (tr - r)) else (m, erased) in
    (erased, mkR m (rs_size s - erased)).
  (* range_set.hpp:101-105, 108-112 (only with merge_adjacent_segment) *)
  Definition rs_mex (s : rset) (lower : Z) : Z := match rs_find_range s lower with Some a => snd a + 1 | None => lower end.
  Definition rs_maxex (s : rset) (upper : Z) : Z := match rs_find_range s upper with Some a => fst a - 1 | None => upper end.
End Merge.

Inductive rs_op := RInsert (l r : Z) | RErase (l r : Z) | RContains (x : Z) | RSize | RRanges | RFind (x : Z) | RMex (x : Z) | RMaxex (x : Z).
Inductive rs_ret := RNum (x : Z) | RBool (b : bool) | RNode (a : option (Z * Z)).
Definition rs_step (merge : bool) (s : rset) (o : rs_op) : res (rs_ret * rset) :=
  match o with
  | RInsert l r => let '(x, s) := rs_insert merge s l r in Ok (RNum x, s)
  | RErase l r => let '(x, s) := rs_erase s l r in Ok (RNum x, s)
  | RContains x => Ok (RBool (rs_contains s x), s)
  | RSize => Ok (RNum (rs_elements s), s)
  | RRanges => Ok (RNum (rs_ranges s), s)
  | RFind x => Ok (RNode (rs_find_range s x), s)
  | RMex x => Ok (RNum (rs_mex s x), s)
  | RMaxex x => Ok (RNum (rs_maxex s x), s)
  end.
