(* A finite set of integers, as a list of its elements. *)
From Verif Require Import Base RangeSet_model.

Definition mem (x : Z) (s : list Z) : bool := existsb (Z.eqb x) s.
(* the integers l, l+1, ..., r *)
Definition interval (l r : Z) : list Z := map (fun i => l + i) (zrange (r - l + 1)).
(* the nearest integer to x, going up (dir = 1) or down (dir = -1), outside s *)
Definition nearest_out (dir x : Z) (s : list Z) : Z :=
  match find (fun i => negb (mem (x + dir * i) s)) (zrange (zlen s + 1)) with Some i => x + dir * i | None => x end.
(* [merge] = false leaves adjacent ranges apart: there the ranges themselves are not
   determined by the set and are left unspecified *)
Definition rs_spec (merge : bool) (s : list Z) (o : rs_op) : res (rs_ret * list Z) :=
  match o with
  | RInsert l r => let new := filter (fun x => negb (mem x s)) (interval l r) in Ok (RNum (zlen new), new ++ s)
  | RErase l r => let gone := filter (fun x => (l <=? x) && (x <=? r)) s in
      Ok (RNum (zlen gone), filter (fun x => negb ((l <=? x) && (x <=? r))) s)
  | RContains x => Ok (RBool (mem x s), s)
  | RSize => Ok (RNum (zlen s), s)
  | RRanges => if merge then Ok (RNum (zlen (filter (fun x => negb (mem (x - 1) s)) s)), s) else UB
  | RFind x => if merge then Ok (RNode (if mem x s then Some (nearest_out (-1) x s + 1, nearest_out 1 x s - 1) else None), s) else UB
  | RMex x => if merge then Ok (RNum (nearest_out 1 x s), s) else UB
  | RMaxex x => if merge then Ok (RNum (nearest_out (-1) x s), s) else UB
  end.
(* what iterating over the stored ranges shows: increasing, non-empty, disjoint, covering
   exactly s, and with a gap between neighbours if [merge] *)
Definition covered (m : list (Z * Z)) (x : Z) : Prop := exists l r, In (l, r) m /\ l <= x <= r.
Definition segments (merge : bool) (s : list Z) (m : list (Z * Z)) : Prop :=
  (forall l r, In (l, r) m -> l <= r) /\
  (forall i j l r l' r', 0 <= i < j -> vget m i = Ok (l, r) -> vget m j = Ok (l', r') -> r + (if merge then 1 else 0) < l') /\
  (forall x, In x s <-> covered m x).
