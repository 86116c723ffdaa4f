(* Model of datastructure/union_find/persistent_union_find.hpp on top of the model of
   PersistentArray<int, 4>.  All versions live in one pool; a version is its array. *)
From Verif Require Import Base PArray_model.

Definition pstate : Type := list (pnode Z) * list parray.

Inductive pufop := UNew (n : Z) | URoot (v x : Z) | UMerge (v x y : Z) | USame (v x y : Z) | USize (v x : Z) | UGroups (v : Z).
Inductive pufret := UUnit | UInt (r : Z) | UBool (b : bool) | UGroupsR (g : list (list Z)).

(* union_find/persistent_union_find.hpp:22-30; [buf] is empty between calls.  The first loop
   runs at most size times when the parent links are acyclic. *)
Definition puf_root (m : list (pnode Z)) (a : parray) (x : Z) : res (Z * list (pnode Z)) :=
  let* (x, buf) := loop (S (Z.to_nat (pa_n a))) (fun '(x, buf) =>
    let* r := node_val 4 m (pa_root a) x in
    if r >=? 0 then Ok (inl (r, x :: buf)) else Ok (inr (x, buf))) (x, []) in
  let* m := for_each buf (fun y m => let* (_, m) := node_mut_set 4 m (pa_root a) y x in Ok m) m in
  Ok (x, m).
(* persistent_union_find.hpp:36-45 *)
Definition puf_merge (m : list (pnode Z)) (a : parray) (x y : Z) : res (bool * list (pnode Z) * parray) :=
  let* (x, m) := puf_root m a x in
  let* (y, m) := puf_root m a y in
  if x =? y then Ok (false, m, a) else
  let* vx := node_val 4 m (pa_root a) x in
  let* vy := node_val 4 m (pa_root a) y in
  let '(x, y, vx, vy) := if vx >? vy then (y, x, vy, vx) else (x, y, vx, vy) in
  let* (m, r) := node_set 4 m (pa_root a) x (vx + vy) in
  let* (m, r) := node_set 4 m r y x in
  Ok (true, m, PA (pa_n a) r).
(* persistent_union_find.hpp:47-49; the two calls are unsequenced relative to each other, the
   model makes them left to right (they commute on the answers) *)
Definition puf_same (m : list (pnode Z)) (a : parray) (x y : Z) : res (bool * list (pnode Z)) :=
  let* (x, m) := puf_root m a x in
  let* (y, m) := puf_root m a y in
  Ok (x =? y, m).
(* persistent_union_find.hpp:51-53 *)
Definition puf_size (m : list (pnode Z)) (a : parray) (x : Z) : res (Z * list (pnode Z)) :=
  let* (x, m) := puf_root m a x in
  let* v := node_val 4 m (pa_root a) x in
  Ok (- v, m).
(* persistent_union_find.hpp:55-60 *)
Definition puf_groups (m : list (pnode Z)) (a : parray) : res (list (list Z) * list (pnode Z)) :=
  let* (g, m) := for_ 0 (pa_n a) (fun i '(g, m) =>
    let* (r, m) := puf_root m a i in
    let* l := vget g r in
    let* g := vset g r (l ++ [i]) in
    Ok (g, m)) (vrep (pa_n a) [], m) in
  Ok (filter (fun l => negb (zlen l =? 0)) g, m).

(* Calls on any version; merge makes a new version, also when it returns false
   (persistent_union_find.hpp:38: a copy of *this) *)
Definition puf_step (s : pstate) (o : pufop) : res (pufret * pstate) :=
  let '(m, vs) := s in
  match o with
  | UNew n => let* (m, r) := build 4 m (vrep n (-1)) in Ok (UUnit, (m, vs ++ [PA n r]))
  | URoot v x => let* a := vget vs v in let* (r, m) := puf_root m a x in Ok (UInt r, (m, vs))
  | UMerge v x y => let* a := vget vs v in let* (b, m, a) := puf_merge m a x y in Ok (UBool b, (m, vs ++ [a]))
  | USame v x y => let* a := vget vs v in let* (b, m) := puf_same m a x y in Ok (UBool b, (m, vs))
  | USize v x => let* a := vget vs v in let* (r, m) := puf_size m a x in Ok (UInt r, (m, vs))
  | UGroups v => let* a := vget vs v in let* (g, m) := puf_groups m a in Ok (UGroupsR g, (m, vs))
  end.

(* the same calls when only the newest version is ever used *)
From Verif Require Import UnionFind_spec.
Definition puf_newest (s : list (pnode Z) * parray) (o : uop) : res (uout * (list (pnode Z) * parray)) :=
  let '(m, a) := s in
  match o with
  | Merge x y => let* (b, m, a) := puf_merge m a x y in Ok (OBool b, (m, a))
  | Same x y => let* (b, m) := puf_same m a x y in Ok (OBool b, (m, a))
  | Size x => let* (r, m) := puf_size m a x in Ok (OInt r, (m, a))
  | Root x => let* (r, m) := puf_root m a x in Ok (OInt r, (m, a))
  end.
