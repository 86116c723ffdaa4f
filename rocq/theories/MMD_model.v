(* graph/manhattan_minimum_distances.hpp over unbounded integers.  The sentinels are None: numeric_limits<T>::min() (no value in the prefix maximum; the code confuses a sum x + y equal to it with it) and numeric_limits<T>::max() (no distance yet). *)
From Verif Require Import Base Sorting Fenwick_model Compress_model.
(* library/graph/manhattan_minimum_distances.hpp:14, 16: max with its unit *)
Definition omax (x y : option Z) : option Z :=
  match x, y with None, _ => y | _, None => x | Some a, Some b => Some (Z.max a b) end.
(* std::min(res[i], d) *)
Definition omin (r : option Z) (d : Z) : option Z := match r with None => Some d | Some x => Some (Z.min x d) end.
(* library/graph/manhattan_minimum_distances.hpp:34-38, the comparison; it is only called on positions of points *)
Definition mm_lt (pts : list (Z * Z)) (i j : Z) : bool :=
  let '(xi, yi) := nth (Z.to_nat i) pts (0, 0) in
  let '(xj, yj) := nth (Z.to_nat j) pts (0, 0) in
  if yi - xi =? yj - xj then xi <? xj else yi - xi <? yj - xj.
Section Sort.
  Variable srt : (Z -> Z -> bool) -> list Z -> list Z. (* std::sort of the positions *)
  (* library/graph/manhattan_minimum_distances.hpp:31-59, sweep; returns p and res *)
  Definition mm_sweep (pts : list (Z * Z)) (p : list Z) (r : list (option Z)) : res (list Z * list (option Z)) :=
    let p := srt (mm_lt pts) p in
    let n := zlen pts in
    let* comp_x := for_ 0 n (fun i c => let* pt := vget pts i in vset c i (fst pt)) (vrep n 0) in
    let comp_x := unique (isort Z.leb comp_x) in
    let m := zlen comp_x in
    let* s := for_each p (fun i (s : fpre (option Z) * list (option Z)) =>
      let '(pmq, r) := s in
      let* pt := vget pts i in
      let '(x, y) := pt in
      let cx := lower_bound comp_x x in
      let* v := fpre_query omax None pmq (cx + 1) in
      let* r := match v with None => Ok r | Some v => let* ri := vget r i in vset r i (omin ri (x + y - v)) end in
      let* pmq := fpre_apply omax pmq cx (Some (x + y)) in
      Ok (pmq, r)) (fpre_init None m, r) in
    Ok (p, snd s).
  (* library/graph/manhattan_minimum_distances.hpp:65, 67, 69 *)
  Definition swap_xy (a : Z * Z) : Z * Z := (snd a, fst a).
  Definition neg_x (a : Z * Z) : Z * Z := (- fst a, snd a).
  Definition neg_y (a : Z * Z) : Z * Z := (fst a, - snd a).
  Notation mst := (list (Z * Z) * list Z * list (option Z))%type. (* points, p, res *)
  (* library/graph/manhattan_minimum_distances.hpp:22-73 *)
  Definition manhattan_minimum_distances (pts : list (Z * Z)) : res (list (option Z)) :=
    let n := zlen pts in
    let* s := for_ 0 2 (fun _ (s : mst) =>
      let* s := for_ 0 2 (fun _ (s : mst) =>
        let* s := for_ 0 2 (fun _ (s : mst) =>
          let '(pts, p, r) := s in
          let* t := mm_sweep pts p r in
          Ok (map swap_xy pts, fst t, snd t)) s in
        let '(pts, p, r) := s in Ok (map neg_x pts, p, r)) s in
      let '(pts, p, r) := s in Ok (map neg_y pts, p, r)) (pts, zrange n, vrep n None) in
    Ok (snd s).
End Sort.
