(* tree/euler_tour.hpp.  The graph is given as adjacency lists (lines 25-26, and lines 22-24 with an edge type whose target is read off). *)
From Verif Require Import Base SegTree_model.
Definition int_max : Z := 2147483647.
(* library/tree/euler_tour.hpp:46-47 *)
Record etour := ET { et_n : Z; et_m : Z; et_visit : list Z; et_leave : list Z; et_dep : list Z; et_seg : list Z }.
(* library/tree/euler_tour.hpp:62.  argmin(u, v) *)
Definition argmin (dep : list Z) (u v : Z) : res Z :=
  let* a := vget dep u in let* b := vget dep v in Ok (if a <? b then u else v).
Definition et_st : Type := (list Z * list Z * list Z * list Z * Z)%type. (* visit, leave, dep, seg, k *)
(* library/tree/euler_tour.hpp:52-56, the recursive lambda *)
Fixpoint et_dfs (fuel : nat) (g : list (list Z)) (m u p : Z) (s : et_st) : res et_st :=
  match fuel with
  | O => OutOfFuel
  | S fuel =>
      let '(visit, leave, dep, seg, k) := s in
      let* visit := vset visit u k in                                              (* line 53 *)
      let* seg := vset seg (m + k) u in
      let* row := vget g u in
      let* s := for_each row (fun v s => if v =? p then Ok s else                  (* line 54 *)
        let '(visit, leave, dep, seg, k) := s in
        let* du := vget dep u in
        let* dep := vset dep v (du + 1) in
        et_dfs fuel g m v u (visit, leave, dep, seg, k)) (visit, leave, dep, seg, k + 1) in
      let '(visit, leave, dep, seg, k) := s in
      let* leave := vset leave u k in                                              (* line 55 *)
      let* seg := vset seg (m + k) p in
      Ok (visit, leave, dep, seg, k + 1)
  end.
(* library/tree/euler_tour.hpp:14-20, 49-58.  EulerTour(g, root); ceil_pow2 (lines 63-67) is the function of segment_tree.hpp *)
Definition et_new (g : list (list Z)) (root : Z) : res etour :=
  let n := zlen g in
  let* m := ceil_pow2 (2 * n) in
  let* dep := vset (vrep (n + 1) 0) root 0 in                                      (* line 50 *)
  let* dep := vset dep n int_max in
  let* s := et_dfs (length g) g m root n (vrep n 0, vrep n 0, dep, vrep (2 * m) n, 0) in
  let '(visit, leave, dep, seg, _) := s in
  let* seg := ford_ (m - 1) 0 (fun k seg =>                                        (* line 19 *)
    let* x := vget seg (2 * k) in let* y := vget seg (2 * k + 1) in
    let* z := argmin dep x y in vset seg k z) seg in
  Ok (ET n m visit leave dep seg).
(* library/tree/euler_tour.hpp:29-33, the loop over [l, r) *)
Definition et_loop (a : etour) (l r : Z) : res Z :=
  loop (S (Z.to_nat (et_m a))) (fun s : Z * Z * Z => let '(l, r, x) := s in
    if l <? r then
      let* s := (if l mod 2 =? 1 then let* y := vget (et_seg a) l in let* x := argmin (et_dep a) x y in Ok (l + 1, x) else Ok (l, x)) in
      let '(l, x) := s in
      let* s := (if r mod 2 =? 1 then let* y := vget (et_seg a) (r - 1) in let* x := argmin (et_dep a) x y in Ok (r - 1, x) else Ok (r, x)) in
      let '(r, x) := s in
      Ok (inl (l / 2, r / 2, x))
    else Ok (inr x)) (l, r, et_n a).
(* library/tree/euler_tour.hpp:27-35.  lca(u, v); line 28 swaps at most once *)
Definition et_lca (a : etour) (u v : Z) : res Z :=
  let* i := vget (et_visit a) u in
  let* j := vget (et_visit a) v in
  if i >? j then et_loop a (et_m a + j) (et_m a + i + 1) else et_loop a (et_m a + i) (et_m a + j + 1).
(* library/tree/euler_tour.hpp:36-44.  dist, depth, visit_time, leave_time, parent *)
Definition et_dist (a : etour) (u v : Z) : res Z :=
  let* du := vget (et_dep a) u in let* dv := vget (et_dep a) v in
  let* w := et_lca a u v in let* dw := vget (et_dep a) w in Ok (du + dv - 2 * dw).
Definition et_depth (a : etour) (u : Z) : res Z := vget (et_dep a) u.
Definition et_visit_time (a : etour) (u : Z) : res Z := vget (et_visit a) u.
Definition et_leave_time (a : etour) (u : Z) : res Z := vget (et_leave a) u.
Definition et_parent (a : etour) (u : Z) : res Z :=
  let* l := vget (et_leave a) u in let* p := vget (et_seg a) (et_m a + l) in Ok (if p =? et_n a then -1 else p).
