(* Rerooting: library/tree/rerooting.hpp.  One model for all four class templates: a weight that is
   std::monostate is a weight that the callbacks ignore (rerooting.hpp:81-103 only drops it).  int
   values are at most 2n in size and do not overflow. *)
From Verif Require Import Base Seq.

Section CSR.
  Context {W : Type}.
  Variable w0 : W. (* edge_weight{} *)
  Definition cedge : Type := Z * Z * W.
  Record csr := Csr { csr_edges : list (Z * W); csr_start : list Z }.
  (* rerooting.hpp:154-157 *)
  Definition csr_count (e : cedge) (start : list Z) : res (list Z) :=
    let '(u, v, _) := e in
    let* x := vget start u in let* start := vset start u (x + 1) in
    let* x := vget start v in vset start v (x + 1).
  (* rerooting.hpp:158-160 *)
  Definition csr_prefix (n : Z) (start : list Z) : res (list Z) :=
    for_ 1 (n + 1) (fun i start => let* x := vget start i in let* y := vget start (i - 1) in vset start i (x + y)) start.
  (* rerooting.hpp:162-163, _edges[--_start[u]] = x *)
  Definition csr_put (u : Z) (x : Z * W) (s : list (Z * W) * list Z) : res (list (Z * W) * list Z) :=
    let '(edges, start) := s in
    let* k := vget start u in
    let* start := vset start u (k - 1) in
    let* edges := vset edges (k - 1) x in
    Ok (edges, start).
  (* rerooting.hpp:153-165 *)
  Definition csr_new (n : Z) (es : list cedge) : res csr :=
    let* start := for_each es csr_count (vrep (n + 1) 0) in
    let* start := csr_prefix n start in
    let* (edges, start) := for_each es (fun '(u, v, w) s => let* s := csr_put u (v, w) s in csr_put v (u, w) s)
      (vrep (2 * zlen es) (0, w0), start) in
    Ok (Csr edges start).
  (* rerooting.hpp:184-186: the view [_start[u], _start[u + 1]) of _edges *)
  Definition csr_row (g : csr) (u : Z) : res (list (Z * W)) :=
    let* l := vget (csr_start g) u in
    let* r := vget (csr_start g) (u + 1) in
    if (0 <=? l) && (l <=? r) && (r <=? zlen (csr_edges g)) then Ok (slice l r (csr_edges g)) else UB.
End CSR.
Arguments cedge W : clear implicits.
Arguments csr W : clear implicits.

Section Rerooting.
  Context {VW W DP : Type}.
  Variables (op : DP -> DP -> DP) (e : DP) (add_subtree_root : DP -> VW -> W -> DP) (add_root : DP -> VW -> DP) (w0 : W).
  (* rerooting.hpp:43-64: the vertex weights and the edges *)
  Record rerooting := RR { rr_w : list VW; rr_e : list (cedge W) }.
  Definition rr_new (w : list VW) : rerooting := RR w [].
  Definition rr_add_vertex (w : VW) (r : rerooting) : rerooting := RR (rr_w r ++ [w]) (rr_e r).
  Definition rr_add_edge (u v : Z) (w : W) (r : rerooting) : res rerooting :=
    assert_ ((0 <=? u) && (u <? zlen (rr_w r))) ;;;
    assert_ ((0 <=? v) && (v <? zlen (rr_w r))) ;;;
    Ok (RR (rr_w r) (rr_e r ++ [(u, v, w)])).
  Definition rr_set_vertex_weights (w : list VW) (r : rerooting) : res rerooting :=
    assert_ (zlen w =? zlen (rr_w r)) ;;; Ok (RR w (rr_e r)).
  Variable g : csr W.
  Variable ws : list VW.
  (* rerooting.hpp:111-116.  Fuel: a call handles one vertex of its subtree *)
  Fixpoint rr_dfs1 (fuel : nat) (u p : Z) (dp : list DP) : res (list DP) :=
    match fuel with
    | O => OutOfFuel
    | S fuel =>
        let* row := csr_row g u in
        for_each row (fun '(v, w) dp =>
          if v =? p then Ok dp else
          let* dp := rr_dfs1 fuel v u dp in
          let* du := vget dp u in let* dv := vget dp v in let* wv := vget ws v in
          vset dp u (op du (add_subtree_root dv wv w))) dp
    end.
  (* add_subtree_root_(get_sum(v), _w[v], w), rerooting.hpp:120-122 *)
  Definition rr_term (p : Z) (sum_p : DP) (dp : list DP) (v : Z) (w : W) : res DP :=
    let* s := (if v =? p then Ok sum_p else vget dp v) in
    let* wv := vget ws v in Ok (add_subtree_root s wv w).
  (* rerooting.hpp:125-129 *)
  Definition rr_sum_r (p : Z) (sum_p : DP) (dp : list DP) (row : list (Z * W)) : res (list DP) :=
    ford_ (zlen row - 1) (-1) (fun i sr =>
      let* (v, w) := vget row i in
      let* x := vget sr (i + 1) in
      let* y := rr_term p sum_p dp v w in
      vset sr i (op x y)) (vrep (zlen row + 1) e).
  (* rerooting.hpp:132-142, one pass; rec is the recursive call *)
  Definition rr_body (rec : Z -> Z -> DP -> list DP -> res (list DP)) (u p : Z) (sum_p : DP) (row : list (Z * W)) (sum_r : list DP) (i : Z) (s : DP * list DP) : res (DP * list DP) :=
    let '(sum_l, dp) := s in
    let* (v, w) := vget row i in
    let* y := rr_term p sum_p dp v w in
    let nxt := op sum_l y in
    if v =? p then Ok (nxt, dp) else
    let* x := vget sum_r (i + 1) in
    let sum_lr := op sum_l x in
    let* dv := vget dp v in let* wu := vget ws u in
    let sum_v := op dv (add_subtree_root sum_lr wu w) in
    let* wv := vget ws v in
    let* dp := vset dp v (add_root sum_v wv) in
    let* dp := rec v u sum_lr dp in
    Ok (nxt, dp).
  (* rerooting.hpp:119-143 *)
  Fixpoint rr_dfs2 (fuel : nat) (u p : Z) (sum_p : DP) (dp : list DP) : res (list DP) :=
    match fuel with
    | O => OutOfFuel
    | S fuel =>
        let* row := csr_row g u in
        let* sum_r := rr_sum_r p sum_p dp row in
        let* (_, dp) := for_ 0 (zlen row) (rr_body (rr_dfs2 fuel) u p sum_p row sum_r) (e, dp) in
        Ok dp
    end.
  (* rerooting.hpp:109-145 *)
  Definition rr_run (n : nat) : res (list DP) :=
    let* dp := rr_dfs1 n 0 (-1) (vrep (Z.of_nat n) e) in
    let* d0 := vget dp 0 in let* wt := vget ws 0 in
    let* dp := vset dp 0 (add_root d0 wt) in
    rr_dfs2 n 0 (-1) e dp.
End Rerooting.
Arguments rerooting VW W : clear implicits.
(* rerooting.hpp:79-146.  The fuel is the number of vertices; for 0 vertices the code indexes the
   empty vectors all the same *)
Definition rr_run_dp {VW W DP} (op : DP -> DP -> DP) (e : DP) (asr : DP -> VW -> W -> DP) (ar : DP -> VW -> DP) (w0 : W) (r : rerooting VW W) : res (list DP) :=
  let* g := csr_new w0 (zlen (rr_w r)) (rr_e r) in
  match rr_w r with
  | [] => let* _ := csr_row g 0 in UB
  | _ => rr_run op e asr ar g (rr_w r) (length (rr_w r))
  end.
