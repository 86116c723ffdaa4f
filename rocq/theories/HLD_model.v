(* Heavy-light decomposition: library/tree/heavy_light_decomposition.hpp.  int values are at most
   the number of vertices in size and do not overflow. *)
From Verif Require Import Base.

(* heavy_light_decomposition.hpp:153-154: n, visit, leave, head, ord, siz, par, dep *)
Record hld : Type := Hld { h_n : Z; h_visit : list Z; h_leave : list Z; h_head : list Z; h_ord : list Z; h_siz : list Z; h_par : list Z; h_dep : list Z }.

(* heavy_light_decomposition.hpp:155-169.  The state is g, par, siz, dep.  [for (int &v : g[u])] goes
   through the positions of g[u], v being a reference into g[u]: it is read again after the
   recursive call.  Recursion on fuel: a call handles one vertex of its subtree. *)
Definition dst : Type := list (list Z) * list Z * list Z * list Z.
Definition dfs_body (rec : Z -> Z -> dst -> res (dst * Z)) (u p i : Z) (x : dst * Z) : res (dst * Z) :=
  let '((g, par, siz, dep), max_size) := x in
  let* row := vget g u in
  let* v := vget row i in
  if v =? p then Ok x else
  let* du := vget dep u in
  let* dep := vset dep v (du + 1) in
  let* ((g, par, siz, dep), r) := rec v u (g, par, siz, dep) in
  let* su := vget siz u in
  let* siz := vset siz u (su + r) in
  let* row := vget g u in
  let* v := vget row i in
  let* sv := vget siz v in
  if max_size <? sv then
    let* f := vget row 0 in
    let* row := vset row 0 v in
    let* row := vset row i f in
    let* g := vset g u row in
    Ok ((g, par, siz, dep), sv)
  else Ok ((g, par, siz, dep), max_size).
Fixpoint dfs (fuel : nat) (u p : Z) (s : dst) : res (dst * Z) :=
  match fuel with
  | O => OutOfFuel
  | S fuel =>
      let '(g, par, siz, dep) := s in
      let* par := vset par u p in
      let* siz := vset siz u 1 in
      let* row := vget g u in
      let* (s, _) := for_ 0 (zlen row) (dfs_body (dfs fuel) u p) ((g, par, siz, dep), 0) in
      let '(g, par, siz, dep) := s in
      let* su := vget siz u in
      Ok (s, su)
  end.
(* heavy_light_decomposition.hpp:170-177.  The state is visit, leave, head, ord, time *)
Definition hst : Type := list Z * list Z * list Z * list Z * Z.
Fixpoint hld_rec (fuel : nat) (g : list (list Z)) (u p : Z) (s : hst) : res hst :=
  match fuel with
  | O => OutOfFuel
  | S fuel =>
      let '(visit, leave, head, ord, time) := s in
      let* visit := vset visit u time in
      let* ord := vset ord time u in
      let time := time + 1 in
      let* front := (if 0 <=? p then let* row := vget g p in let* f := vget row 0 in Ok (f =? u) else Ok false) in
      let* h := (if (front : bool) then vget head p else Ok u) in
      let* head := vset head u h in
      let* row := vget g u in
      let* s := for_each row (fun v s => if v =? p then Ok s else hld_rec fuel g v u s) (visit, leave, head, ord, time) in
      let '(visit, leave, head, ord, time) := s in
      let* leave := vset leave u time in
      Ok (visit, leave, head, ord, time)
  end.

(* the two passes of the constructors *)
Definition dfs_init (g : list (list Z)) : dst := (g, vrep (zlen g) (-1), vrep (zlen g) 0, vrep (zlen g) 0).
Definition hst_init (n : Z) : hst := (vrep n 0, vrep n 0, vrep n 0, vrep n 0, 0).
Definition hld_finish (n : Z) (s : dst) (t : hst) : hld * list (list Z) :=
  let '(g, par, siz, dep) := s in let '(visit, leave, head, ord, _) := t in
  (Hld n visit leave head ord siz par dep, g).
(* heavy_light_decomposition.hpp:23: one pass of the loop *)
Definition new_dfs (fuel : nat) (i : Z) (s : dst) : res dst :=
  let '(_, par, _, _) := s in
  let* p := vget par i in
  if p <? 0 then let* (s, _) := dfs fuel i (-1) s in Ok s else Ok s.
(* heavy_light_decomposition.hpp:22-26; the caller's graph is changed too and is returned *)
Definition hld_new (g : list (list Z)) : res (hld * list (list Z)) :=
  let n := zlen g in
  let* s := for_ 0 n (new_dfs (length g)) (dfs_init g) in
  let '(g', par, siz, dep) := s in
  let* t := for_ 0 n (fun i t =>
    let* p := vget par i in
    if p <? 0 then hld_rec (length g) g' i (-1) t else Ok t) (hst_init n) in
  Ok (hld_finish n s t).
(* heavy_light_decomposition.hpp:27-31 *)
Definition hld_new_roots (g : list (list Z)) (roots : list Z) : res (hld * list (list Z)) :=
  let n := zlen g in
  let* s := for_each roots (fun i s => let* (s, _) := dfs (length g) i (-1) s in Ok s) (dfs_init g) in
  let '(g', par, siz, dep) := s in
  let* t := for_each roots (fun i t => hld_rec (length g) g' i (-1) t) (hst_init n) in
  Ok (hld_finish n s t).

Section Queries.
  Variable h : hld.
  (* heavy_light_decomposition.hpp:126-146: get_visit_time, get_leave_time, get_head, get_parent,
     get_depth, get_kth_visited, get_subtree_size *)
  Definition visit_ := vget (h_visit h).
  Definition leave_ := vget (h_leave h).
  Definition head_ := vget (h_head h).
  Definition par_ := vget (h_par h).
  Definition dep_ := vget (h_dep h).
  Definition ord_ := vget (h_ord h).
  Definition siz_ := vget (h_siz h).
  (* heavy_light_decomposition.hpp:35-40.  Fuel: visit[u] + visit[v] goes down in every pass. *)
  Definition lca_body (s : Z * Z) : res (Z * Z + Z) :=
    let '(u, v) := s in
    let* tu := visit_ u in let* tv := visit_ v in
    let '(u, v) := if tv <? tu then (v, u) else (u, v) in
    let* hu := head_ u in let* hv := head_ v in
    if hu =? hv then Ok (inr u) else
    let* v := par_ hv in Ok (inl (u, v)).
  Definition fuel_ : nat := S (2 * Z.to_nat (h_n h)).
  Definition lca (u v : Z) : res Z := loop fuel_ lca_body (u, v).
  (* heavy_light_decomposition.hpp:41-50 *)
  Definition la_body (dflt : Z) (s : Z * Z) : res (Z * Z + Z) :=
    let '(u, k) := s in
    if u <? 0 then Ok (inr dflt) else
    let* hd := head_ u in
    let* tu := visit_ u in let* th := visit_ hd in
    if th <=? tu - k then let* x := vget (h_ord h) (tu - k) in Ok (inr x) else
    let* u' := par_ hd in Ok (inl (u', k - (tu - th + 1))).
  Definition la (u k dflt : Z) : res Z := if k <? 0 then Ok dflt else loop fuel_ (la_body dflt) (u, k).
  (* heavy_light_decomposition.hpp:51-58 *)
  Definition jump (u v d dflt : Z) : res Z :=
    if d <? 0 then Ok dflt else
    let* w := lca u v in
    let* du := dep_ u in let* dw := dep_ w in
    let uw := du - dw in
    if d <=? uw then la u d (-1) else
    let* dv := dep_ v in
    let vw := dv - dw in
    if d <=? uw + vw then la v (uw + vw - d) (-1) else Ok dflt.
  (* heavy_light_decomposition.hpp:59-61 *)
  Definition dist (u v : Z) : res Z :=
    let* du := dep_ u in let* dv := dep_ v in
    let* w := lca u v in let* dw := dep_ w in Ok (du + dv - 2 * dw).
  Section Fold.
    Context {T : Type} (op : T -> T -> T) (identity : T).
    (* the caller's queries about a range [l, r) of visit times *)
    Variables fold_query fold_query_rev : Z -> Z -> res T.
    (* heavy_light_decomposition.hpp:62-71 *)
    Definition fold_body (is_edge : Z) (s : Z * Z * T) : res (Z * Z * T + T) :=
      let '(u, v, r) := s in
      let* tu := visit_ u in let* tv := visit_ v in
      let '(u, v) := if tv <? tu then (v, u) else (u, v) in
      let* hu := head_ u in let* hv := head_ v in
      if hu =? hv then
        let* tu := visit_ u in let* tv := visit_ v in
        let* x := fold_query (tu + is_edge) (tv + 1) in Ok (inr (op x r))
      else
        let* th := visit_ hv in let* tv := visit_ v in
        let* x := fold_query th (tv + 1) in
        let* v := par_ hv in Ok (inl (u, v, op x r)).
    Definition fold_path (u v : Z) (is_edge : bool) : res T := loop fuel_ (fold_body (Z.b2z is_edge)) (u, v, identity).
    (* heavy_light_decomposition.hpp:72-95 *)
    Definition fold_nc_body (s : Z * Z * T * T) : res (Z * Z * T * T + Z * Z * T * T) :=
      let '(u, v, res_u, res_v) := s in
      let* hu := head_ u in let* hv := head_ v in
      if hu =? hv then Ok (inr s) else
      let* tu := visit_ u in let* tv := visit_ v in
      if tu <? tv then
        let* th := visit_ hv in
        let* x := fold_query th (tv + 1) in
        let* v := par_ hv in Ok (inl (u, v, res_u, op x res_v))
      else
        let* th := visit_ hu in
        let* x := fold_query_rev th (tu + 1) in
        let* u := par_ hu in Ok (inl (u, v, op res_u x, res_v)).
    Definition fold_path_noncommutative (u v : Z) (is_edge : bool) : res T :=
      let* (u, v, res_u, res_v) := loop fuel_ fold_nc_body (u, v, identity, identity) in
      let* tu := visit_ u in let* tv := visit_ v in
      if tu <? tv then
        let* x := fold_query (tu + Z.b2z is_edge) (tv + 1) in Ok (op res_u (op x res_v))
      else
        let* x := fold_query_rev (tv + Z.b2z is_edge) (tu + 1) in Ok (op (op res_u x) res_v).
    (* heavy_light_decomposition.hpp:105-108 *)
    Definition fold_subtree (u : Z) (is_edge : bool) : res T :=
      let* tu := visit_ u in let* l := leave_ u in fold_query (tu + Z.b2z is_edge) l.
  End Fold.
  Section Update.
    Context {S : Type}.
    (* the caller's update of a range [l, r) of visit times *)
    Variable update_query : Z -> Z -> S -> res S.
    (* heavy_light_decomposition.hpp:96-104 *)
    Definition update_body (is_edge : Z) (s : Z * Z * S) : res (Z * Z * S + S) :=
      let '(u, v, st) := s in
      let* tu := visit_ u in let* tv := visit_ v in
      let '(u, v) := if tv <? tu then (v, u) else (u, v) in
      let* hu := head_ u in let* hv := head_ v in
      if hu =? hv then
        let* tu := visit_ u in let* tv := visit_ v in
        let* st := update_query (tu + is_edge) (tv + 1) st in Ok (inr st)
      else
        let* th := visit_ hv in let* tv := visit_ v in
        let* st := update_query th (tv + 1) st in
        let* v := par_ hv in Ok (inl (u, v, st)).
    Definition update_path (u v : Z) (is_edge : bool) (st : S) : res S := loop fuel_ (update_body (Z.b2z is_edge)) (u, v, st).
    (* heavy_light_decomposition.hpp:109-112 *)
    Definition update_subtree (u : Z) (is_edge : bool) (st : S) : res S :=
      let* tu := visit_ u in let* l := leave_ u in update_query (tu + Z.b2z is_edge) l st.
  End Update.
  (* heavy_light_decomposition.hpp:121-125 *)
  Definition inv_ids : res (list Z) :=
    for_ 0 (h_n h) (fun i inv => let* t := visit_ i in vset inv t i) (vrep (h_n h) 0).
  (* heavy_light_decomposition.hpp:147-151 *)
  Definition get_roots : res (list Z) :=
    for_ 0 (h_n h) (fun i l => let* p := par_ i in Ok (if p <? 0 then l ++ [i] else l)) [].
End Queries.
