(* Model of library/graph/low_link.hpp and two_edge_connected_components.hpp.  int is unbounded.
   The recursive searches take fuel; a depth of more than fuel calls is OutOfFuel. *)
From Verif Require Import Base.

(* the fields of LowLink written by the search, and its counter ord *)
Record ds := mkD { d_pre : list Z; d_low : list Z; d_par : list Z; d_br : list Z; d_art : list Z; d_ord : Z }.
Definition set_par (s : ds) (p : list Z) : ds := mkD (d_pre s) (d_low s) p (d_br s) (d_art s) (d_ord s).
Definition set_low (s : ds) (l : list Z) : ds := mkD (d_pre s) l (d_par s) (d_br s) (d_art s) (d_ord s).
Definition push_br (s : ds) (id : Z) : ds := mkD (d_pre s) (d_low s) (d_par s) (d_br s ++ [id]) (d_art s) (d_ord s).
Definition push_art (s : ds) (u : Z) : ds := mkD (d_pre s) (d_low s) (d_par s) (d_br s) (d_art s ++ [u]) (d_ord s).

(* low_link.hpp:130-144, body of the loop over the edges at u; state: fields, is_articulation_point, ch_cnt *)
Definition ll_body (rec : Z -> Z -> ds -> res ds) (u prev : Z) (e : Z * Z) (st : ds * bool * Z) : res (ds * bool * Z) :=
  let '(s, ia, ch) := st in
  let '(v, id) := e in
  if id =? prev then Ok (s, ia, ch) else
  let* pv := vget (d_pre s) v in
  if pv <? 0 then
    let* p := vset (d_par s) v u in
    let* s := rec v id (set_par s p) in
    let* lu := vget (d_low s) u in
    let* lv := vget (d_low s) v in
    let* l := vset (d_low s) u (Z.min lu lv) in
    let s := set_low s l in
    let* pu := vget (d_pre s) u in
    let* lv := vget (d_low s) v in
    if pu <=? lv then Ok (if negb (pu =? lv) then push_br s id else s, negb (prev <? 0), ch + 1)
    else Ok (s, ia, ch + 1)
  else
    let* lu := vget (d_low s) u in
    let* l := vset (d_low s) u (Z.min lu pv) in
    Ok (set_low s l, ia, ch).
(* low_link.hpp:125-146 *)
Fixpoint ll_dfs (fuel : nat) (g : list (list (Z * Z))) (u prev : Z) (s : ds) : res ds :=
  match fuel with
  | O => OutOfFuel
  | S fuel =>
      let* pre := vset (d_pre s) u (d_ord s) in
      let* low := vset (d_low s) u (d_ord s) in
      let s := mkD pre low (d_par s) (d_br s) (d_art s) (d_ord s + 1) in
      let* adj := vget g u in
      let* (s, ia, ch) := for_each adj (ll_body (ll_dfs fuel g) u prev) (s, false, 0) in
      Ok (if ia || ((prev <? 0) && (1 <? ch)) then push_art s u else s)
  end.

Record ll := mkL { l_n : Z; l_edges : list (Z * Z); l_g : list (list (Z * Z)); l_ds : ds; l_built : bool; l_conn : Z }.
(* low_link.hpp:13; _m is the length of _edges.  d_ord is local to the search. *)
Definition ll_new (n : Z) : ll := mkL n [] (vrep n []) (mkD (vrep n (-1)) (vrep n 0) (vrep n (-1)) [] [] 0) false 0.
(* low_link.hpp:20-26 *)
Definition ll_add (s : ll) (u v : Z) : res (Z * ll) :=
  let m := zlen (l_edges s) in
  let* a := vget (l_g s) u in
  let* g := vset (l_g s) u (a ++ [(v, m)]) in
  let* b := vget g v in
  let* g := vset g v (b ++ [(u, m)]) in
  Ok (m, mkL (l_n s) (l_edges s ++ [(u, v)]) g (l_ds s) false (l_conn s)).
(* low_link.hpp:149-152 *)
Definition ll_root (n : Z) (g : list (list (Z * Z))) (i : Z) (st : ds * Z) : res (ds * Z) :=
  let '(s, c) := st in
  let* p := vget (d_pre s) i in
  if p <? 0 then let* s := ll_dfs (S (Z.to_nat n)) g i (-1) s in Ok (s, c + 1) else Ok (s, c).
(* low_link.hpp:28-31, 148-153; ord starts at 0 *)
Definition ll_build (s : ll) : res ll :=
  let d := l_ds s in
  let d := mkD (d_pre d) (d_low d) (d_par d) (d_br d) (d_art d) 0 in
  let* (d, c) := for_ 0 (l_n s) (ll_root (l_n s) (l_g s)) (d, l_conn s) in
  Ok (mkL (l_n s) (l_edges s) (l_g s) d true c).
(* low_link.hpp:14-17 *)
Definition ll_make (n : Z) (es : list (Z * Z)) : res ll :=
  let* s := for_each es (fun e s => let* (_, s) := ll_add s (fst e) (snd e) in Ok s) (ll_new n) in
  ll_build s.

(* low_link.hpp:51-59 *)
Definition ll_bridge_ids (s : ll) : res (list Z) := assert_ (l_built s) ;;; Ok (d_br (l_ds s)).
Definition ll_articulation_points (s : ll) : res (list Z) := assert_ (l_built s) ;;; Ok (d_art (l_ds s)).
(* low_link.hpp:63-68 *)
Definition ll_is_bridge (s : ll) (u v : Z) : res bool :=
  assert_ (l_built s) ;;;
  let* pu := vget (d_pre (l_ds s)) u in
  let* pv := vget (d_pre (l_ds s)) v in
  let '(u, v) := if pv <? pu then (v, u) else (u, v) in
  let* pu := vget (d_pre (l_ds s)) u in
  let* lv := vget (d_low (l_ds s)) v in
  Ok (pu <? lv).
(* low_link.hpp:78-81 *)
Definition ll_conn (s : ll) : res Z := assert_ (l_built s) ;;; Ok (l_conn s).
(* low_link.hpp:86-89 *)
Definition ll_conn_without_edge (s : ll) (u v : Z) : res Z :=
  assert_ (l_built s) ;;;
  let* b := ll_is_bridge s u v in Ok (l_conn s + (if b then 1 else 0)).
(* low_link.hpp:99-107; state: seen, is_root, res *)
Definition ll_cw_body (s : ll) (u : Z) (e : Z * Z) (st : list bool * bool * Z) : res (list bool * bool * Z) :=
  let '(seen, root, r) := st in
  let '(v, _) := e in
  let* pv := vget (d_pre (l_ds s)) v in
  let* pu := vget (d_pre (l_ds s)) u in
  if pv <? pu then Ok (seen, false, r) else
  let* par := vget (d_par (l_ds s)) v in
  if par =? u then
    let* b := vget seen v in
    if b then Ok (seen, root, r) else
    let* seen := vset seen v true in
    let* lv := vget (d_low (l_ds s)) v in
    Ok (seen, root, r + (if pu <=? lv then 1 else 0))
  else Ok (seen, root, r).
(* low_link.hpp:93-111; seen is the function's static vector, returned as it is left *)
Definition ll_conn_without_vertex (s : ll) (seen : list bool) (u : Z) : res (Z * list bool) :=
  assert_ (l_built s) ;;;
  let seen := if zlen seen <? l_n s then seen ++ vrep (l_n s - zlen seen) false else seen in
  let* adj := vget (l_g s) u in
  let* (seen, root, r) := for_each adj (ll_cw_body s u) (seen, true, 0) in
  let* seen := for_each adj (fun e seen => vset seen (fst e) false) seen in
  Ok (l_conn s - 1 + r + (if root then 0 else 1), seen).
(* low_link.hpp:72-75 *)
Definition ll_is_articulation (s : ll) (seen : list bool) (u : Z) : res (bool * list bool) :=
  assert_ (l_built s) ;;;
  let* (k, seen) := ll_conn_without_vertex s seen u in
  let* c := ll_conn s in
  Ok (c <? k, seen).

(* two_edge_connected_components.hpp *)
Record te := mkE { e_ll : ll; e_comp : list Z; e_num : Z }.
(* lines 10-11 *)
Definition te_new (n : Z) : te := mkE (ll_new n) (vrep n (-1)) 0.
(* lines 62-65, the loop *)
Definition te_body (rec : Z -> Z -> list Z * Z -> res (list Z * Z)) (u : Z) (e : Z * Z) (st : list Z * Z) : res (list Z * Z) :=
  let* c := vget (fst st) (fst e) in
  if c <? 0 then rec (fst e) u st else Ok st.
(* lines 56-66 *)
Fixpoint te_dfs (fuel : nat) (s : ll) (u p : Z) (st : list Z * Z) : res (list Z * Z) :=
  match fuel with
  | O => OutOfFuel
  | S fuel =>
      let '(comp, k) := st in
      let* same := (if 0 <=? p then let* lu := vget (d_low (l_ds s)) u in let* pp := vget (d_pre (l_ds s)) p in Ok (lu <=? pp) else Ok false) in
      let* st := (if (same : bool) then let* c := vget comp p in let* comp := vset comp u c in Ok (comp, k)
                  else let* comp := vset comp u k in Ok (comp, k + 1)) in
      let* adj := vget (l_g s) u in
      for_each adj (te_body (te_dfs fuel s) u) st
  end.
(* lines 67-72 *)
Definition te_root (s : ll) (i : Z) (st : list Z * Z) : res (list Z * Z) :=
  let* c := vget (fst st) i in
  if c <? 0 then te_dfs (S (Z.to_nat (l_n s))) s i (-1) st else Ok st.
Definition te_search (s : ll) (comp : list Z) : res te :=
  let* (comp, k) := for_ 0 (l_n s) (te_root s) (comp, 0) in
  Ok (mkE s comp k).
(* add_edge is inherited *)
Definition te_add (t : te) (u v : Z) : res (Z * te) :=
  let* (m, s) := ll_add (e_ll t) u v in Ok (m, mkE s (e_comp t) (e_num t)).
(* lines 17-20 *)
Definition te_build (t : te) : res te := let* s := ll_build (e_ll t) in te_search s (e_comp t).
(* lines 12-15 *)
Definition te_make (n : Z) (es : list (Z * Z)) : res te := let* s := ll_make n es in te_search s (vrep (l_n s) (-1)).
(* lines 22-30 *)
Definition te_num (t : te) : res Z := assert_ (l_built (e_ll t)) ;;; Ok (e_num t).
Definition te_get (t : te) (v : Z) : res Z := assert_ (l_built (e_ll t)) ;;; vget (e_comp t) v.
(* lines 32-37 *)
Definition te_groups (t : te) : res (list (list Z)) :=
  assert_ (l_built (e_ll t)) ;;;
  for_ 0 (l_n (e_ll t)) (fun i r => let* c := vget (e_comp t) i in let* x := vget r c in vset r c (x ++ [i])) (vrep (e_num t) []).
(* lines 40-50 *)
Definition te_forest_body (t : te) (u : Z) (e : Z * Z) (r : list (list (Z * Z))) : res (list (list (Z * Z))) :=
  let '(v, id) := e in
  let* cu := te_get t u in
  let* cv := te_get t v in
  if cu =? cv then Ok r else let* x := vget r cu in vset r cu (x ++ [(cv, id)]).
Definition te_forest (t : te) : res (list (list (Z * Z))) :=
  assert_ (l_built (e_ll t)) ;;;
  for_ 0 (l_n (e_ll t)) (fun u r => let* adj := vget (l_g (e_ll t)) u in for_each adj (te_forest_body t u) r) (vrep (e_num t) []).
