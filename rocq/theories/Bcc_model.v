(* Model of library/graph/biconnected_components.hpp, remove_multiedges.hpp and block_cut_forest.hpp.
   int is unbounded.  The recursive search takes fuel; a depth of more than fuel calls is OutOfFuel. *)
From Verif Require Import Base LowLink_model.

(* biconnected_components.hpp *)
Record bc := mkB { b_ll : ll; b_comp : list Z; b_num : Z; b_iso : list Z }.
(* lines 12-13; _used is reassigned by every search before it is read and is local to bc_search *)
Definition bc_new (n : Z) : bc := mkB (ll_new n) [] 0 [].
(* add_edge is inherited *)
Definition bc_add (b : bc) (u v : Z) : res (Z * bc) :=
  let* (m, s) := ll_add (b_ll b) u v in Ok (m, mkB s (b_comp b) (b_num b) (b_iso b)).
(* line 105; the stack is a list with its back() first; back() of an empty vector is undefined *)
Fixpoint bc_pop (id num : Z) (stk comp : list Z) : res (list Z * list Z) :=
  match stk with
  | [] => UB
  | e :: stk => let* comp := vset comp e num in if e =? id then Ok (stk, comp) else bc_pop id num stk comp
  end.
(* state of the search: _used, the static vector edges, _edge_comp_id, _edge_comp_num *)
Definition bst : Type := list bool * list Z * list Z * Z.
(* lines 97-107 *)
Definition bc_body (rec : Z -> Z -> bst -> res bst) (s : ll) (u pe : Z) (e : Z * Z) (st : bst) : res bst :=
  let '(used, stk, comp, num) := st in
  let '(v, id) := e in
  if id =? pe then Ok st else
  let* uv := vget used v in
  let* pv := vget (d_pre (l_ds s)) v in
  let* pu := vget (d_pre (l_ds s)) u in
  let stk := if negb uv || (pv <? pu) then id :: stk else stk in
  if (uv : bool) then Ok (used, stk, comp, num) else
  let* (used, stk, comp, num) := rec v id (used, stk, comp, num) in
  let* lv := vget (d_low (l_ds s)) v in
  if lv <? pu then Ok (used, stk, comp, num) else
  let* (stk, comp) := bc_pop id num stk comp in
  Ok (used, stk, comp, num + 1).
(* lines 94-108 *)
Fixpoint bc_dfs (fuel : nat) (s : ll) (u pe : Z) (st : bst) : res bst :=
  match fuel with
  | O => OutOfFuel
  | S fuel =>
      let '(used, stk, comp, num) := st in
      let* used := vset used u true in
      let* adj := vget (l_g s) u in
      for_each adj (bc_body (bc_dfs fuel s) s u pe) (used, stk, comp, num)
  end.
(* lines 113-116 *)
Definition bc_root (s : ll) (i : Z) (st : bst * list Z) : res (bst * list Z) :=
  let '(b, iso) := st in
  let '(used, _, _, _) := b in
  let* c := vget used i in
  if (c : bool) then Ok st else
  let* b := bc_dfs (S (Z.to_nat (l_n s))) s i (-1) b in
  let* adj := vget (l_g s) i in
  Ok (b, match adj with [] => iso ++ [i] | _ => iso end).
(* lines 109-117; stk is the content of the static vector, returned as it is left *)
Definition bc_search (s : ll) (iso stk : list Z) : res (bc * list Z) :=
  let* (st, iso) := for_ 0 (l_n s) (bc_root s) ((vrep (l_n s) false, stk, vrep (zlen (l_edges s)) (-1), 0), iso) in
  let '(_, stk, comp, num) := st in
  Ok (mkB s comp num iso, stk).
(* lines 19-22 *)
Definition bc_build (b : bc) (stk : list Z) : res (bc * list Z) := let* s := ll_build (b_ll b) in bc_search s (b_iso b) stk.
(* lines 14-17 *)
Definition bc_make (n : Z) (es : list (Z * Z)) (stk : list Z) : res (bc * list Z) := let* s := ll_make n es in bc_search s [] stk.
(* lines 25-50 *)
Definition bc_component_num (b : bc) : res Z := assert_ (l_built (b_ll b)) ;;; Ok (b_num b + zlen (b_iso b)).
Definition bc_edge_component_num (b : bc) : res Z := assert_ (l_built (b_ll b)) ;;; Ok (b_num b).
Definition bc_isolated_vertex_num (b : bc) : res Z := assert_ (l_built (b_ll b)) ;;; Ok (zlen (b_iso b)).
Definition bc_is_isolated_component (b : bc) (c : Z) : bool := b_num b <=? c.
Definition bc_get (b : bc) (id : Z) : res Z := assert_ (l_built (b_ll b)) ;;; vget (b_comp b) id.
Definition bc_isolated_vertices (b : bc) : res (list Z) := assert_ (l_built (b_ll b)) ;;; Ok (b_iso b).
(* lines 73-74: if (not std::exchange(seen[u], true)) vids.push_back(u) *)
Definition bc_visit (u : Z) (st : list bool * list Z) : res (list bool * list Z) :=
  let '(seen, vids) := st in
  let* x := vget seen u in
  let* seen := vset seen u true in
  Ok (seen, if (x : bool) then vids else vids ++ [u]).
(* lines 70-80; a Subgraph is the pair (vids, eids) *)
Definition bc_comp_body (b : bc) (id : Z) (st : list bool * list (list Z * list Z)) : res (list bool * list (list Z * list Z)) :=
  let '(seen, r) := st in
  let* c := vget r id in
  let* (seen, vids) := for_each (snd c) (fun eid st => let* e := vget (l_edges (b_ll b)) eid in let* st := bc_visit (fst e) st in bc_visit (snd e) st) (seen, fst c) in
  let* r := vset r id (vids, snd c) in
  let* seen := for_each (snd c) (fun eid seen => let* e := vget (l_edges (b_ll b)) eid in let* seen := vset seen (snd e) false in vset seen (fst e) false) seen in
  Ok (seen, r).
(* lines 63-86 *)
Definition bc_components (b : bc) : res (list (list Z * list Z)) :=
  assert_ (l_built (b_ll b)) ;;;
  let* r := for_ 0 (zlen (l_edges (b_ll b))) (fun i r => let* c := vget (b_comp b) i in let* x := vget r c in vset r c (fst x, snd x ++ [i])) (vrep (b_num b + zlen (b_iso b)) ([], [])) in
  let* (_, r) := for_ 0 (b_num b) (bc_comp_body b) (vrep (l_n (b_ll b)) false, r) in
  let* (r, _) := for_each (b_iso b) (fun v st => let '(r, id) := st in let* x := vget r id in let* r := vset r id ([v], snd x) in Ok (r, id + 1)) (r, b_num b) in
  Ok r.

(* remove_multiedges.hpp:12: remove_if with the predicate "not exchange(exists[v], false)" *)
Fixpoint rm_keep (ex : list bool) (vs : list Z) : res (list bool * list Z) :=
  match vs with
  | [] => Ok (ex, [])
  | v :: vs => let* x := vget ex v in let* ex := vset ex v false in let* (ex, r) := rm_keep ex vs in Ok (ex, if (x : bool) then v :: r else r)
  end.
(* remove_multiedges.hpp:10-13 *)
Definition rm_list (vs : list Z) (st : list bool * list (list Z)) : res (list bool * list (list Z)) :=
  let '(ex, out) := st in
  let* ex := for_each vs (fun v ex => vset ex v true) ex in
  let* (ex, r) := rm_keep ex vs in
  Ok (ex, out ++ [r]).
Definition remove_multiedges (g : list (list Z)) : res (list (list Z)) :=
  let* (_, out) := for_each g rm_list (vrep (zlen g) false, []) in Ok out.

(* block_cut_forest.hpp *)
Record bcf := mkF { f_edge_num : Z; f_iso_num : Z; f_art_num : Z; f_g : list (list Z); f_vnum : list Z; f_comp : list Z }.
(* lines 20-21 *)
Definition bf_link (vid cid : Z) (g : list (list Z)) : res (list (list Z)) :=
  if 0 <=? vid then
    let* x := vget g vid in let* g := vset g vid (x ++ [cid]) in
    let* y := vget g cid in vset g cid (y ++ [vid])
  else Ok g.
(* lines 16-22 *)
Definition bf_edge (b : bc) (art : list Z) (id : Z) (st : list (list Z) * list Z) : res (list (list Z) * list Z) :=
  let '(g, comp) := st in
  let* cid := bc_get b id in
  let* e := vget (l_edges (b_ll b)) id in
  let* comp := vset comp (snd e) cid in
  let* comp := vset comp (fst e) cid in
  let* au := vget art (fst e) in
  let* g := bf_link au cid g in
  let* av := vget art (snd e) in
  let* g := bf_link av cid g in
  Ok (g, comp).
(* lines 30-37 *)
Definition bf_count (art comp : list Z) (g : list (list Z)) (v : Z) (vn : list Z) : res (list Z) :=
  let* vid := vget art v in
  if vid <? 0 then let* c := vget comp v in let* x := vget vn c in vset vn c (x + 1)
  else
    let* vn := vset vn vid 1 in
    let* l := vget g vid in
    for_each l (fun cid vn => let* x := vget vn cid in vset vn cid (x + 1)) vn.
(* lines 10-38 *)
Definition bf_make (b : bc) : res bcf :=
  let* en := bc_edge_component_num b in
  let* inum := bc_isolated_vertex_num b in
  let* arts := ll_articulation_points (b_ll b) in
  let node := en + inum + zlen arts in
  let* (art, _) := for_each arts (fun v st => let '(art, nx) := st in let* art := vset art v nx in Ok (art, nx + 1)) (vrep (l_n (b_ll b)) (-1), en + inum) in
  let* (g, comp) := for_ 0 (zlen (l_edges (b_ll b))) (bf_edge b art) (vrep node [], vrep (l_n (b_ll b)) (-1)) in
  let* iso := bc_isolated_vertices b in
  let* (comp, _) := for_each iso (fun v st => let '(comp, nx) := st in let* comp := vset comp v nx in Ok (comp, nx + 1)) (comp, en) in
  let* g := remove_multiedges g in
  let* vn := for_ 0 (l_n (b_ll b)) (bf_count art comp g) (vrep node 0) in
  Ok (mkF en inum (zlen arts) g vn comp).
(* lines 40-51 *)
Definition bf_size (f : bcf) : Z := f_edge_num f + f_iso_num f + f_art_num f.
Definition bf_is_articulation_point (f : bcf) (id : Z) : bool := f_edge_num f + f_iso_num f <=? id.
Definition bf_is_biconnected_component (f : bcf) (id : Z) : bool := negb (bf_is_articulation_point f id).
Definition bf_is_isolated_vertex (f : bcf) (id : Z) : bool := (f_edge_num f <=? id) && bf_is_biconnected_component f id.
Definition bf_adj (f : bcf) (id : Z) : res (list Z) := vget (f_g f) id.
(* lines 51-55 *)
Definition bf_vertex_num (f : bcf) (id : Z) : res Z := vget (f_vnum f) id.
Definition bf_component_id (f : bcf) (v : Z) : res Z := vget (f_comp f) v.
