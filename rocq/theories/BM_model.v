(* Model of library/graph/bipartite_matching.hpp. *)
From Verif Require Import Base.

(* lines 175-178.  _g has n + m entries. *)
Record bm := mkBM { b_n : Z; b_m : Z; b_tr : list Z; b_tl : list Z; b_g : list (list Z); b_f : Z }.
(* line 16 *)
Definition bm_new (n m : Z) : bm := mkBM n m (vrep n (-1)) (vrep m (-1)) (vrep (n + m) []) 0.
(* lines 18-20 *)
Definition bm_add (b : bm) (fr to : Z) : res bm :=
  let* a := vget (b_g b) fr in let* g := vset (b_g b) fr (a ++ [to]) in
  Ok (mkBM (b_n b) (b_m b) (b_tr b) (b_tl b) g (-1)).
(* lines 168-172 *)
Definition bm_reversed (b : bm) : res (list (list Z)) :=
  for_ 0 (b_n b) (fun i h => let* a := vget (b_g b) i in for_each a (fun j h => let* x := vget h j in vset h j (x ++ [i])) h) (vrep (b_m b) []).
(* the variables shared by the lambdas of solve(): _to_r, _to_l, level, iter *)
Record bst := mkBS { s_tr : list Z; s_tl : list Z; s_lv : list Z; s_it : list Z }.
(* lines 52-57: the initial levels and queue *)
Definition bm_start (n : Z) (tr lv : list Z) : res (list Z * list Z) :=
  for_ 0 n (fun i st => let '(lv, q) := st in let* t := vget tr i in
    if t =? -1 then let* lv := vset lv i 0 in Ok (lv, q ++ [i]) else let* lv := vset lv i (-1) in Ok (lv, q)) (lv, []).
(* lines 62-67: the edges of one left vertex *)
Definition bm_relax (n : Z) (tr tl : list Z) (l : Z) (r : Z) (st : list Z * list Z * bool) : res (list Z * list Z * bool) :=
  let '(lv, q, ok) := st in
  let* t := vget tr l in
  if t =? r then Ok (lv, q, ok) else
  let* x := vget lv (n + r) in
  if negb (x <? 0) then Ok (lv, q, ok) else
  let* nl := vget tl r in
  let* ll := vget lv l in
  let* lv := vset lv (n + r) (ll + 1) in
  if nl =? -1 then Ok (lv, q, true) else
  let* y := vget lv nl in
  if y <? 0 then let* lv := vset lv nl (ll + 2) in Ok (lv, q ++ [nl], ok) else Ok (lv, q, ok).
(* lines 51-71.  The fill of level[n..] is done first: the loop of lines 52-55 does not touch these entries. *)
Definition bm_bfs (n m : Z) (g : list (list Z)) (tr tl : list Z) : res (list Z * bool) :=
  let* (lv, q) := bm_start n tr (vrep (n + m) (-1)) in
  loop (Z.to_nat n + 1) (fun st => let '(lv, q, ok) := st in
    match q with
    | [] => Ok (inr (lv, ok))
    | l :: q => let* a := vget g l in let* st := for_each a (bm_relax n tr tl l) (lv, q, ok) in Ok (inl st)
    end) (lv, q, false).
(* ++i for the reference i = iter[n + r] *)
Definition bm_next (n r : Z) (s : bst) : res bst :=
  let* i := vget (s_it s) (n + r) in let* it := vset (s_it s) (n + r) (i + 1) in Ok (mkBS (s_tr s) (s_tl s) (s_lv s) it).
(* iter[l] = m + 1, level[l] = n + m *)
Definition bm_dead (n m l : Z) (s : bst) : res bst :=
  let* it := vset (s_it s) l (m + 1) in let* lv := vset (s_lv s) l (n + m) in Ok (mkBS (s_tr s) (s_tl s) lv it).
(* _to_r[l] = r, _to_l[r] = l *)
Definition bm_match (l r : Z) (s : bst) : res bst :=
  let* tr := vset (s_tr s) l r in let* tl := vset (s_tl s) r l in Ok (mkBS tr tl (s_lv s) (s_it s)).
(* lines 72-94.  iter[l] is read together with level[l] although the C++ short-circuits. *)
Fixpoint bm_dfs (fuel : nat) (n m : Z) (h : list (list Z)) (r : Z) (s : bst) : res (bool * bst) :=
  match fuel with
  | O => OutOfFuel
  | S fuel =>
      let* lv := vget (s_lv s) (n + r) in
      if lv <? 0 then Ok (false, s) else
      let* hr := vget h r in
      let* (b, s) := loop (Z.to_nat (zlen hr) + 1) (fun s =>
        let* i := vget (s_it s) (n + r) in
        if i <? zlen hr then
          let* l := vget hr i in
          let* ll := vget (s_lv s) l in
          let* t := vget (s_tl s) r in
          let* il := vget (s_it s) l in
          if (lv <=? ll) || (t =? l) || (m <? il) then let* s := bm_next n r s in Ok (inl s) else
          let* nr := vget (s_tr s) l in
          if nr =? -1 then
            let* s := bm_dead n m l s in let* s := bm_match l r s in Ok (inr (true, s))
          else if il <=? nr then
            let* it := vset (s_it s) l (nr + 1) in
            let s := mkBS (s_tr s) (s_tl s) (s_lv s) it in
            let* ll := vget (s_lv s) l in
            let* ln := vget (s_lv s) (n + nr) in
            let* (b, s) := (if ln <? ll then bm_dfs fuel n m h nr s else Ok (false, s)) in
            if b then let* s := bm_match l r s in Ok (inr (true, s))
            else let* s := bm_dead n m l s in let* s := bm_next n r s in Ok (inl s)
          else let* s := bm_next n r s in Ok (inl s)
        else Ok (inr (false, s))) s in
      if b then Ok (true, s) else
      let* lv := vset (s_lv s) (n + r) (n + m) in Ok (false, mkBS (s_tr s) (s_tl s) lv (s_it s))
  end.
(* lines 96-98: one phase.  A level never exceeds the one dfs starts with, which bounds the recursion. *)
Definition bm_phase (n m : Z) (h : list (list Z)) (tr tl lv : list Z) (f : Z) : res (list Z * list Z * Z) :=
  let* (s, f) := for_ 0 m (fun j st => let '(s, f) := st in let* t := vget (s_tl s) j in
    if t =? -1 then let* lj := vget (s_lv s) (n + j) in let* (b, s) := bm_dfs (Z.to_nat lj + 1) n m h j s in Ok (s, f + (if b then 1 else 0)) else Ok (s, f))
    (mkBS tr tl lv (vrep (n + m) 0), f) in
  Ok (s_tr s, s_tl s, f).
(* lines 46-100 *)
Definition bm_solve (b : bm) : res (Z * bm) :=
  if 0 <=? b_f b then Ok (b_f b, b) else
  let* h := bm_reversed b in
  let* (tr, tl, f) := loop (Z.to_nat (b_n b) + 1) (fun st => let '(tr, tl, f) := st in
    let* (lv, ok) := bm_bfs (b_n b) (b_m b) (b_g b) tr tl in
    if ok then let* st := bm_phase (b_n b) (b_m b) h tr tl lv f in Ok (inl st) else Ok (inr (tr, tl, f))) (b_tr b, b_tl b, 0) in
  Ok (f, mkBM (b_n b) (b_m b) tr tl (b_g b) f).
(* lines 102-108 *)
Definition bm_ensure (b : bm) : res bm := if b_f b <? 0 then let* (_, b) := bm_solve b in Ok b else Ok b.
Definition bm_max_matching (b : bm) : res (list (Z * Z) * bm) :=
  let* b := bm_ensure b in
  let* M := for_ 0 (b_n b) (fun i M => let* t := vget (b_tr b) i in Ok (if t =? -1 then M else M ++ [(i, t)])) [] in
  Ok (M, b).
(* lines 110-119; note that vr has n entries *)
Definition bm_min_edge_cover (b : bm) : res (list (Z * Z) * bm) :=
  let* (M, b) := bm_max_matching b in
  let* (vl, vr) := for_each M (fun e st => let '(vl, vr) := st in let* vr := vset vr (snd e) true in let* vl := vset vl (fst e) true in Ok (vl, vr)) (vrep (b_n b) false, vrep (b_n b) false) in
  let* (vl, vr, F) := for_ 0 (b_n b) (fun u st => let* a := vget (b_g b) u in for_each a (fun v st => let '(vl, vr, F) := st in
    let* x := vget vl u in let* y := (if (x : bool) then vget vr v else Ok false) in
    if y then Ok (vl, vr, F) else let* vr := vset vr v true in let* vl := vset vl u true in Ok (vl, vr, F ++ [(u, v)])) st) (vl, vr, M) in
  Ok (F, b).
(* lines 121-152 *)
Definition bm_min_vertex_cover (b : bm) : res (list Z * bm) :=
  let* b := bm_ensure b in
  let n := b_n b in let m := b_m b in
  let* (g, cl) := for_ 0 n (fun u st => let* a := vget (b_g b) u in for_each a (fun v st => let '(g, cl) := st in
    let* t := vget (b_tr b) u in
    if t =? v then let* x := vget g (v + n) in let* g := vset g (v + n) (x ++ [u]) in let* cl := vset cl u false in Ok (g, cl)
    else let* x := vget g u in let* g := vset g u (x ++ [v + n]) in Ok (g, cl)) st) (vrep (n + m) ([] : list Z), vrep n true) in
  let* (vis, dq) := for_ 0 n (fun i st => let '(vis, dq) := st in let* c := vget cl i in
    if (c : bool) then let* vis := vset vis i true in Ok (vis, dq ++ [i]) else Ok (vis, dq)) (vrep (n + m) false, []) in
  let* (cl, cr) := loop (Z.to_nat (n + m) + 1) (fun st => let '(cl, cr, vis, dq) := st in
    match dq with
    | [] => Ok (inr (cl, cr))
    | u :: dq => let* a := vget g u in
        let* st := for_each a (fun v st => let '(cl, cr, vis, dq) := st in
          let* x := vget vis v in
          if (x : bool) then Ok (cl, cr, vis, dq) else
          let* vis := vset vis v true in
          let* (cl, cr) := (if v <? n then let* cl := vset cl v true in Ok (cl, cr) else let* cr := vset cr (v - n) true in Ok (cl, cr)) in
          Ok (cl, cr, vis, dq ++ [v])) (cl, cr, vis, dq) in
        Ok (inl st)
    end) (cl, vrep m false, vis, dq) in
  let* C := for_ 0 n (fun i C => let* c := vget cl i in Ok (if (c : bool) then C else C ++ [i])) [] in
  let* C := for_ 0 m (fun i C => let* c := vget cr i in Ok (if (c : bool) then C ++ [n + i] else C)) C in
  Ok (C, b).
(* lines 154-160 *)
Definition bm_max_independent_set (b : bm) : res (list Z * bm) :=
  let* (C, b) := bm_min_vertex_cover b in
  let* use := for_each C (fun v use => vset use v false) (vrep (b_n b + b_m b) true) in
  let* J := for_ 0 (b_n b + b_m b) (fun i J => let* x := vget use i in Ok (if (x : bool) then J ++ [i] else J)) [] in
  Ok (J, b).
(* lines 165-166 *)
Definition bm_right (b : bm) (l : Z) : res Z := assert_ (0 <=? b_f b) ;;; vget (b_tr b) l.
Definition bm_left (b : bm) (r : Z) : res Z := assert_ (0 <=? b_f b) ;;; vget (b_tl b) r.
