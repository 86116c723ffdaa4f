(* Model of library/datastructure/segment_tree/persistent_segment_tree.hpp.
   The static node pool (util/object_pool.hpp with auto_extend = false) is a list of nodes that
   have been handed out at least once and the number of nodes handed out since the last clear;
   a node pointer is an index and the null pointer is -1.  Simplification: the pool never runs
   out (init_pool was given enough).  A node that was handed out before a clear keeps its old
   contents when it is handed out again. *)
From Verif Require Import Base SegTree_spec.

(* persistent_segment_tree.hpp:18-24 *)
Record pnd (T : Type) := PNd { p_0 : Z; p_1 : Z; p_dat : T }.
Arguments PNd {T}. Arguments p_0 {T}. Arguments p_1 {T}. Arguments p_dat {T}.
Record ptree := PT { pt_n : Z; pt_root : Z }.

Inductive psop (T : Type) :=
  | PsNew | PsBuild (d : list T) | PsGet (v i : Z) | PsSet (v i : Z) (x : T) | PsApply (v i : Z) (f : T -> T)
  | PsProd (v l r : Z) | PsAll (v : Z) | PsMaxR (v l : Z) (g : T -> bool) | PsMinL (v r : Z) (g : T -> bool) | PsDump (v : Z) | PsClear.
Arguments PsNew {T}. Arguments PsBuild {T}. Arguments PsGet {T}. Arguments PsSet {T}. Arguments PsApply {T}. Arguments PsProd {T}.
Arguments PsAll {T}. Arguments PsMaxR {T}. Arguments PsMinL {T}. Arguments PsDump {T}. Arguments PsClear {T}.
Inductive psout (T : Type) := PsUnit | PsVal (x : T) | PsInt (r : Z) | PsList (l : list T).
Arguments PsUnit {T}. Arguments PsVal {T}. Arguments PsInt {T}. Arguments PsList {T}.

Section PSeg.
  Context {T : Type}.
  Variables (op : T -> T -> T) (e : T).
  Notation mem := (list (pnd T) * Z)%type.

  (* object_pool.hpp:28-31; a node never handed out before is Node() *)
  Definition ps_alloc (s : mem) : mem * Z :=
    let '(m, k) := s in
    (if k <? zlen m then (m, k + 1) else (m ++ [PNd (-1) (-1) e], k + 1), k).
  Definition ps_node (s : mem) (p : Z) : res (pnd T) := vget (fst s) p.
  Definition ps_put (s : mem) (p : Z) (nd : pnd T) : res mem := let* m := vset (fst s) p nd in Ok (m, snd s).
  (* persistent_segment_tree.hpp:26-28 *)
  Definition ps_clone (s : mem) (p : Z) : res (mem * Z) :=
    let '(s, q) := ps_alloc s in
    let* nd := ps_node s p in
    let* s := ps_put s q nd in
    Ok (s, q).
  Definition ps_set_dat (s : mem) (p : Z) (x : T) : res mem :=
    let* nd := ps_node s p in ps_put s p (PNd (p_0 nd) (p_1 nd) x).
  Definition ps_set_ch (s : mem) (p : Z) (b : bool) (q : Z) : res mem :=
    let* nd := ps_node s p in ps_put s p (if b then PNd (p_0 nd) q (p_dat nd) else PNd q (p_1 nd) (p_dat nd)).
  (* persistent_segment_tree.hpp:30-32 *)
  Definition ps_update (s : mem) (p : Z) : res mem :=
    let* nd := ps_node s p in
    let* a := ps_node s (p_0 nd) in
    let* b := ps_node s (p_1 nd) in
    ps_set_dat s p (op (p_dat a) (p_dat b)).
  (* persistent_segment_tree.hpp:38-51 *)
  Fixpoint ps_build_rec (fuel : nat) (d : list T) (s : mem) (l r : Z) : res (mem * Z) :=
    match fuel with
    | O => OutOfFuel
    | S fuel =>
        let '(s, p) := ps_alloc s in
        if r - l =? 1 then
          let* x := vget d l in
          let* s := ps_set_dat s p x in
          Ok (s, p)
        else
          let m := (l + r) / 2 in
          let* (s, c) := ps_build_rec fuel d s l m in
          let* s := ps_set_ch s p false c in
          let* (s, c) := ps_build_rec fuel d s m r in
          let* s := ps_set_ch s p true c in
          let* s := ps_update s p in
          Ok (s, p)
    end.
  Definition ps_build (s : mem) (d : list T) : res (mem * Z) := ps_build_rec (S (length d)) d s 0 (zlen d).
  (* persistent_segment_tree.hpp:53-55 *)
  Definition ps_prod_all (s : mem) (p : Z) : res T :=
    if negb (p =? -1) then let* nd := ps_node s p in Ok (p_dat nd) else Ok e.
  (* persistent_segment_tree.hpp:56-61 *)
  Fixpoint ps_prod_rec (fuel : nat) (s : mem) (p tl tr ql qr : Z) : res T :=
    match fuel with
    | O => OutOfFuel
    | S fuel =>
        if (tr <=? ql) || (qr <=? tl) then Ok e else
        if (ql <=? tl) && (tr <=? qr) then let* nd := ps_node s p in Ok (p_dat nd) else
        let tm := (tl + tr) / 2 in
        let* nd := ps_node s p in
        let* x := ps_prod_rec fuel s (p_0 nd) tl tm ql qr in
        let* y := ps_prod_rec fuel s (p_1 nd) tm tr ql qr in
        Ok (op x y)
    end.
  (* persistent_segment_tree.hpp:71-83 with do_update *)
  Definition ps_down (i : Z) (st : mem * Z * Z * Z * list Z) : res ((mem * Z * Z * Z * list Z) + (mem * Z * list Z)) :=
    let '(s, cur, l, r, path) := st in
    if 1 <? r - l then
      let path := cur :: path in
      let m := (l + r) / 2 in
      let b := negb (i <? m) in
      let* nd := ps_node s cur in
      let* (s, q) := ps_clone s (if b then p_1 nd else p_0 nd) in
      let* s := ps_set_ch s cur b q in
      Ok (inl (s, q, if b then m else l, if b then r else m, path))
    else Ok (inr (s, cur, path)).
  (* persistent_segment_tree.hpp:63-92, 99-102; path lists the visited nodes, last first *)
  Definition ps_apply (s : mem) (node siz i : Z) (f : T -> T) : res (mem * Z) :=
    let* (s, root) := ps_clone s node in
    let* (s, cur, path) := loop (S (Z.to_nat siz)) (ps_down i) (s, root, 0, siz, []) in
    let* nd := ps_node s cur in
    let* s := ps_set_dat s cur (f (p_dat nd)) in
    let* s := for_each path (fun p s => ps_update s p) s in
    Ok (s, root).
  (* persistent_segment_tree.hpp:63-98 without do_update *)
  Definition ps_get (s : mem) (node siz i : Z) : res T :=
    let* cur := loop (S (Z.to_nat siz)) (fun '(cur, l, r) =>
      if 1 <? r - l then
        let m := (l + r) / 2 in
        let* nd := ps_node s cur in
        if i <? m then Ok (inl (p_0 nd, l, m)) else Ok (inl (p_1 nd, m, r))
      else Ok (inr cur)) (node, 0, siz) in
    let* nd := ps_node s cur in Ok (p_dat nd).
  (* persistent_segment_tree.hpp:110-123: the index and the final value of sum *)
  Fixpoint ps_maxr (fuel : nat) (g : T -> bool) (s : mem) (l cur tl tr : Z) (sum : T) : res (Z * T) :=
    match fuel with
    | O => OutOfFuel
    | S fuel =>
        if tr <=? l then Ok (tr, sum) else
        let* stop := (if l <=? tl then
                        let* nd := ps_node s cur in
                        let nxt := op sum (p_dat nd) in
                        if g nxt then Ok (Some (tr, nxt))
                        else if tr - tl =? 1 then Ok (Some (tl, sum)) else Ok None
                      else Ok None) in
        match stop with
        | Some x => Ok x
        | None =>
            let tm := (tl + tr) / 2 in
            let* nd := ps_node s cur in
            let* (res_l, sum) := ps_maxr fuel g s l (p_0 nd) tl tm sum in
            if negb (res_l =? tm) then Ok (res_l, sum) else
            ps_maxr fuel g s l (p_1 nd) tm tr sum
        end
    end.
  (* persistent_segment_tree.hpp:130-143 *)
  Fixpoint ps_minl (fuel : nat) (g : T -> bool) (s : mem) (r cur tl tr : Z) (sum : T) : res (Z * T) :=
    match fuel with
    | O => OutOfFuel
    | S fuel =>
        if r <=? tl then Ok (tl, sum) else
        let* stop := (if tr <=? r then
                        let* nd := ps_node s cur in
                        let nxt := op (p_dat nd) sum in
                        if g nxt then Ok (Some (tl, nxt))
                        else if tr - tl =? 1 then Ok (Some (tr, sum)) else Ok None
                      else Ok None) in
        match stop with
        | Some x => Ok x
        | None =>
            let tm := (tl + tr) / 2 in
            let* nd := ps_node s cur in
            let* (res_r, sum) := ps_minl fuel g s r (p_1 nd) tm tr sum in
            if negb (res_r =? tm) then Ok (res_r, sum) else
            ps_minl fuel g s r (p_0 nd) tl tm sum
        end
    end.
  (* persistent_segment_tree.hpp:148-164 *)
  Fixpoint ps_dump_rec (fuel : nat) (s : mem) (cur : Z) (out : list T) : res (list T) :=
    match fuel with
    | O => OutOfFuel
    | S fuel =>
        let* nd := ps_node s cur in
        if p_0 nd =? -1 then Ok (out ++ [p_dat nd]) else
        let* out := ps_dump_rec fuel s (p_0 nd) out in
        ps_dump_rec fuel s (p_1 nd) out
    end.
  Definition ps_dump (fuel : nat) (s : mem) (p : Z) : res (list T) :=
    if p =? -1 then Ok [] else ps_dump_rec fuel s p [].

  (* persistent_segment_tree.hpp:167-232: calls on the pool and the tree objects made so far *)
  Definition ps_step (s : mem * list ptree) (o : psop T) : res (psout T * (mem * list ptree)) :=
    let '(m, vs) := s in
    match o with
    | PsNew => Ok (PsUnit, (m, vs ++ [PT 0 (-1)]))
    | PsBuild d => let* (m, r) := ps_build m d in Ok (PsUnit, (m, vs ++ [PT (zlen d) r]))
    | PsGet v i =>
        let* t := vget vs v in
        assert_ ((0 <=? i) && (i <? pt_n t)) ;;;
        let* x := ps_get m (pt_root t) (pt_n t) i in Ok (PsVal x, s)
    | PsSet v i x =>
        let* t := vget vs v in
        assert_ ((0 <=? i) && (i <? pt_n t)) ;;;
        let* (m, r) := ps_apply m (pt_root t) (pt_n t) i (fun _ => x) in Ok (PsUnit, (m, vs ++ [PT (pt_n t) r]))
    | PsApply v i f =>
        let* t := vget vs v in
        assert_ ((0 <=? i) && (i <? pt_n t)) ;;;
        let* (m, r) := ps_apply m (pt_root t) (pt_n t) i f in Ok (PsUnit, (m, vs ++ [PT (pt_n t) r]))
    | PsProd v l r =>
        let* t := vget vs v in
        assert_ ((0 <=? l) && (l <=? r) && (r <=? pt_n t)) ;;;
        let* x := ps_prod_rec (S (Z.to_nat (pt_n t))) m (pt_root t) 0 (pt_n t) l r in Ok (PsVal x, s)
    | PsAll v => let* t := vget vs v in let* x := ps_prod_all m (pt_root t) in Ok (PsVal x, s)
    | PsMaxR v l g =>
        let* t := vget vs v in
        assert_ ((0 <=? l) && (l <=? pt_n t)) ;;; assert_ (g e) ;;;
        let* (r, _) := ps_maxr (S (Z.to_nat (pt_n t))) g m l (pt_root t) 0 (pt_n t) e in Ok (PsInt r, s)
    | PsMinL v r g =>
        let* t := vget vs v in
        assert_ ((0 <=? r) && (r <=? pt_n t)) ;;; assert_ (g e) ;;;
        let* (l, _) := ps_minl (S (Z.to_nat (pt_n t))) g m r (pt_root t) 0 (pt_n t) e in Ok (PsInt l, s)
    | PsDump v => let* t := vget vs v in let* l := ps_dump (S (Z.to_nat (pt_n t) + length (fst m))) m (pt_root t) in Ok (PsList l, s)
    (* persistent_segment_tree.hpp:174-176, object_pool.hpp:37-41: trees made before must not be used any more *)
    | PsClear => Ok (PsUnit, ((fst m, 0), []))
    end.
End PSeg.
