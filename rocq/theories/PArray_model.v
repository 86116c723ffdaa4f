(* Model of datastructure/persistent_array.hpp.  The node pool is a list of nodes, a node
   pointer is an index into it and the null pointer is -1; reading through the null pointer is
   undefined behaviour.  Simplification: the pool never runs out (init_pool was given enough),
   and allocation appends a node (library/util/object_pool.hpp:28-31). *)
From Verif Require Import Base.

Record pnode (T : Type) := PN { pch : list Z; pval : T }.
Arguments PN {T}. Arguments pch {T}. Arguments pval {T}.
Record parray := PA { pa_n : Z; pa_root : Z }.

Inductive pop (T : Type) :=
  | PBuild (init : list T) | PGet (v i : Z) | PSet (v i : Z) (x : T) | PMut (v i : Z) (x : T) | PClone (v : Z) | PSize (v : Z) | PDump (v : Z).
Arguments PBuild {T}. Arguments PGet {T}. Arguments PSet {T}. Arguments PMut {T}. Arguments PClone {T}. Arguments PSize {T}. Arguments PDump {T}.
Inductive pret (T : Type) := PUnit | PVal (x : T) | PNum (n : Z) | PList (l : list T).
Arguments PUnit {T}. Arguments PVal {T}. Arguments PNum {T}. Arguments PList {T}.

Section PArray.
  Context {T : Type}.
  Variable lg : Z.
  Variable dflt : T.
  (* persistent_array.hpp:18 *)
  Definition mask : Z := Z.shiftl 1 lg - 1.
  Notation mem := (list (pnode T)).

  (* persistent_array.hpp:24-29 *)
  Definition clone (m : mem) (p : Z) : res (mem * Z) :=
    let* nd := vget m p in Ok (m ++ [nd], zlen m).
  Definition new_node (m : mem) (x : T) : mem * Z :=
    (m ++ [PN (vrep (Z.shiftl 1 lg) (-1)) x], zlen m).
  (* the assignments node->_ch[d] = q and node->_val = x *)
  Definition set_child (m : mem) (p d q : Z) : res mem :=
    let* nd := vget m p in
    let* c := vset (pch nd) d q in
    vset m p (PN c (pval nd)).
  Definition set_val (m : mem) (p : Z) (x : T) : res mem :=
    let* nd := vget m p in vset m p (PN (pch nd) x).

  (* persistent_array.hpp:30-33: the node reached *)
  Definition node_get (m : mem) (node id : Z) : res Z :=
    loop (S (Z.to_nat id)) (fun '(node, id) =>
      if id =? 0 then Ok (inr node) else
      let* nd := vget m node in
      let* q := vget (pch nd) (Z.land id mask) in
      Ok (inl (q, Z.shiftr (id - 1) lg))) (node, id).
  Definition node_val (m : mem) (node id : Z) : res T :=
    let* p := node_get m node id in
    let* nd := vget m p in
    Ok (pval nd).
  (* persistent_array.hpp:34-39 *)
  Definition node_set (m : mem) (node id : Z) (x : T) : res (mem * Z) :=
    let* (m, r) := clone m node in
    let* (m, cur) := loop (S (Z.to_nat id)) (fun '(m, cur, id) =>
      if id =? 0 then Ok (inr (m, cur)) else
      let* nd := vget m cur in
      let* q := vget (pch nd) (Z.land id mask) in
      let* (m, q') := clone m q in
      let* m := set_child m cur (Z.land id mask) q' in
      Ok (inl (m, q', Z.shiftr (id - 1) lg))) (m, r, id) in
    let* m := set_val m cur x in
    Ok (m, r).
  (* persistent_array.hpp:40-42 *)
  Definition node_mut_set (m : mem) (node id : Z) (x : T) : res (T * mem) :=
    let* p := node_get m node id in
    let* nd := vget m p in
    let* m := set_val m p x in
    Ok (pval nd, m).
  (* persistent_array.hpp:46-52 *)
  Fixpoint build_dfs (fuel : nat) (init : list T) (m : mem) (cur id p : Z) : res mem :=
    match fuel with
    | O => OutOfFuel
    | S fuel =>
        let np := Z.shiftl p lg in
        let nid := id + p in
        let* (m, rest) := loop (S (Z.to_nat (Z.shiftl 1 lg))) (fun '(m, d, nid) =>
          if d <? Z.shiftl 1 lg then
            if nid <? zlen init then
              let* x := vget init nid in
              let '(m, q) := new_node m x in
              let* m := set_child m cur d q in
              let* m := build_dfs fuel init m q nid np in
              Ok (inl (m, d + 1, nid + p))
            else Ok (inr (m, None))
          else Ok (inr (m, Some nid))) (m, 1, nid) in
        match rest with
        | None => Ok m
        | Some nid =>
            if nid <? zlen init then
              let* x := vget init nid in
              let '(m, q) := new_node m x in
              let* m := set_child m cur 0 q in
              build_dfs fuel init m q nid np
            else Ok m
        end
    end.
  (* persistent_array.hpp:43-56 *)
  Definition build (m : mem) (init : list T) : res (mem * Z) :=
    if zlen init =? 0 then Ok (m, -1) else
    let* x := vget init 0 in
    let '(m, root) := new_node m x in
    let* m := build_dfs (S (length init)) init m root 0 1 in
    Ok (m, root).
  (* persistent_array.hpp:57-72; resize fills with T{} *)
  Fixpoint dump_dfs (fuel : nat) (m : mem) (node : Z) (r : list T) (cur id p : Z) : res (list T) :=
    match fuel with
    | O => OutOfFuel
    | S fuel =>
        let r := if zlen r <=? id then r ++ vrep (id + 1 - zlen r) dflt else r in
        let* nd := vget m node in
        let* r := vset r id (pval nd) in
        let np := Z.shiftl p lg in
        let nid := id + p in
        let* (r, rest) := loop (S (Z.to_nat (Z.shiftl 1 lg))) (fun '(r, d, nid) =>
          if d <? Z.shiftl 1 lg then
            let* c := vget m cur in
            let* q := vget (pch c) d in
            if negb (q =? -1) then
              let* r := dump_dfs fuel m node r q nid np in
              Ok (inl (r, d + 1, nid + p))
            else Ok (inr (r, None))
          else Ok (inr (r, Some nid))) (r, 1, nid) in
        match rest with
        | None => Ok r
        | Some nid =>
            let* c := vget m cur in
            let* q := vget (pch c) 0 in
            if negb (q =? -1) then dump_dfs fuel m node r q nid np else Ok r
        end
    end.
  Definition dump (m : mem) (node : Z) : res (list T) :=
    if node =? -1 then Ok [] else dump_dfs (S (length m)) m node [] node 0 1.

  (* persistent_array.hpp:79-104: calls on a pool and a list of array objects; calls that
     return an array add it to the list *)
  Definition pa_step (s : mem * list parray) (o : pop T) : res (pret T * (mem * list parray)) :=
    let '(m, vs) := s in
    match o with
    | PBuild init =>
        let* (m, r) := build m init in Ok (PUnit, (m, vs ++ [PA (zlen init) r]))
    | PGet v i =>
        let* a := vget vs v in let* x := node_val m (pa_root a) i in Ok (PVal x, (m, vs))
    | PSet v i x =>
        let* a := vget vs v in let* (m, r) := node_set m (pa_root a) i x in Ok (PUnit, (m, vs ++ [PA (pa_n a) r]))
    | PMut v i x =>
        let* a := vget vs v in let* (old, m) := node_mut_set m (pa_root a) i x in Ok (PVal old, (m, vs))
    | PClone v =>
        let* a := vget vs v in
        if pa_root a =? -1 then Ok (PUnit, (m, vs ++ [a])) else
        let* (m, r) := clone m (pa_root a) in Ok (PUnit, (m, vs ++ [PA (pa_n a) r]))
    | PSize v => let* a := vget vs v in Ok (PNum (pa_n a), (m, vs))
    | PDump v => let* a := vget vs v in let* l := dump m (pa_root a) in Ok (PList l, (m, vs))
    end.
End PArray.
