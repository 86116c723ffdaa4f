(* Model of library/graph/kruscal.hpp (KruscalMinimumSpanningTree, KruscalMaximumSpanningTree).
   Weights are unbounded integers.  [mx] is true for the maximum version (std::greater).
   External code: std::sort is the parameter [sort]; atcoder::dsu is represented by the label
   of every vertex ([same] compares labels, [merge] replaces one label by the other). *)
From Verif Require Import Base.

Definition edge : Type := Z * Z * Z.
Definition e_u (e : edge) : Z := fst (fst e).
Definition e_v (e : edge) : Z := snd (fst e).
Definition e_c (e : edge) : Z := snd e.

(* atcoder::dsu *)
Definition dsu_new (n : Z) : list Z := zrange n.
Definition dsu_same (d : list Z) (u v : Z) : res bool := let* a := vget d u in let* b := vget d v in Ok (a =? b).
Definition dsu_merge (d : list Z) (u v : Z) : res (list Z) :=
  let* a := vget d u in let* b := vget d v in Ok (map (fun c => if c =? a then b else c) d).

(* kruscal.hpp:72-77 *)
Record kruskal := KR { kr_n : Z; kr_sum : Z; kr_edges : list edge; kr_built : bool }.
(* kruscal.hpp:17 *)
Definition kr_new (n : Z) : kruskal := KR n 0 [] false.
(* kruscal.hpp:19-26 *)
Definition kr_add (s : kruskal) (e : edge) : kruskal := KR (kr_n s) (kr_sum s) (kr_edges s ++ [e]) false.

Section Build.
  Variable sort : list edge -> list edge.
  (* kruscal.hpp:37-44; state: dsu, _edges, _weight_sum *)
  Definition kr_body (n i : Z) (st : list Z * list edge * Z) : res (list Z * list edge * Z) :=
    let '(d, es, w) := st in
    let* e := vget es i in
    let* b := dsu_same d (e_u e) (e_v e) in
    if b then let* es := vset es i (n, n, e_c e) in Ok (d, es, w)
    else let* d := dsu_merge d (e_u e) (e_v e) in Ok (d, es, w + e_c e).
  (* kruscal.hpp:31-47 *)
  Definition kr_build (s : kruskal) : res (bool * kruskal) :=
    let n := kr_n s in
    if n =? 0 then Ok (true, KR n 0 (kr_edges s) true) else
    let es := sort (kr_edges s) in
    let* (_, es, w) := for_ 0 (zlen es) (kr_body n) (dsu_new n, es, 0) in
    let es := filter (fun e => negb (e_u e =? n)) es in
    Ok (zlen es =? n - 1, KR n w es true).
  (* kruscal.hpp:54-57 *)
  Definition kr_weight (s : kruskal) : res Z := assert_ (kr_built s) ;;; Ok (kr_sum s).
  (* kruscal.hpp:65-68 *)
  Definition kr_mst (s : kruskal) : res (list edge) := assert_ (kr_built s) ;;; Ok (kr_edges s).

  Inductive kop := KAdd (e : edge) | KBuild | KWeight | KMst.
  Inductive kout := KUnit | KBool (b : bool) | KInt (w : Z) | KEdges (es : list edge).
  Definition kr_step (s : kruskal) (o : kop) : res (kout * kruskal) :=
    match o with
    | KAdd e => Ok (KUnit, kr_add s e)
    | KBuild => let* (b, s) := kr_build s in Ok (KBool b, s)
    | KWeight => let* w := kr_weight s in Ok (KInt w, s)
    | KMst => let* es := kr_mst s in Ok (KEdges es, s)
    end.
End Build.
