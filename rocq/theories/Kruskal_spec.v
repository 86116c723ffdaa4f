(* Spanning forests of minimum (maximum) weight. *)
From Coq Require Import Permutation Sorted.
From Verif Require Import Base Kruskal_model UnionFind_spec.

Definition ends (es : list edge) : list (Z * Z) := map (fun e => (e_u e, e_v e)) es.
Definition total (es : list edge) : Z := fold_right (fun e w => e_c e + w) 0 es.
(* no edge joins two vertices that the other edges already connect *)
Definition forest (t : list edge) : Prop := forall a e b, t = a ++ e :: b -> ~ connected (ends (a ++ b)) (e_u e) (e_v e).
(* t is made of edges of es (each used at most once), has no cycle, and connects what es connects *)
Definition spanning_forest (es t : list edge) : Prop :=
  (exists rest, Permutation (t ++ rest) es) /\ forest t /\ forall u v, connected (ends t) u v <-> connected (ends es) u v.
Definition optimal (mx : bool) (es t : list edge) : Prop :=
  spanning_forest es t /\ forall t', spanning_forest es t' -> if mx then total t' <= total t else total t <= total t'.
(* comp(e1, e2) of the sort *)
Definition before (mx : bool) (e1 e2 : edge) : Prop := if mx then e_c e2 <= e_c e1 else e_c e1 <= e_c e2.
Definition sorts (mx : bool) (sort : list edge -> list edge) : Prop :=
  forall es, Permutation (sort es) es /\ StronglySorted (before mx) (sort es).

Definition in_graph (n : Z) (e : edge) : Prop := 0 <= e_u e < n /\ 0 <= e_v e < n.
Definition kop_ok (n : Z) (o : kop) : Prop := match o with KAdd e => in_graph n e | _ => True end.

(* state: all edges added so far, and whether build() was called after the last addition *)
Definition kr_spec (mx : bool) (n : Z) (a : list edge * bool) (o : kop) (r : res (kout * (list edge * bool))) : Prop :=
  let '(es, built) := a in
  match o, r with
  | KAdd e, Ok (KUnit, a') => a' = (es ++ [e], false)
  | KBuild, Ok (KBool b, a') => a' = (es, true) /\ (b = true <-> forall u v, 0 <= u < n -> 0 <= v < n -> connected (ends es) u v)
  | KWeight, Ok (KInt w, a') => a' = a /\ built = true /\ exists t, optimal mx es t /\ w = total t
  | KWeight, Abort => built = false
  | KMst, Ok (KEdges t, a') => a' = a /\ built = true /\ optimal mx es t /\ StronglySorted (before mx) t
  | KMst, Abort => built = false
  | _, _ => False
  end.
