(* What rerooting computes: the tree DP rooted at every vertex. *)
From Verif Require Import Base Graph_spec Tree_spec Rerooting_model.

(* the neighbours of x, with the weights of the edges *)
Definition nbrs {W} (es : list (cedge W)) (x : Z) : list (Z * W) :=
  flat_map (fun '(u, v, w) => (if u =? x then [(v, w)] else []) ++ (if v =? x then [(u, w)] else [])) es.
(* the edges form a tree on the vertices 0 .. n-1 *)
Definition edge_tree {W} (n : Z) (es : list (cedge W)) : Prop := tree (map (fun x => map fst (nbrs es x)) (zrange n)).

Section DP.
  Context {VW W DP : Type}.
  Variables (op : DP -> DP -> DP) (e : DP) (asr : DP -> VW -> W -> DP) (nb : Z -> list (Z * W)) (ws : list VW).
  (* [below u p x]: x is the product of the branches of u, those towards p left out.
     [branches u l x]: x is the product of the branches through the neighbours l. *)
  Inductive below : Z -> Z -> DP -> Prop :=
    | below_ u p x : branches u (filter (fun vw => negb (fst vw =? p)) (nb u)) x -> below u p x
  with branches : Z -> list (Z * W) -> DP -> Prop :=
    | branches_nil u : branches u [] e
    | branches_cons u v w wv l x y : below v u x -> vget ws v = Ok wv -> branches u l y -> branches u ((v, w) :: l) (op (asr x wv w) y).
End DP.
