(* Specification vocabulary for offline dynamic connectivity. *)
From Verif Require Import Base.
From Verif Require Export UnionFind_spec.

(* a history: insert an edge, delete an edge, ask whether two vertices are connected now *)
Inductive dop := DAdd (u v : Z) | DDel (u v : Z) | DAsk (u v : Z).
(* an undirected edge *)
Definition edge (u v : Z) : Z * Z := (Z.min u v, Z.max u v).
(* delete one copy of e *)
Fixpoint drop (e : Z * Z) (E : list (Z * Z)) : list (Z * Z) :=
  match E with [] => [] | f :: E => if (fst f =? fst e) && (snd f =? snd e) then E else f :: drop e E end.
Definition dafter (E : list (Z * Z)) (o : dop) : list (Z * Z) :=
  match o with DAdd u v => edge u v :: E | DDel u v => drop (edge u v) E | DAsk _ _ => E end.
(* vertices in range, and only edges that are present are deleted (E: the edges present now) *)
Fixpoint valid (n : Z) (E : list (Z * Z)) (ops : list dop) : Prop :=
  match ops with
  | [] => True
  | o :: ops => match o with DAdd u v | DAsk u v => 0 <= u < n /\ 0 <= v < n | DDel u v => In (edge u v) E end /\ valid n (dafter E o) ops
  end.
(* every question is answered according to the edges present at that moment *)
Fixpoint right_answers (E : list (Z * Z)) (ops : list dop) (bs : list bool) : Prop :=
  match ops with
  | [] => bs = []
  | o :: ops => match o with
      | DAsk u v => match bs with [] => False | b :: bs => (b = true <-> connected E u v) /\ right_answers E ops bs end
      | _ => right_answers (dafter E o) ops bs end
  end.
