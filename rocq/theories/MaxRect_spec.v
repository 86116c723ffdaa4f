(* Blocks of ones in a grid, rectangles in a histogram. *)
From Verif Require Import Base.

(* rows of equal length m *)
Definition grid (g : list (list bool)) (m : Z) : Prop := forall row, In row g -> zlen row = m.
Definition one (g : list (list bool)) (i j : Z) : Prop := exists row, vget g i = Ok row /\ vget row j = Ok true.
(* g[u,d) * [l,r) lies in the grid and contains only ones *)
Definition all_ones (g : list (list bool)) (m : Z) (b : Z * Z * Z * Z) : Prop :=
  let '(u, d, l, r) := b in
  0 <= u <= d /\ d <= zlen g /\ 0 <= l <= r /\ r <= m /\ forall i j, u <= i < d -> l <= j < r -> one g i j.
Definition area (b : Z * Z * Z * Z) : Z := let '(u, d, l, r) := b in (d - u) * (r - l).
Definition square (b : Z * Z * Z * Z) : Prop := let '(u, d, l, r) := b in d - u = r - l.
Definition contains (a b : Z * Z * Z * Z) : Prop :=
  let '(u, d, l, r) := a in let '(u', d', l', r') := b in u <= u' /\ d' <= d /\ l <= l' /\ r' <= r.
(* a non-empty block of ones that no other block of ones contains *)
Definition maximal_block (g : list (list bool)) (m : Z) (b : Z * Z * Z * Z) : Prop :=
  all_ones g m b /\ 0 < area b /\ forall c, all_ones g m c -> contains c b -> c = b.

(* h[l,r) has minimum x *)
Definition minimum_of (h : list Z) (l r x : Z) : Prop :=
  0 <= l < r /\ r <= zlen h /\ (forall j y, l <= j < r -> vget h j = Ok y -> x <= y) /\ exists j, l <= j < r /\ vget h j = Ok x.
(* the rectangle of height x over [l,r) cannot be extended to the left (to the right) *)
Definition left_maximal (h : list Z) (l x : Z) : Prop := l = 0 \/ exists y, vget h (l - 1) = Ok y /\ y < x.
Definition right_maximal (h : list Z) (r x : Z) : Prop := r = zlen h \/ exists y, vget h r = Ok y /\ y < x.
