(* What the heavy-light decomposition promises. *)
From Verif Require Import Base Graph_spec Tree_spec Seq HLD_model.
From Coq Require Import Permutation.

(* [hld_of g par h]: a constructor returned h for the forest g; par roots g at the vertices the
   constructor picks: the least of each component, or the caller's *)
Definition hld_of (g : list (list Z)) (par : Z -> Z) (h : hld) : Prop :=
  rooted g par /\ exists g',
  ((hld_new g = Ok (h, g') /\ forall r, vertex g r -> (par r = -1 <-> least_of g r)) \/
   (exists rs, hld_new_roots g rs = Ok (h, g') /\ one_each g rs /\ forall r, vertex g r -> (par r = -1 <-> In r rs))).
(* the vertices visited at times l, ..., r-1 *)
Definition visited (h : hld) (l r : Z) : list Z := slice l r (h_ord h).
(* x1 * x2 * ... * xk * e *)
Definition lprod {T} (op : T -> T -> T) (e : T) (l : list T) : T := fold_right op e l.
(* the path without its topmost vertex: one end of every edge of the path *)
Definition without (a : Z) (p : list Z) : list Z := filter (fun x => negb (x =? a)) p.
(* the caller's structure over the visit times answers range queries about the values w of the
   vertices, first visited first, or last visited first *)
Definition answers {T} (h : hld) (op : T -> T -> T) (e : T) (w : Z -> T) (q : Z -> Z -> res T) : Prop :=
  forall l r, 0 <= l <= r -> r <= h_n h -> q l r = Ok (lprod op e (map w (visited h l r))).
Definition answers_rev {T} (h : hld) (op : T -> T -> T) (e : T) (w : Z -> T) (q : Z -> Z -> res T) : Prop :=
  forall l r, 0 <= l <= r -> r <= h_n h -> q l r = Ok (lprod op e (map w (rev (visited h l r)))).
(* the vertices a path query is about: those of the path, or, for a value per edge kept at the
   lower end of the edge, all but the topmost *)
Definition queried (is_edge : bool) (a : Z) (p : list Z) : list Z := if is_edge then without a p else p.
