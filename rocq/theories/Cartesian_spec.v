(* Cartesian trees: the intervals in which an element is the least. *)
From Verif Require Import Base.

(* a strict weak order, as std::sort asks for *)
Record strict_weak {T} (comp : T -> T -> bool) : Prop := {
  sw_irrefl : forall x, comp x x = false;
  sw_trans : forall x y z, comp x y = true -> comp y z = true -> comp x z = true;
  sw_cotrans : forall x y z, comp x z = true -> comp x y = true \/ comp y z = true }.
(* a[i] comes before a[j] *)
Definition before {T} (comp : T -> T -> bool) (a : list T) (i j : Z) : Prop :=
  exists x y, vget a i = Ok x /\ vget a j = Ok y /\ comp x y = true.
(* [l, r) is the widest interval around i in which a[i] comes before everything to its left and nothing
   to its right comes before a[i]: a[i] is its leftmost minimum *)
Definition dominates {T} (comp : T -> T -> bool) (a : list T) (i l r : Z) : Prop :=
  0 <= l <= i /\ i < r <= zlen a /\
  (forall j, l <= j < i -> before comp a i j) /\ (l = 0 \/ ~ before comp a i (l - 1)) /\
  (forall j, i < j < r -> ~ before comp a j i) /\ (r = zlen a \/ before comp a r i).
(* the parent of i: of the two elements that bound its interval the one that does not come first
   (the right one when neither does), -1 when there is none *)
Definition parent_of {T} (comp : T -> T -> bool) (a : list T) (i p : Z) : Prop :=
  exists l r, dominates comp a i l r /\
  ((l = 0 /\ r = zlen a /\ p = -1) \/
   (l = 0 /\ r < zlen a /\ p = r) \/
   (0 < l /\ r = zlen a /\ p = l - 1) \/
   (0 < l /\ r < zlen a /\ before comp a r (l - 1) /\ p = l - 1) \/
   (0 < l /\ r < zlen a /\ ~ before comp a r (l - 1) /\ p = r)).
(* the children: a[c] is the leftmost minimum of an interval [l, r), or the interval is empty and c = -1 *)
Definition least_of {T} (comp : T -> T -> bool) (a : list T) (l r c : Z) : Prop :=
  (l = r /\ c = -1) \/
  (l <= c < r /\ (forall j, l <= j < c -> before comp a c j) /\ (forall j, c < j < r -> ~ before comp a j c)).
