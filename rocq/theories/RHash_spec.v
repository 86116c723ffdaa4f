(* Polynomial hashes. *)
From Verif Require Import Base.

(* the number whose digits in base b, most significant first, are s *)
Definition poly (b : Z) (s : list Z) : Z := fold_left (fun h x => h * b + x) s 0.
(* s[l, r) *)
Definition substr (s : list Z) (l r : Z) : list Z := firstn (Z.to_nat (r - l)) (skipn (Z.to_nat l) s).
Definition two61m1 : Z := 2 ^ 61 - 1.
(* the array of hashes, one for each base *)
Definition hashes (bases s : list Z) : list Z := map (fun b => poly b s mod two61m1) bases.
(* calls on a collection of hashed strings *)
Inductive rh_call := RhSub (k l r : Z) | RhConcat (h : list Z) (k l r : Z).
(* the call is inside the contract, and the answer is right *)
Definition rh_meets (bases : list Z) (strs : list (list Z)) (c : rh_call) : Prop :=
  match c with
  | RhSub k l r => exists s, vget strs k = Ok s /\ 0 <= l <= r /\ r <= zlen s
  | RhConcat h k l r => exists s t, vget strs k = Ok s /\ 0 <= l <= r /\ r <= zlen s /\ h = hashes bases t
  end.
Definition rh_right (bases : list Z) (strs : list (list Z)) (c : rh_call) (a : list Z) : Prop :=
  match c with
  | RhSub k l r => forall s, vget strs k = Ok s -> a = hashes bases (substr s l r)
  | RhConcat h k l r => forall s t, vget strs k = Ok s -> h = hashes bases t -> a = hashes bases (t ++ substr s l r)
  end.
