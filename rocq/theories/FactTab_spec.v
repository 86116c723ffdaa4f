(* Factorials, binomial and multinomial coefficients. *)
From Verif Require Import Base FactTab_model.

Fixpoint fact (n : nat) : Z := match n with O => 1 | S k => Z.of_nat n * fact k end.
(* Pascal's triangle: the number of r-element subsets of an n-element set *)
Fixpoint bin (n r : nat) : Z :=
  match r, n with
  | O, _ => 1
  | S _, O => 0
  | S r', S n' => bin n' r' + bin n' r
  end.
(* n (n - 1) ... (n - r + 1) *)
Fixpoint falling (n : Z) (r : nat) : Z := match r with O => 1 | S k => n * falling (n - 1) k end.
(* ways to choose disjoint groups of the given sizes from n elements *)
Fixpoint multi (n : nat) (ds : list nat) : Z :=
  match ds with [] => 1 | d :: ds => bin n d * multi (n - d) ds end.

Definition zsum (l : list Z) : Z := fold_right Z.add 0 l.
(* the value of a query, modulo p *)
Definition fval (p : Z) (o : fop) (x : Z) : Prop :=
  0 <= x < p /\
  match o with
  | FFac i => x = fact (Z.to_nat i) mod p
  | FInv i => (x * fact (Z.to_nat i)) mod p = 1
  | FBinom n r => if (0 <=? r) && (r <=? n) then x = bin (Z.to_nat n) (Z.to_nat r) mod p else x = 0
  | FPerm n r => if (0 <=? r) && (r <=? n) then x = falling n (Z.to_nat r) mod p else x = 0
  | FPoly n ds => if forallb (fun d => 0 <=? d) ds && (0 <=? n) && (zsum ds <=? n) then x = multi (Z.to_nat n) (map Z.to_nat ds) mod p else x = 0
  end.
(* the index the query makes the table hold; -1: none *)
Definition findex (o : fop) : Z :=
  match o with
  | FFac i | FInv i => i
  | FBinom n r | FPerm n r => if (0 <=? r) && (r <=? n) then n else -1
  | FPoly n _ => n
  end.
Definition negative (o : fop) : Prop := match o with FFac i | FInv i => i < 0 | _ => False end.
(* the capacity of the table after a query *)
Definition grow (c i : Z) : Z := if i <? c then c else Z.max (i + 1) (c * 2).
(* state: the capacity.  A query is answered rightly unless it makes the capacity exceed p (a
   failed assertion) or has a negative index (undefined behaviour). *)
Definition ft_spec (p : Z) (c : Z) (o : fop) (r : res (Z * Z)) : Prop :=
  match r with
  | Ok (x, c') => c' = grow c (findex o) /\ c' <= p /\ fval p o x
  | Abort => p < grow c (findex o)
  | UB => negative o
  | OutOfFuel => False
  end.

(* x is the inverse of i modulo p *)
Definition inverse (p i x : Z) : Prop := 0 <= x < p /\ (x * i) mod p = 1.
(* the inverse table: right below p; index 0 and every index from p on gives 0 *)
Definition im_spec (p : Z) (_ : unit) (i : Z) (r : res (Z * unit)) : Prop :=
  match r with
  | Ok (x, _) => (1 <= i < p /\ inverse p i x) \/ ((i = 0 \/ p <= i) /\ x = 0)
  | UB => i < 0
  | _ => False
  end.
(* the power table *)
Definition pw_spec (m base : Z) (_ : unit) (i : Z) (r : res (Z * unit)) : Prop :=
  match r with
  | Ok (x, _) => 0 <= i /\ x = base ^ i mod m
  | UB => i < 0
  | _ => False
  end.
