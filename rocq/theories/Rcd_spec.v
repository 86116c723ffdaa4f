(* The number of distinct values of a[l], ..., a[r-1] *)
From Verif Require Import Base.
Definition segment (a : list Z) (l r : Z) : list Z := firstn (Z.to_nat (r - l)) (skipn (Z.to_nat l) a).
Definition distinct (a : list Z) (l r : Z) : Z := zlen (nodup Z.eq_dec (segment a l r)).
Definition query_ok (a : list Z) (p : Z * Z) : Prop := 0 <= fst p <= snd p /\ snd p <= zlen a.
