(* A multiset of words, as a list up to permutation. *)
From Verif Require Import Base Seq Trie_model Wavelet_spec.
From Coq Require Import Permutation.

Section Spec.
  Variable bit_length : nat.
  Definition word (v : Z) : Prop := 0 <= v < 2 ^ Z.of_nat bit_length.
  (* the best y among the x ^ w, w in a, that satisfies P; d if there is none *)
  Definition best_or (best : list Z -> (Z -> Prop) -> Z -> Prop) (P : Z -> Prop) (a : list Z) (x d y : Z) : Prop :=
    best (map (Z.lxor x) a) P y \/ (y = d /\ forall w, In w a -> ~ P (Z.lxor x w)).
  Definition num_of (p : Z -> bool) (a : list Z) : Z := count_if p a.

  Definition bt_spec (a : list Z) (o : bop) (r : res (bret * list Z)) : Prop :=
    match o, r with
    | TInsert v num, Ok (TNum n, a') => a' = vrep num v ++ a /\ n = if num =? 0 then 0 else num + num_of (Z.eqb v) a
    | TErase v num, Ok (TNum n, a') => n = Z.min (num_of (Z.eqb v) a) num /\ Permutation a (vrep n v ++ a')
    | TEraseAll v, Ok (TNum n, a') => n = Z.min (num_of (Z.eqb v) a) 2147483647 /\ Permutation a (vrep n v ++ a')
    | TSize, Ok (TNum n, a') => n = zlen a /\ a' = a
    | TEmpty, Ok (TBool b, a') => (b = true <-> a = []) /\ a' = a
    | TPrefix v l, Ok (TNum n, a') => n = num_of (fun w => Z.shiftr w l =? Z.shiftr v l) a /\ a' = a
    | TCount v, Ok (TNum n, a') => n = num_of (Z.eqb v) a /\ a' = a
    | TContains v, Ok (TBool b, a') => (b = true <-> In v a) /\ a' = a
    | TKthMin x k, Ok (TNum y, a') => kth_smallest (map (Z.lxor x) a) k y /\ a' = a
    | TKthMax x k, Ok (TNum y, a') => kth_largest (map (Z.lxor x) a) k y /\ a' = a
    | TKthMin x k, Abort | TKthMax x k, Abort => ~ 0 <= k < zlen a
    | TMin x, Ok (TNum y, a') => least (map (Z.lxor x) a) (fun _ => True) y /\ a' = a
    | TMax x, Ok (TNum y, a') => greatest (map (Z.lxor x) a) (fun _ => True) y /\ a' = a
    | TMin x, Abort | TMax x, Abort => a = []
    | TLt x v, Ok (TNum n, a') => n = num_of (fun w => Z.lxor x w <? v) a /\ a' = a
    | TLeq x v, Ok (TNum n, a') => n = num_of (fun w => Z.lxor x w <=? v) a /\ a' = a
    | TGt x v, Ok (TNum n, a') => n = num_of (fun w => v <? Z.lxor x w) a /\ a' = a
    | TGeq x v, Ok (TNum n, a') => n = num_of (fun w => v <=? Z.lxor x w) a /\ a' = a
    | TLower x v d, Ok (TNum y, a') => best_or greatest (fun z => z < v) a x d y /\ a' = a
    | TFloor x v d, Ok (TNum y, a') => best_or greatest (fun z => z <= v) a x d y /\ a' = a
    | THigher x v d, Ok (TNum y, a') => best_or least (fun z => v < z) a x d y /\ a' = a
    | TCeil x v d, Ok (TNum y, a') => best_or least (fun z => v <= z) a x d y /\ a' = a
    | _, _ => False
    end.
  (* words fit bit_length bits and numbers of copies are not negative.  The functions that go
     through xor_count_leq are covered for x = 0 only: see the refutation. *)
  Definition bt_call (o : bop) : Prop :=
    match o with
    | TInsert v num | TErase v num => word v /\ 0 <= num
    | TEraseAll v | TCount v | TContains v => word v
    | TPrefix v l => word v /\ 0 <= l
    | TKthMin x k | TKthMax x k => word x
    | TMin x | TMax x => word x
    | TLt x v | TGeq x v => word x /\ word v
    | TLower x v _ | TCeil x v _ => word x /\ word v
    | TLeq x v | TGt x v => x = 0 /\ word v
    | TFloor x v _ | THigher x v _ => x = 0 /\ word v
    | TSize | TEmpty => True
    end.
End Spec.
