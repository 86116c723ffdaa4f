(* Model of datastructure/binary_trie.hpp.  Every node is owned by one parent pointer, so a
   pointer is modelled by the tree it points to and the null pointer by [Nil].  The loops over
   the bits bit_length-1 .. 0 are recursions on the number of bits left.  Simplifications: node
   sizes are unbounded integers (their sum is assumed to fit int). *)
From Verif Require Import Base.

Inductive trie := Nil | Nd (siz : Z) (c0 c1 : trie).

Inductive bop :=
  | TInsert (v num : Z) | TErase (v num : Z) | TEraseAll (v : Z) | TSize | TEmpty | TPrefix (v l : Z) | TCount (v : Z) | TContains (v : Z)
  | TKthMin (x k : Z) | TKthMax (x k : Z) | TMin (x : Z) | TMax (x : Z)
  | TLt (x v : Z) | TLeq (x v : Z) | TGt (x v : Z) | TGeq (x v : Z)
  | TLower (x v d : Z) | TFloor (x v d : Z) | THigher (x v d : Z) | TCeil (x v d : Z).
Inductive bret := TNum (n : Z) | TBool (b : bool).

(* binary_trie.hpp:25-29 *)
Definition child (t : trie) (b : bool) : res trie :=
  match t with Nil => UB | Nd _ c0 c1 => Ok (if b then c1 else c0) end.
Definition tsize (t : trie) : Z := match t with Nil => 0 | Nd s _ _ => s end.
(* binary_trie.hpp:142-144 *)
Definition tbit (v : Z) (i : nat) : bool := negb (Z.land (Z.shiftr v (Z.of_nat i)) 1 =? 0).

(* binary_trie.hpp:61-68, with get_or_create (21-24): the node reached with k bits left; its
   size grows by num *)
Fixpoint trie_insert (k : nat) (t : trie) (v num : Z) : Z * trie :=
  let '(s, c0, c1) := match t with Nil => (0, Nil, Nil) | Nd s c0 c1 => (s, c0, c1) end in
  match k with
  | O => (s + num, Nd (s + num) c0 c1)
  | S k =>
      if tbit v k then let '(r, c1) := trie_insert k c1 v num in (r, Nd (s + num) c0 c1)
      else let '(r, c0) := trie_insert k c0 v num in (r, Nd (s + num) c0 c1)
  end.
(* binary_trie.hpp:145-156 *)
Fixpoint trie_erase (k : nat) (t : trie) (v num : Z) : res (Z * trie) :=
  match t with
  | Nil => UB
  | Nd s c0 c1 =>
      match k with
      | O => let removed := Z.min s num in Ok (removed, Nd (s - removed) c0 c1)
      | S k =>
          let b := tbit v k in
          let c := if b then c1 else c0 in
          match c with
          | Nil => Ok (0, t)
          | _ =>
              let* (removed, c) := trie_erase k c v num in
              let '(c0, c1) := if b then (c0, c) else (c, c1) in
              Ok (removed, Nd (tsize c0 + tsize c1) c0 c1)
          end
      end
  end.
(* binary_trie.hpp:79-86; [k] bits left, of which [l] are not looked at *)
Fixpoint trie_prefix (k : nat) (t : trie) (v : Z) (l : Z) : Z :=
  match k with
  | O => tsize t
  | S k' =>
      if Z.of_nat k >? l then
        match t with
        | Nil => 0
        | Nd _ c0 c1 => trie_prefix k' (if tbit v k' then c1 else c0) v l
        end
      else tsize t
  end.
(* binary_trie.hpp:100-113 *)
Fixpoint trie_lt (k : nat) (t : trie) (x v : Z) (acc : Z) : Z :=
  match k with
  | O => acc
  | S k =>
      match t with
      | Nil => acc
      | Nd _ c0 c1 =>
          let bx := tbit x k in
          let bv := tbit (Z.lxor x v) k in
          let acc := if Bool.eqb bx bv then acc else acc + tsize (if bx then c1 else c0) in
          trie_lt k (if bv then c1 else c0) x v acc
      end
  end.
(* binary_trie.hpp:157-170 *)
Fixpoint trie_kth (is_max : bool) (k : nat) (t : trie) (x rest acc : Z) : res Z :=
  match k with
  | O => Ok (Z.lxor x acc)
  | S k =>
      let b := xorb is_max (tbit x k) in
      let* c := child t b in
      let sz := tsize c in
      let '(rest, b) := if sz <=? rest then (rest - sz, negb b) else (rest, b) in
      let* c := child t b in
      trie_kth is_max k c x rest (Z.lor acc (Z.shiftl (Z.b2z b) (Z.of_nat k)))
  end.

Section Trie.
  Variable bit_length : nat.
  (* binary_trie.hpp:57-58, 60-140; the functions without x are those with x = 0 (except max).
     The root is never null. *)
  Definition bt_insert (t : trie) (v num : Z) : Z * trie := if num =? 0 then (0, t) else trie_insert bit_length t v num.
  Definition bt_erase (t : trie) (v num : Z) : res (Z * trie) := if num =? 0 then Ok (0, t) else trie_erase bit_length t v num.
  Definition bt_count (t : trie) (v : Z) : Z := trie_prefix bit_length t v 0.
  Definition bt_kth (is_max : bool) (t : trie) (x k : Z) : res Z :=
    assert_ ((0 <=? k) && (k <? tsize t)) ;;; trie_kth is_max bit_length t x k 0.
  Definition bt_lt (t : trie) (x v : Z) : Z := trie_lt bit_length t x v 0.
  Definition bt_leq (t : trie) (x v : Z) : Z := bt_lt t x v + bt_count t v.
  Definition bt_gt (t : trie) (x v : Z) : Z := tsize t - bt_leq t x v.
  Definition bt_geq (t : trie) (x v : Z) : Z := tsize t - bt_lt t x v.
  Definition bt_lower (t : trie) (x v d : Z) : res Z :=
    let k := tsize t - bt_geq t x v - 1 in if k <? 0 then Ok d else trie_kth false bit_length t x k 0.
  Definition bt_floor (t : trie) (x v d : Z) : res Z :=
    let k := tsize t - bt_gt t x v - 1 in if k <? 0 then Ok d else trie_kth false bit_length t x k 0.
  Definition bt_higher (t : trie) (x v d : Z) : res Z :=
    let k := bt_leq t x v in if k =? tsize t then Ok d else trie_kth false bit_length t x k 0.
  Definition bt_ceil (t : trie) (x v d : Z) : res Z :=
    let k := bt_lt t x v in if k =? tsize t then Ok d else trie_kth false bit_length t x k 0.
  (* binary_trie.hpp:131; ~U(0) with [width] value bits *)
  Definition bt_max (width : Z) (t : trie) : res Z := bt_kth false t (2 ^ width - 1) 0.
  Definition bt_new : trie := Nd 0 Nil Nil.

  Definition bt_step (t : trie) (o : bop) : res (bret * trie) :=
    match o with
    | TInsert v num => let '(r, t) := bt_insert t v num in Ok (TNum r, t)
    | TErase v num => let* (r, t) := bt_erase t v num in Ok (TNum r, t)
    | TEraseAll v => let* (r, t) := bt_erase t v 2147483647 in Ok (TNum r, t)
    | TSize => Ok (TNum (tsize t), t)
    | TEmpty => Ok (TBool (tsize t =? 0), t)
    | TPrefix v l => Ok (TNum (trie_prefix bit_length t v l), t)
    | TCount v => Ok (TNum (bt_count t v), t)
    | TContains v => Ok (TBool (bt_count t v >? 0), t)
    | TKthMin x k => let* r := bt_kth false t x k in Ok (TNum r, t)
    | TKthMax x k => let* r := bt_kth true t x k in Ok (TNum r, t)
    | TMin x => let* r := bt_kth false t x 0 in Ok (TNum r, t)
    | TMax x => let* r := bt_kth true t x 0 in Ok (TNum r, t)
    | TLt x v => Ok (TNum (bt_lt t x v), t)
    | TLeq x v => Ok (TNum (bt_leq t x v), t)
    | TGt x v => Ok (TNum (bt_gt t x v), t)
    | TGeq x v => Ok (TNum (bt_geq t x v), t)
    | TLower x v d => let* r := bt_lower t x v d in Ok (TNum r, t)
    | TFloor x v d => let* r := bt_floor t x v d in Ok (TNum r, t)
    | THigher x v d => let* r := bt_higher t x v d in Ok (TNum r, t)
    | TCeil x v d => let* r := bt_ceil t x v d in Ok (TNum r, t)
    end.
End Trie.
