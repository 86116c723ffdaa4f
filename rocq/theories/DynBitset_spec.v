(* A bitset is the list of its bits; bit i is [bitv l i].  UB marks the calls outside the contract:
   a negative size_t, a bitset that does not exist, an index out of range, pop_back on an empty
   bitset.  all() on a size that is a nonzero multiple of 64 is marked so too: see the
   refutation.  Abort: the assertion of the call fails. *)
From Verif Require Import Base Seq DynBitset_model.

Definition bitv (l : list bool) (i : Z) : bool := nth (Z.to_nat i) l false.
Definition tab (n : Z) (f : Z -> bool) : list bool := map f (zrange n).
(* the number read with bit i of weight 2^i *)
Fixpoint value (l : list bool) : Z := match l with [] => 0 | x :: l => Z.b2z x + 2 * value l end.
Definition ones (l : list bool) : Z := zlen (filter (fun x => x) l).
(* the number of leading zeros, i.e. the index of the first 1, or the length *)
Fixpoint first_true (l : list bool) : Z := match l with [] => 0 | x :: l => if x then 0 else 1 + first_true l end.
Definition meet (x y : list bool) : bool := existsb (fun '(p, q) => p && q) (combine x y).

Definition guard {R} (c : bool) (r : res R) : res R := if c then r else UB.
Definition index_ok (l : list bool) (i : Z) : bool := (0 <=? i) && (i <? zlen l).
(* change bit i *)
Definition at_bit (i : Z) (f : bool -> bool) (l : list bool) : res (list bool) :=
  guard (index_ok l i) (Ok (tab (zlen l) (fun j => if j =? i then f (bitv l j) else bitv l j))).
(* change the bits l <= j < r *)
Definition on_range (lo hi : Z) (f : bool -> bool) (l : list bool) : res (list bool) :=
  guard ((0 <=? lo) && (0 <=? hi)) (assert_ ((lo <=? hi) && (hi <=? zlen l)) ;;;
    Ok (tab (zlen l) (fun j => if (lo <=? j) && (j <? hi) then f (bitv l j) else bitv l j))).
Definition same_size {R} (x y : list bool) (r : res R) : res R := assert_ (zlen x =? zlen y) ;;; r.
Definition pairwise (f : bool -> bool -> bool) (x y : list bool) : res (list bool) :=
  same_size x y (Ok (tab (zlen x) (fun j => f (bitv x j) (bitv y j)))).

Definition dset := list (list bool).
Definition ds_step (s : dset) (o : dop) : res (dret * dset) :=
  match o with
  | DNew n fill => guard (0 <=? n) (Ok (DUnit, s ++ [tab n (fun _ => fill)]))
  | DSize x => ask_num s (let* l := vget s x in Ok (zlen l))
  | DEmpty x => ask_bool s (let* l := vget s x in Ok (zlen l =? 0))
  | DResize x n fill => upd_at s x (fun l => guard (0 <=? n) (Ok (tab n (fun j => if j <? zlen l then bitv l j else fill))))
  | DPush x v => upd_at s x (fun l => Ok (l ++ [v]))
  | DPop x => upd_at s x (fun l => guard (0 <? zlen l) (Ok (removelast l)))
  | DGet x i => ask_bool s (let* l := vget s x in guard (index_ok l i) (Ok (bitv l i)))
  | DAssign x i v => upd_at s x (at_bit i (fun _ => v))
  | DOrBit x i v => upd_at s x (at_bit i (fun c => c || v))
  | DXorBit x i v => upd_at s x (at_bit i (fun c => xorb c v))
  | DFlip x i => upd_at s x (at_bit i negb)
  | DEq x y => ask_bool s (with2 s x y (fun p q => Ok (if list_eq_dec Bool.bool_dec p q then true else false)))
  | DNe x y => ask_bool s (with2 s x y (fun p q => Ok (if list_eq_dec Bool.bool_dec p q then false else true)))
  | DLt x y => ask_bool s (with2 s x y (fun p q => same_size p q (Ok (value p <? value q))))
  | DLe x y => ask_bool s (with2 s x y (fun p q => same_size p q (Ok (value p <=? value q))))
  | DGt x y => ask_bool s (with2 s x y (fun p q => same_size p q (Ok (value q <? value p))))
  | DGe x y => ask_bool s (with2 s x y (fun p q => same_size p q (Ok (value q <=? value p))))
  | DAnd x y => let* q := vget s y in upd_at s x (fun p => pairwise andb p q)
  | DOr x y => let* q := vget s y in upd_at s x (fun p => pairwise orb p q)
  | DXor x y => let* q := vget s y in upd_at s x (fun p => pairwise xorb p q)
  | DShl x k => upd_at s x (fun l => guard (0 <=? k) (Ok (tab (zlen l) (fun j => (k <=? j) && bitv l (j - k)))))
  | DShr x k => upd_at s x (fun l => guard (0 <=? k) (Ok (tab (zlen l) (fun j => bitv l (j + k)))))
  | DNot x => let* l := vget s x in Ok (DUnit, s ++ [map negb l])
  | DRangeSet x lo hi => upd_at s x (on_range lo hi (fun _ => true))
  | DRangeReset x lo hi => upd_at s x (on_range lo hi (fun _ => false))
  | DRangeFlip x lo hi => upd_at s x (on_range lo hi negb)
  | DRangeCount x lo hi => ask_num s (let* l := vget s x in
      guard ((0 <=? lo) && (0 <=? hi)) (assert_ ((lo <=? hi) && (hi <=? zlen l)) ;;; Ok (ones (slice lo hi l))))
  | DSetAll x => upd_at s x (fun l => Ok (map (fun _ => true) l))
  | DResetAll x => upd_at s x (fun l => Ok (map (fun _ => false) l))
  | DAll x => ask_bool s (let* l := vget s x in
      guard ((zlen l =? 0) || negb (zlen l mod 64 =? 0)) (Ok (forallb (fun c => c) l)))
  | DNone x => ask_bool s (let* l := vget s x in Ok (forallb negb l))
  | DAny x => ask_bool s (let* l := vget s x in Ok (existsb (fun c => c) l))
  | DCount x => ask_num s (let* l := vget s x in Ok (ones l))
  | DFindFirst x => ask_num s (let* l := vget s x in Ok (first_true l))
  | DFindNext x pos => ask_num s (let* l := vget s x in
      guard (0 <=? pos) (let k := Z.min (pos + 1) (zlen l) in Ok (k + first_true (skipn (Z.to_nat k) l))))
  | DMeets x y => ask_bool s (with2 s x y (fun p q => Ok (meet p q)))
  | DDisjoint x y => ask_bool s (with2 s x y (fun p q => Ok (negb (meet p q))))
  end.
