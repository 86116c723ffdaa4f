(* DynamicBitSet: library/datastructure/util/dynamic_bitset.hpp
   A block is a 64-bit word, a number in [0, 2^64).  size_t values are non-negative integers;
   the size of a bitset is assumed to fit int (size() returns int), so that n + 63 does not wrap. *)
From Verif Require Import Base Bits.

(* dynamic_bitset.hpp:32-33 *)
Record dbs := DB { db_n : Z; db_b : list Z }.

(* shifts of a block; an amount outside 0..63 is undefined *)
Definition shl (b k : Z) : res Z := if (0 <=? k) && (k <? 64) then Ok (u64 (Z.shiftl b k)) else UB.
Definition shr (b k : Z) : res Z := if (0 <=? k) && (k <? 64) then Ok (Z.shiftr b k) else UB.
(* ~b, ~block(0) *)
Definition bnot (b : Z) : Z := u64 (Z.lnot b).
Definition full : Z := bnot 0.
(* __builtin_popcountll; __builtin_ctzll is Bits.ctz *)
Definition popcountll (b : Z) : Z := zlen (filter (Z.testbit b) (zrange 64)).

(* dynamic_bitset.hpp:325-331 *)
Definition block_index (i : Z) : Z := Z.shiftr i 6.
Definition bit_index (i : Z) : Z := Z.land i 63.
(* dynamic_bitset.hpp:332-349 *)
Definition get_lower_bits (b num : Z) : res Z :=
  if num =? 0 then Ok 0 else let* x := shl b (64 - num) in shr x (64 - num).
Definition mask_lower_bits (b num : Z) : res Z := get_lower_bits b num.
Definition mask_upper_bits (b num : Z) : res Z :=
  if num =? 0 then Ok 0 else let* x := shr b (64 - num) in shl x (64 - num).
Definition mask_range_bits (b l r : Z) : res Z :=
  if l <? r then let* x := shl b (64 - r) in let* x := shr x (64 - r + l) in shl x l else Ok 0.

(* dynamic_bitset.hpp:35 *)
Definition blocks_for (n : Z) : Z := Z.shiftr (n + 63) 6.
Definition db_new (n : Z) (fill : bool) : dbs := DB n (vrep (blocks_for n) (if fill then full else 0)).
(* x[i] as a value: dynamic_bitset.hpp:178-180 *)
Definition db_get (d : dbs) (i : Z) : res bool :=
  let* b := vget (db_b d) (block_index i) in let* x := shr b (bit_index i) in Ok (Z.testbit x 0).
(* x[i] as a bitref: dynamic_bitset.hpp:16-30, 181-183; [f b i] is the new block *)
Definition db_ref (f : Z -> Z -> res Z) (d : dbs) (i : Z) : res dbs :=
  let* b := vget (db_b d) (block_index i) in
  let* b := f b (bit_index i) in
  let* bs := vset (db_b d) (block_index i) b in Ok (DB (db_n d) bs).
(* dynamic_bitset.hpp:21-27 *)
Definition ref_set (b i : Z) : res Z := let* m := shl 1 i in Ok (Z.lor b m).
Definition ref_reset (b i : Z) : res Z := let* m := shl 1 i in Ok (Z.land b (bnot m)).
Definition ref_flip (b i : Z) : res Z := let* m := shl 1 i in Ok (Z.lxor b m).
Definition ref_and (v : bool) (b i : Z) : res Z := let* m := shl (Z.b2z v) i in Ok (Z.land b m).
Definition ref_or (v : bool) (b i : Z) : res Z := let* m := shl (Z.b2z v) i in Ok (Z.lor b m).
Definition ref_xor (v : bool) (b i : Z) : res Z := let* m := shl (Z.b2z v) i in Ok (Z.lxor b m).
Definition ref_assign (v : bool) (b i : Z) : res Z := if v then ref_set b i else ref_reset b i.

(* dynamic_bitset.hpp:185-229: range_set, range_reset and range_flip differ only in what they do
   to a block under a mask, [g], and to a whole block, [h] *)
Definition range_apply (g : Z -> Z -> Z) (h : Z -> Z) (d : dbs) (l r : Z) : res dbs :=
  assert_ ((l <=? r) && (r <=? db_n d)) ;;;
  if l =? r then Ok d else
  let lb := block_index l in let rb := block_index (r - 1) in
  let li := bit_index l in let ri := bit_index r in
  let ri := if ri =? 0 then 64 else ri in
  let bs := db_b d in
  if lb =? rb then
    let* m := mask_range_bits full li ri in
    let* b := vget bs lb in let* bs := vset bs lb (g b m) in Ok (DB (db_n d) bs)
  else
    let* m := mask_upper_bits full (64 - li) in
    let* b := vget bs lb in let* bs := vset bs lb (g b m) in
    let* m := mask_lower_bits full ri in
    let* b := vget bs rb in let* bs := vset bs rb (g b m) in
    let* bs := for_ (lb + 1) rb (fun i bs => let* b := vget bs i in vset bs i (h b)) bs in
    Ok (DB (db_n d) bs).
Definition range_set : dbs -> Z -> Z -> res dbs := range_apply Z.lor (fun _ => full).
Definition range_reset : dbs -> Z -> Z -> res dbs := range_apply (fun b m => Z.land b (bnot m)) (fun _ => 0).
Definition range_flip : dbs -> Z -> Z -> res dbs := range_apply Z.lxor (fun b => Z.lxor b full).
(* dynamic_bitset.hpp:230-232 *)
Definition range_update (d : dbs) (l r : Z) (v : bool) : res dbs := if v then range_set d l r else range_reset d l r.
(* dynamic_bitset.hpp:233-249 *)
Definition range_count (d : dbs) (l r : Z) : res Z :=
  assert_ ((l <=? r) && (r <=? db_n d)) ;;;
  if l =? r then Ok 0 else
  let lb := block_index l in let rb := block_index (r - 1) in
  let li := bit_index l in let ri := bit_index r in
  let ri := if ri =? 0 then 64 else ri in
  let bs := db_b d in
  if lb =? rb then
    let* m := mask_range_bits full li ri in let* b := vget bs lb in Ok (popcountll (Z.land b m))
  else
    let* m := mask_upper_bits full (64 - li) in let* b := vget bs lb in
    let c := popcountll (Z.land b m) in
    let* m := mask_lower_bits full ri in let* b := vget bs rb in
    let c := c + popcountll (Z.land b m) in
    for_ (lb + 1) rb (fun i c => let* b := vget bs i in Ok (c + popcountll b)) c.

(* vector<block>::resize(k), new elements 0 *)
Definition blocks_resize (bs : list Z) (k : Z) : list Z := firstn (Z.to_nat k) bs ++ vrep (k - zlen bs) 0.
(* dynamic_bitset.hpp:40-49 *)
Definition db_resize (d : dbs) (new_size : Z) (fill : bool) : res dbs :=
  let nb := blocks_for new_size in
  if nb <? zlen (db_b d) then Ok (DB new_size (blocks_resize (db_b d) nb)) else
  let old_size := db_n d in
  let d := DB new_size (blocks_resize (db_b d) nb) in
  if old_size <=? new_size then range_update d old_size new_size fill else Ok d.
(* dynamic_bitset.hpp:50-57 *)
Definition db_push_back (d : dbs) (v : bool) : res dbs :=
  let* d' := if negb (Z.land (db_n d) 63 =? 0) then db_ref (ref_assign v) d (db_n d)
             else Ok (DB (db_n d) (db_b d ++ [Z.b2z v])) in
  Ok (DB (db_n d' + 1) (db_b d')).
(* dynamic_bitset.hpp:58-61; popping an empty bitset is outside the contract *)
Definition db_pop_back (d : dbs) : res dbs :=
  if db_n d =? 0 then UB else
  Ok (DB (db_n d - 1) (if Z.land (db_n d) 63 =? 1 then removelast (db_b d) else db_b d)).

(* n - ((block_num() - 1) << 6): the number of bits in the last block *)
Definition last_num (d : dbs) : Z := db_n d - Z.shiftl (zlen (db_b d) - 1) 6.
Definition last_block (d : dbs) : res Z := vget (db_b d) (zlen (db_b d) - 1).
(* the loops over the blocks with an early return: None goes on *)
Definition scan {R} (lo hi : Z) (body : Z -> res (option R)) : res (option R) :=
  for_ lo hi (fun i o => match o with Some _ => Ok o | None => body i end) None.
(* the same, from hi - 1 down to lo *)
Definition scan_down {R} (hi lo : Z) (body : Z -> res (option R)) : res (option R) :=
  ford_ hi lo (fun i o => match o with Some _ => Ok o | None => body (i - 1) end) None.
(* dynamic_bitset.hpp:63-71 *)
Definition db_eq (x y : dbs) : res bool :=
  if negb (db_n x =? db_n y) then Ok false else
  if db_n x =? 0 then Ok true else
  let* o := scan 0 (zlen (db_b x) - 1) (fun i =>
    let* a := vget (db_b x) i in let* b := vget (db_b y) i in Ok (if negb (a =? b) then Some false else None)) in
  match o with
  | Some v => Ok v
  | None =>
    let num := last_num x in
    let* a := last_block x in let* b := last_block y in
    let* a := get_lower_bits a num in let* b := get_lower_bits b num in Ok (a =? b)
  end.
(* dynamic_bitset.hpp:75-86 (eq = false), 87-98 (eq = true) *)
Definition db_less (eq : bool) (x y : dbs) : res bool :=
  assert_ (db_n x =? db_n y) ;;;
  if db_n x =? 0 then Ok eq else
  let num := last_num x in
  let* a := last_block x in let* b := last_block y in
  let* tx := get_lower_bits a num in let* ty := get_lower_bits b num in
  if negb (tx =? ty) then Ok (tx <? ty) else
  let* o := scan_down (zlen (db_b x) - 1) 0 (fun i =>
    let* a := vget (db_b x) i in let* b := vget (db_b y) i in Ok (if negb (a =? b) then Some (a <? b) else None)) in
  Ok (match o with Some v => v | None => eq end).
(* dynamic_bitset.hpp:108-122 *)
Definition db_blockwise (f : Z -> Z -> Z) (x y : dbs) : res dbs :=
  assert_ (db_n x =? db_n y) ;;;
  let* bs := for_ 0 (zlen (db_b y)) (fun i bs =>
    let* a := vget bs i in let* b := vget (db_b y) i in vset bs i (f a b)) (db_b x) in
  Ok (DB (db_n x) bs).

(* dynamic_bitset.hpp:133-149 *)
Definition db_shl (x : dbs) (shamt : Z) : res dbs :=
  if db_n x <=? shamt then Ok (db_new (db_n x) false) else
  let bsh := Z.shiftr shamt 6 in let k := Z.land shamt 63 in
  let res := db_b (db_new (db_n x) false) in
  let nb := zlen res in
  let* bs := for_ 0 (nb - bsh) (fun i bs =>
    let* a := vget (db_b x) i in
    if k =? 0 then vset bs (i + bsh) a else
    let* w := shl a k in let* c := vget bs (i + bsh) in let* bs := vset bs (i + bsh) (Z.lor c w) in
    if negb (i + bsh + 1 =? nb) then
      let* w := shr a (64 - k) in let* c := vget bs (i + bsh + 1) in vset bs (i + bsh + 1) (Z.lor c w)
    else Ok bs) res in
  Ok (DB (db_n x) bs).
(* dynamic_bitset.hpp:150-167 *)
Definition db_shr (x : dbs) (shamt : Z) : res dbs :=
  if db_n x <=? shamt then Ok (db_new (db_n x) false) else
  let bsh := Z.shiftr shamt 6 in let k := Z.land shamt 63 in
  let nb := zlen (db_b x) in
  let* bs := for_ 0 (nb - bsh) (fun i bs =>
    let* a := vget (db_b x) (i + bsh) in
    if k =? 0 then vset bs i a else
    let* w := shr a k in let* c := vget bs i in let* bs := vset bs i (Z.lor c w) in
    if negb (i + bsh + 1 =? nb) then
      let* a := vget (db_b x) (i + bsh + 1) in
      let* w := shl a (64 - k) in let* c := vget bs i in vset bs i (Z.lor c w)
    else Ok bs) (db_b (db_new (db_n x) false)) in
  range_reset (DB (db_n x) bs) (db_n x - shamt) (db_n x).
(* dynamic_bitset.hpp:169-173 *)
Definition db_not (x : dbs) : res dbs :=
  let* bs := for_ 0 (zlen (db_b x)) (fun i bs => let* a := vget (db_b x) i in vset bs i (bnot a)) (db_b (db_new (db_n x) false)) in
  Ok (DB (db_n x) bs).

(* dynamic_bitset.hpp:251-256 *)
Definition db_fill (d : dbs) (v : bool) : dbs := DB (db_n d) (map (fun _ => if v then full else 0) (db_b d)).
(* dynamic_bitset.hpp:257-266; the assert is assert(num) *)
Definition db_all (d : dbs) : res bool :=
  if db_n d =? 0 then Ok true else
  let* o := scan 0 (zlen (db_b d) - 1) (fun i =>
    let* a := vget (db_b d) i in Ok (if negb (a =? full) then Some false else None)) in
  match o with
  | Some v => Ok v
  | None =>
    let num := last_num d in
    assert_ (negb (num =? 0)) ;;;
    let* u := shl 1 (64 - num) in
    let* upper := shl (u64 (u - 1)) num in
    let* b := last_block d in
    Ok (Z.lor upper b =? full)
  end.
(* dynamic_bitset.hpp:267-274 *)
Definition db_none (d : dbs) : res bool :=
  if db_n d =? 0 then Ok true else
  let* o := scan 0 (zlen (db_b d) - 1) (fun i =>
    let* a := vget (db_b d) i in Ok (if negb (a =? 0) then Some false else None)) in
  match o with
  | Some v => Ok v
  | None => let* b := last_block d in let* b := get_lower_bits b (last_num d) in Ok (b =? 0)
  end.
(* dynamic_bitset.hpp:278-286 *)
Definition db_count (d : dbs) : res Z :=
  if db_n d =? 0 then Ok 0 else
  let* c := for_ 0 (zlen (db_b d) - 1) (fun i c => let* a := vget (db_b d) i in Ok (c + popcountll a)) 0 in
  let* b := last_block d in let* b := get_lower_bits b (last_num d) in
  Ok (c + popcountll b).

(* dynamic_bitset.hpp:289-295 *)
Definition db_find_first (d : dbs) : res Z :=
  if db_n d =? 0 then Ok (db_n d) else
  let* o := scan 0 (zlen (db_b d)) (fun i =>
    let* a := vget (db_b d) i in
    Ok (if negb (a =? 0) then Some (Z.min (db_n d) (Z.lor (ctz a) (Z.shiftl i 6))) else None)) in
  Ok (match o with Some r => r | None => db_n d end).
(* dynamic_bitset.hpp:297-306 *)
Definition db_find_next (d : dbs) (pos : Z) : res Z :=
  let pos := pos + 1 in
  let i := block_index pos in
  if zlen (db_b d) <=? i then Ok (db_n d) else
  let* b := vget (db_b d) i in
  let* upper := mask_upper_bits b (64 - bit_index pos) in
  if negb (upper =? 0) then Ok (Z.min (db_n d) (Z.lor (ctz upper) (Z.shiftl i 6))) else
  let* o := scan (i + 1) (zlen (db_b d)) (fun i =>
    let* a := vget (db_b d) i in
    Ok (if negb (a =? 0) then Some (Z.min (db_n d) (Z.lor (ctz a) (Z.shiftl i 6))) else None)) in
  Ok (match o with Some r => r | None => db_n d end).
(* dynamic_bitset.hpp:308-316: called on the smaller of the two *)
Definition intersects (x y : dbs) : res bool :=
  if db_n x =? 0 then Ok false else
  let* o := scan 0 (zlen (db_b x) - 1) (fun i =>
    let* a := vget (db_b x) i in let* b := vget (db_b y) i in Ok (if negb (Z.land a b =? 0) then Some true else None)) in
  match o with
  | Some v => Ok v
  | None =>
    let* a := last_block x in let* a := get_lower_bits a (last_num x) in
    let* b := vget (db_b y) (zlen (db_b x) - 1) in
    Ok (negb (Z.land a b =? 0))
  end.
Definition db_has_intersection (x y : dbs) : res bool :=
  if db_n y <? db_n x then intersects y x else intersects x y.

(* The public interface on a collection of bitsets, numbered from 0; calls that return a bitset
   add it to the collection. *)
Inductive dop :=
  | DNew (n : Z) (fill : bool) | DSize (x : Z) | DEmpty (x : Z) | DResize (x n : Z) (fill : bool) | DPush (x : Z) (v : bool) | DPop (x : Z)
  | DGet (x i : Z) | DAssign (x i : Z) (v : bool) | DOrBit (x i : Z) (v : bool) | DXorBit (x i : Z) (v : bool) | DFlip (x i : Z)
  | DEq (x y : Z) | DNe (x y : Z) | DLt (x y : Z) | DLe (x y : Z) | DGt (x y : Z) | DGe (x y : Z)
  | DAnd (x y : Z) | DOr (x y : Z) | DXor (x y : Z) | DShl (x k : Z) | DShr (x k : Z) | DNot (x : Z)
  | DRangeSet (x l r : Z) | DRangeReset (x l r : Z) | DRangeFlip (x l r : Z) | DRangeCount (x l r : Z)
  | DSetAll (x : Z) | DResetAll (x : Z) | DAll (x : Z) | DNone (x : Z) | DAny (x : Z) | DCount (x : Z)
  | DFindFirst (x : Z) | DFindNext (x pos : Z) | DMeets (x y : Z) | DDisjoint (x y : Z).
Inductive dret := DUnit | DBool (b : bool) | DNum (n : Z).

Definition upd_at {A} (s : list A) (x : Z) (f : A -> res A) : res (dret * list A) :=
  let* d := vget s x in let* d := f d in let* s := vset s x d in Ok (DUnit, s).
Definition ask_bool {A} (s : list A) (r : res bool) : res (dret * list A) := let* b := r in Ok (DBool b, s).
Definition ask_num {A} (s : list A) (r : res Z) : res (dret * list A) := let* b := r in Ok (DNum b, s).
Definition with2 {A R} (s : list A) (x y : Z) (f : A -> A -> res R) : res R :=
  let* a := vget s x in let* b := vget s y in f a b.
Definition negr (r : res bool) : res bool := let* b := r in Ok (negb b).

(* dynamic_bitset.hpp:35-320; > and >= are the negations of <= and < (99-104) *)
Definition db_step (s : list dbs) (o : dop) : res (dret * list dbs) :=
  match o with
  | DNew n fill => Ok (DUnit, s ++ [db_new n fill])
  | DSize x => ask_num s (let* d := vget s x in Ok (db_n d))
  | DEmpty x => ask_bool s (let* d := vget s x in Ok (db_n d =? 0))
  | DResize x n fill => upd_at s x (fun d => db_resize d n fill)
  | DPush x v => upd_at s x (fun d => db_push_back d v)
  | DPop x => upd_at s x db_pop_back
  | DGet x i => ask_bool s (let* d := vget s x in db_get d i)
  | DAssign x i v => upd_at s x (fun d => db_ref (ref_assign v) d i)
  | DOrBit x i v => upd_at s x (fun d => db_ref (ref_or v) d i)
  | DXorBit x i v => upd_at s x (fun d => db_ref (ref_xor v) d i)
  | DFlip x i => upd_at s x (fun d => db_ref ref_flip d i)
  | DEq x y => ask_bool s (with2 s x y db_eq)
  | DNe x y => ask_bool s (negr (with2 s x y db_eq))
  | DLt x y => ask_bool s (with2 s x y (db_less false))
  | DLe x y => ask_bool s (with2 s x y (db_less true))
  | DGt x y => ask_bool s (negr (with2 s x y (db_less true)))
  | DGe x y => ask_bool s (negr (with2 s x y (db_less false)))
  | DAnd x y => let* b := vget s y in upd_at s x (fun a => db_blockwise Z.land a b)
  | DOr x y => let* b := vget s y in upd_at s x (fun a => db_blockwise Z.lor a b)
  | DXor x y => let* b := vget s y in upd_at s x (fun a => db_blockwise Z.lxor a b)
  | DShl x k => upd_at s x (fun d => db_shl d k)
  | DShr x k => upd_at s x (fun d => db_shr d k)
  | DNot x => let* d := vget s x in let* d := db_not d in Ok (DUnit, s ++ [d])
  | DRangeSet x l r => upd_at s x (fun d => range_set d l r)
  | DRangeReset x l r => upd_at s x (fun d => range_reset d l r)
  | DRangeFlip x l r => upd_at s x (fun d => range_flip d l r)
  | DRangeCount x l r => ask_num s (let* d := vget s x in range_count d l r)
  | DSetAll x => upd_at s x (fun d => Ok (db_fill d true))
  | DResetAll x => upd_at s x (fun d => Ok (db_fill d false))
  | DAll x => ask_bool s (let* d := vget s x in db_all d)
  | DNone x => ask_bool s (let* d := vget s x in db_none d)
  | DAny x => ask_bool s (negr (let* d := vget s x in db_none d))
  | DCount x => ask_num s (let* d := vget s x in db_count d)
  | DFindFirst x => ask_num s (let* d := vget s x in db_find_first d)
  | DFindNext x pos => ask_num s (let* d := vget s x in db_find_next d pos)
  | DMeets x y => ask_bool s (with2 s x y db_has_intersection)
  | DDisjoint x y => ask_bool s (negr (with2 s x y db_has_intersection))
  end.
