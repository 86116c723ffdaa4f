(* A collection of segments a x + b over [lo, hi], and the least (greatest) value at a point. *)
From Verif Require Import Base LiChao_model.

Record segment := Seg { sg_lo : Z; sg_hi : Z; sg_a : Z; sg_b : Z }.
Definition covers (x : Z) (s : segment) : bool := (sg_lo s <=? x) && (x <=? sg_hi s).
Definition value_at (x : Z) (s : segment) : Z := sg_a s * x + sg_b s.
Definition values_at (x : Z) (ss : list segment) : list Z := map (value_at x) (filter (covers x) ss).
Definition least (l : list Z) : option Z := match l with [] => None | v :: l => Some (fold_left Z.min l v) end.
Definition greatest (l : list Z) : option Z := match l with [] => None | v :: l => Some (fold_left Z.max l v) end.

(* The values of the segment at the coordinates it covers are long long values, without the
   largest one (which stands for "no segment"); for maximum queries their negatives are. *)
Definition rep64 (x : Z) : bool := (- 2 ^ 63 <=? x) && (x <? 2 ^ 63).
Definition fits (neg : bool) (xs : list Z) (s : segment) : bool :=
  forallb (fun x => if covers x s then
      if neg then rep64 (- (sg_a s * x)) && rep64 (value_at x s) && (- (value_at x s) <? 2 ^ 63 - 1)
      else rep64 (sg_a s * x) && rep64 (value_at x s) && (value_at x s <? 2 ^ 63 - 1)
    else true) xs && (if neg then rep64 (- sg_a s) && rep64 (- sg_b s) else true).

(* xs: the coordinates given to the constructor.  [Abort]: the call fails its assertion;
   [UB]: outside the contract *)
Definition lc_spec (neg : bool) (xs : list Z) (ss : list segment) (o : lcop) : res (lcout * list segment) :=
  match o with
  | LcAdd lo hi a b => let s := Seg lo hi a b in if fits neg xs s then Ok (LcUnit, ss ++ [s]) else UB
  | LcLine a b => let s := Seg (- 2 ^ 63) (2 ^ 63 - 1) a b in if fits neg xs s then Ok (LcUnit, ss ++ [s]) else UB
  | LcQuery x =>
      if existsb (Z.eqb x) xs then Ok (LcAns (if neg then greatest (values_at x ss) else least (values_at x ss)), ss)
      else if existsb (fun y => x <? y) xs then Abort else UB
  end.
