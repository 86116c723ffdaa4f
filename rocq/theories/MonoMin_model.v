(* Model of library/algorithm/monotone_minima.hpp and library/convolution/min_plus_convolution.hpp.
   size_t and int indices are unbounded; elements are unbounded integers. *)
From Verif Require Import Base.

Section Mono.
  Variable compare : Z -> Z -> Z -> res bool.   (* (row, col1, col2) *)
  (* monotone_minima.hpp:21 *)
  Definition mm_scan (row col am : Z) : res Z := let* c := compare row am col in Ok (if negb c then col else am).
  (* monotone_minima.hpp:16-25; [fuel] bounds the depth of the recursion *)
  Fixpoint mm_rec (fuel : nat) (u d l r : Z) (rs : list Z) : res (list Z) :=
    match fuel with
    | O => OutOfFuel
    | S fuel =>
        if u =? d then Ok rs else
        assert_ (l <? r) ;;;
        let row := (u + d) / 2 in
        let* argmin := for_ (l + 1) r (mm_scan row) l in
        let* rs := vset rs row argmin in
        let* rs := mm_rec fuel u row l (argmin + 1) rs in
        mm_rec fuel (row + 1) d argmin r rs
    end.
  (* monotone_minima.hpp:15-28 *)
  Definition monotone_minima (n m : Z) : res (list Z) := mm_rec (S (Z.to_nat n)) 0 n 0 m (vrep n 0).
End Mono.
(* monotone_minima.hpp:37-39 *)
Definition monotone_minima_matrix (n m : Z) (matrix : Z -> Z -> Z) : res (list Z) :=
  monotone_minima (fun i j1 j2 => Ok (matrix i j1 <=? matrix i j2)) n m.

(* min_plus_convolution.hpp:17, 19 and 41 *)
Definition check_convex (a : list Z) : res unit :=
  for_ 2 (zlen a) (fun i _ =>
    let* x1 := vget a (i - 1) in let* x2 := vget a (i - 2) in let* x := vget a i in let* x1' := vget a (i - 1) in
    assert_ (x1 - x2 <=? x - x1') ;;; Ok tt) tt.
(* min_plus_convolution.hpp:23-30; state c, i *)
Definition cc_body (a b : list Z) (n m : Z) (k : Z) (st : list Z * Z) : res (list Z * Z) :=
  let '(c, i) := st in
  let j := k - i in
  let* go := (if j =? m - 1 then Ok true else
                if i <? n - 1 then
                  let* p := vget a (i + 1) in let* q := vget b j in let* p' := vget a i in let* q' := vget b (j + 1) in Ok (p + q <? p' + q')
                else Ok false) in
  if go then let* p := vget a (i + 1) in let* q := vget b j in let* c := vset c (k + 1) (p + q) in Ok (c, i + 1)
  else let* p := vget a i in let* q := vget b (j + 1) in let* c := vset c (k + 1) (p + q) in Ok (c, i).
(* min_plus_convolution.hpp:12-33 *)
Definition min_plus_convex_convex (a b : list Z) : res (list Z) :=
  let n := zlen a in let m := zlen b in
  assert_ (negb (n =? 0) && negb (m =? 0)) ;;;
  let* _ := check_convex a in
  let* _ := check_convex b in
  let* p := vget a 0 in let* q := vget b 0 in
  let* c := vset (vrep (n + m - 1) 0) 0 (p + q) in
  let* (c, _) := for_ 0 (n + m - 2) (cc_body a b n m) (c, 0) in
  Ok c.
(* min_plus_convolution.hpp:45-52 *)
Definition ca_cmp (a b : list Z) (n : Z) (k j1 j2 : Z) : res bool :=
  let i1 := k - j1 in let i2 := k - j2 in
  if i2 <? 0 then Ok true else if n <=? i1 then Ok false else
  let* p := vget a i1 in let* q := vget b j1 in let* p' := vget a i2 in let* q' := vget b j2 in
  Ok (p + q <? p' + q').
(* min_plus_convolution.hpp:36-59 *)
Definition min_plus_convex_arbitrary (a b : list Z) : res (list Z) :=
  let n := zlen a in let m := zlen b in
  assert_ (negb (n =? 0) && negb (m =? 0)) ;;;
  let* _ := check_convex a in
  let* argmin := monotone_minima (ca_cmp a b n) (n + m - 1) m in
  for_ 0 (n + m - 1) (fun k c =>
    let* j := vget argmin k in let i := k - j in
    let* p := vget a i in let* q := vget b j in
    vset c k (p + q)) (vrep (n + m - 1) 0).
