(* Matrices over F2: library/linear_algebra/matrix_f2.hpp and
   library/linear_algebra/gaussian_elimination_f2.hpp
   A DynamicBitSet is rendered here by the list of its bits (its packed representation is the
   subject of DynBitset_model.v); a MatrixF2 by its rows, with n and m passed explicitly. *)
From Verif Require Import Base.

Notation bits := (list bool).
Notation matrix := (list (list bool)).

(* dynamic_bitset.hpp:107-121: the operands must have the same size *)
Fixpoint map2 (f : bool -> bool -> bool) (x y : bits) : bits :=
  match x, y with a :: x, b :: y => f a b :: map2 f x y | _, _ => [] end.
Definition bs_xor (x y : bits) : res bits := assert_ (zlen x =? zlen y) ;;; Ok (map2 xorb x y).
Definition bs_and (x y : bits) : res bits := assert_ (zlen x =? zlen y) ;;; Ok (map2 andb x y).
(* dynamic_bitset.hpp:270-278 *)
Definition bs_count (x : bits) : Z := zlen (filter (fun b => b) x).

(* matrix_f2.hpp:27-31 *)
Definition mf_transposed (n m : Z) (a : matrix) : res matrix :=
  for_ 0 n (fun i t => for_ 0 m (fun j t =>
    let* row := vget a i in let* v := vget row j in
    let* tr := vget t j in let* tr := vset tr i v in vset t j tr) t) (vrep m (vrep n false)).
(* matrix_f2.hpp:33-37 *)
Definition mf_add (x y : matrix) (n m n' m' : Z) : res matrix :=
  assert_ ((n =? n') && (m =? m')) ;;;
  for_ 0 n (fun i x => let* xi := vget x i in let* yi := vget y i in let* z := bs_xor xi yi in vset x i z) x.
(* matrix_f2.hpp:51-59: x is n times m, y is m' times p *)
Definition mf_mul (n m m' p : Z) (x y : matrix) : res matrix :=
  let* y := mf_transposed m' p y in
  assert_ (m =? m') ;;;
  for_ 0 n (fun i z => for_ 0 p (fun j z =>
    let* xi := vget x i in let* yj := vget y j in let* w := bs_and xi yj in
    let* zi := vget z i in let* zi := vset zi j (Z.odd (bs_count w)) in vset z i zi) z) (vrep n (vrep p false)).
(* matrix_f2.hpp:65-70 *)
Definition mf_apply (n m : Z) (a : matrix) (x : bits) : res bits :=
  assert_ (m =? zlen x) ;;;
  for_ 0 n (fun i y => let* row := vget a i in let* w := bs_and row x in vset y i (Z.odd (bs_count w))) (vrep n false).
(* matrix_f2.hpp:85-89 *)
Definition mf_e1 (n : Z) : res matrix :=
  for_ 0 n (fun i r => let* row := vget r i in let* row := vset row i true in vset r i row) (vrep n (vrep n false)).
(* matrix_f2.hpp:72-80; the loop runs once per bit of b *)
Definition mf_pow (n m : Z) (a : matrix) (b : Z) : res matrix :=
  assert_ (n =? m) ;;;
  let* e := mf_e1 n in
  loop 65 (fun '(p, r, b) =>
    if b =? 0 then Ok (inr r) else
    let* r := if Z.odd b then mf_mul n n n n r p else Ok r in
    let* p := mf_mul n n n n p p in
    Ok (inl (p, r, Z.shiftr b 1))) (a, e, b).

(* The elimination loops, for rows of any kind: [test j r] reads column j, [add] is ^=.
   In inv() a row is a row of A together with the row of B at the same index, because the
   code swaps and adds both at once. *)
Section Rows.
  Context {R : Type} (test : Z -> R -> res bool) (add : R -> R -> res R).
  (* std::swap(A[i], A[j]) *)
  Definition swap_rows (a : list R) (i j : Z) : res (list R) :=
    let* x := vget a i in let* y := vget a j in let* a := vset a i y in vset a j x.
  (* A[i] ^= A[r] *)
  Definition add_row (a : list R) (i r : Z) : res (list R) :=
    let* x := vget a i in let* y := vget a r in let* z := add x y in vset a i z.
  (* A[i][j] *)
  Definition at_ (a : list R) (i j : Z) : res bool := let* x := vget a i in test j x.
  (* matrix_f2.hpp:95-98, 111-114, 123-126; gaussian_elimination_f2.hpp:69-72 *)
  Definition clear_below (n : Z) (a : list R) (r j : Z) : res (list R) :=
    for_ (r + 1) n (fun i a =>
      let* b := at_ a i j in
      if b then
        let* a := swap_rows a r i in
        let* b := at_ a i j in
        if b then add_row a i r else Ok a
      else Ok a) a.
  (* matrix_f2.hpp:102-104 (r = i); gaussian_elimination_f2.hpp:74 *)
  Definition clear_above (a : list R) (r j : Z) : res (list R) :=
    for_ 0 r (fun i a => let* b := at_ a i j in if b then add_row a i r else Ok a) a.
  (* matrix_f2.hpp:94-100, 110-116: None when a diagonal element is 0 *)
  Definition triangulate (n : Z) (a : list R) : res (option (list R)) :=
    for_ 0 n (fun i oa => match oa with
      | None => Ok None
      | Some a =>
        let* a := clear_below n a i i in
        let* d := at_ a i i in
        Ok (if d then Some a else None) end) (Some a).
End Rows.

Definition test_bits (j : Z) (r : bits) : res bool := vget r j.
Definition test_pair (j : Z) (r : bits * bits) : res bool := vget (fst r) j.
Definition add_pair (x y : bits * bits) : res (bits * bits) :=
  let* a := bs_xor (fst x) (fst y) in let* b := bs_xor (snd x) (snd y) in Ok (a, b).

(* matrix_f2.hpp:91-107 *)
Definition mf_inv (n m : Z) (a : matrix) : res (option matrix) :=
  assert_ (n =? m) ;;;
  let* e := mf_e1 n in
  let* oa := triangulate test_pair add_pair n (combine a e) in
  match oa with
  | None => Ok None
  | Some ab =>
    let* ab := ford_ n 0 (fun i ab => clear_above test_pair add_pair ab (i - 1) (i - 1)) ab in
    Ok (Some (map snd ab))
  end.
(* matrix_f2.hpp:108-118 *)
Definition mf_det (n : Z) (a : matrix) : res bool :=
  let* oa := triangulate test_bits bs_xor n a in
  Ok (match oa with Some _ => true | None => false end).
(* matrix_f2.hpp:119-130: A[r][j] is read even when r has reached n *)
Definition mf_rank (n m : Z) (a : matrix) : res Z :=
  let* (a, r) := for_ 0 m (fun j '(a, r) =>
    let* a := clear_below test_bits bs_xor n a r j in
    let* b := at_ test_bits a r j in
    Ok (a, if b then r + 1 else r)) (a, 0) in
  Ok r.

(* gaussian_elimination_f2.hpp:7-9, 56-58: _normalized, _solution, _basis *)
Record solution_space := { normalized_flag : bool; ss_solution : option bits; ss_basis : list bits }.

(* gaussian_elimination_f2.hpp:66-80: the elimination *)
Definition ge_columns (n m : Z) (a : matrix) : res (matrix * Z * list Z * list Z) :=
  loop (S (Z.to_nat m)) (fun '(a, rank, ones, zeros, j) =>
    if (rank <? n) && (j <? m) then
      let* a := clear_below test_bits bs_xor n a rank j in
      let* b := at_ test_bits a rank j in
      if b then
        let* a := clear_above test_bits bs_xor a rank j in
        Ok (inl (a, rank + 1, ones ++ [j], zeros, j + 1))
      else Ok (inl (a, rank, ones, zeros ++ [j], j + 1))
    else Ok (inr (a, rank, ones, zeros))) (a, 0, [], [], 0).
(* gaussian_elimination_f2.hpp:61-96 *)
Definition gaussian_elimination_f2 (n m : Z) (a : matrix) (b : bits) : res solution_space :=
  assert_ (n =? zlen b) ;;;
  let* a := for_ 0 n (fun i a => let* row := vget a i in let* bi := vget b i in vset a i (row ++ [bi])) a in
  let* (a, rank, ones, zeros) := ge_columns n m a in
  let* bad := for_ rank n (fun i (bad : bool) => if bad then Ok bad else at_ test_bits a i m) false in
  if bad then Ok {| normalized_flag := false; ss_solution := None; ss_basis := [] |} else
  let* solution := for_ 0 rank (fun i s => let* v := at_ test_bits a i m in let* c := vget ones i in vset s c v) (vrep m false) in
  let* basis := for_each zeros (fun j basis =>
    let* base := for_ 0 rank (fun i s => let* v := at_ test_bits a i j in let* c := vget ones i in vset s c v) (vrep m false) in
    let* base := vset base j true in
    Ok (basis ++ [base])) [] in
  Ok {| normalized_flag := false; ss_solution := Some solution; ss_basis := basis |}.

(* gaussian_elimination_f2.hpp:25-29; the comparison w < v reads the bits from the highest index down *)
Fixpoint bits_val (x : bits) : Z := match x with [] => 0 | b :: x => Z.b2z b + 2 * bits_val x end.
Definition bits_lt (x y : bits) : bool := bits_val x <? bits_val y.
Definition ss_add_base (s : solution_space) (v : bits) : res (solution_space * bool) :=
  assert_ (normalized_flag s) ;;;
  let* v := for_each (ss_basis s) (fun e v => let* w := bs_xor e v in Ok (if bits_lt w v then w else v)) v in
  Ok (if existsb (fun b => b) v
      then ({| normalized_flag := normalized_flag s; ss_solution := ss_solution s; ss_basis := ss_basis s ++ [v] |}, true)
      else (s, false)).
(* gaussian_elimination_f2.hpp:16-21, 30-33 *)
Definition ss_normalized (s : solution_space) : res solution_space :=
  let* r := for_each (ss_basis s) (fun e r => let* (r, _) := ss_add_base r e in Ok r)
              {| normalized_flag := false; ss_solution := ss_solution s; ss_basis := [] |} in
  Ok {| normalized_flag := true; ss_solution := ss_solution r; ss_basis := ss_basis r |}.
