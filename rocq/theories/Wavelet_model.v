(* Model of datastructure/wavelet_matrix.hpp.  Values of the unsigned type T are integers,
   MAX is 2^bit_num - 1; [width] is the number of bits of T after integer promotion, and a
   shift by that many bits or more is undefined behaviour. *)
From Verif Require Import Base BitVector_model.

Record wavelet := WM { wm_n : Z; wm_bv : list bitvec; wm_mid : list Z }.

Section Wavelet.
  Variables width bit_num : Z.
  Definition bit_of (v log : Z) : bool := negb (Z.land (Z.shiftr v log) 1 =? 0).
  Definition MAX : Z := 2 ^ bit_num - 1.

  (* wavelet_matrix.hpp:29-43 *)
  Definition wm_build (n : Z) (gen : Z -> res Z) : res wavelet :=
    let* a := for_ 0 n (fun i a => let* x := gen i in vset a i x) (vrep n 0) in
    let* (a, l, r, bv, mid) := ford_ bit_num 0 (fun log1 '(a, l, r, bv, mid) =>
      let log := log1 - 1 in
      let* b := bv_make n (fun i => let* x := vget a i in Ok (bit_of x log)) in
      let* bv := vset bv log b in
      let* (li, ri, l, r) := for_ 0 n (fun i '(li, ri, l, r) =>
        let* x := vget a i in
        if bit_of x log then let* r := vset r ri x in Ok (li, ri + 1, l, r)
        else let* l := vset l li x in Ok (li + 1, ri, l, r)) (0, 0, l, r) in
      let '(a, l) := (l, a) in
      let* a := for_ 0 ri (fun i a => let* x := vget r i in vset a (li + i) x) a in
      let* mid := vset mid log li in
      Ok (a, l, r, bv, mid)) (a, vrep n 0, vrep n 0, vrep bit_num (bv_new 0), vrep bit_num 0) in
    Ok (WM n bv mid).
  (* wavelet_matrix.hpp:23-25 *)
  Definition wm_make (a : list Z) : res wavelet := wm_build (zlen a) (vget a).

  (* wavelet_matrix.hpp:46-58 *)
  Definition wm_access (w : wavelet) (i : Z) : res Z :=
    let* s := ford_ bit_num 0 (fun log1 '(res, i) =>
      let log := log1 - 1 in
      let* v := vget (wm_bv w) log in
      let* b := bv_access v i in
      let* m := vget (wm_mid w) log in
      let* k := bv_rank v b i in
      Ok (Z.lor res (Z.shiftl (Z.b2z b) log), Z.b2z b * m + k)) (0, i) in
    Ok (fst s).

  (* wavelet_matrix.hpp:175-178 *)
  Definition succ_ (w : wavelet) (l r : Z) (b : bool) (log : Z) : res (Z * Z) :=
    let* m := vget (wm_mid w) log in
    let* v := vget (wm_bv w) log in
    let* x := bv_rank v b l in
    let* y := bv_rank v b r in
    Ok (Z.b2z b * m + x, Z.b2z b * m + y).
  (* wavelet_matrix.hpp:180-182 *)
  Definition check_value_bounds (val : Z) : res unit :=
    if width <=? bit_num then UB else assert_ (Z.shiftr val bit_num =? 0).

  (* wavelet_matrix.hpp:61-66 *)
  Definition wm_rank (w : wavelet) (val i : Z) : res Z :=
    check_value_bounds val ;;;
    let* (l, r) := ford_ bit_num 0 (fun log1 '(l, r) => succ_ w l r (bit_of val (log1 - 1)) (log1 - 1)) (0, i) in
    Ok (r - l).

  (* wavelet_matrix.hpp:69-82 *)
  Definition range_xor_kth_smallest (w : wavelet) (l r k x default_value : Z) : res Z :=
    if (k <? 0) || (r - l <=? k) then Ok default_value else
    check_value_bounds x ;;;
    let* (l, r, k, res) := ford_ bit_num 0 (fun log1 '(l, r, k, res) =>
      let log := log1 - 1 in
      let z := bit_of x log in
      let* v := vget (wm_bv w) log in
      let* cnt_z := bv_rank_range v z l r in
      let skip_z := cnt_z <=? k in
      let bit := xorb z skip_z in
      let* (l, r) := succ_ w l r bit log in
      Ok (l, r, k - Z.b2z skip_z * cnt_z, Z.lor res (Z.shiftl (Z.b2z bit) log))) (l, r, k, 0) in
    Ok res.
  (* wavelet_matrix.hpp:84-86 *)
  Definition range_xor_kth_largest (w : wavelet) (l r k x default_value : Z) : res Z :=
    range_xor_kth_smallest w l r (r - l - 1 - k) x default_value.
  (* wavelet_matrix.hpp:88-96; T(-1) is the parameter's default value *)
  Definition range_xor_min (w : wavelet) (l r x : Z) : res Z :=
    assert_ (l <? r) ;;; range_xor_kth_smallest w l r 0 x (2 ^ width - 1).
  Definition range_xor_max (w : wavelet) (l r x : Z) : res Z :=
    assert_ (l <? r) ;;; range_xor_kth_largest w l r 0 x (2 ^ width - 1).

  (* wavelet_matrix.hpp:99-110 *)
  Definition range_xor_freq (w : wavelet) (l r x upper : Z) : res Z :=
    if r <=? l then Ok 0 else
    if MAX <? upper then Ok (r - l) else
    check_value_bounds x ;;;
    let* (l, r, res) := ford_ bit_num 0 (fun log1 '(l, r, res) =>
      let log := log1 - 1 in
      let z := bit_of x log in
      let u := bit_of upper log in
      let* res := (if u then let* v := vget (wm_bv w) log in let* c := bv_rank_range v z l r in Ok (res + c) else Ok res) in
      let* (l, r) := succ_ w l r (xorb z u) log in
      Ok (l, r, res)) (l, r, 0) in
    Ok res.
  (* wavelet_matrix.hpp:112-115 *)
  Definition range_xor_freq2 (w : wavelet) (l r x lower upper : Z) : res Z :=
    if upper <=? lower then Ok 0 else
    let* a := range_xor_freq w l r x upper in
    let* b := range_xor_freq w l r x lower in
    Ok (a - b).

  (* wavelet_matrix.hpp:118-121 *)
  Definition range_xor_min_geq (w : wavelet) (l r x lower default_value : Z) : res Z :=
    let* cnt := range_xor_freq w l r x lower in
    if r - l <=? cnt then Ok default_value else range_xor_kth_smallest w l r cnt x (2 ^ width - 1).
  (* wavelet_matrix.hpp:123-125 *)
  Definition range_xor_min_gt (w : wavelet) (l r x lower default_value : Z) : res Z :=
    if lower =? MAX then Ok default_value else range_xor_min_geq w l r x (lower + 1) default_value.
  (* wavelet_matrix.hpp:127-130 *)
  Definition range_xor_max_lt (w : wavelet) (l r x upper default_value : Z) : res Z :=
    let* cnt := range_xor_freq w l r x upper in
    if cnt =? 0 then Ok default_value else range_xor_kth_smallest w l r (cnt - 1) x default_value.
  (* wavelet_matrix.hpp:132-135 *)
  Definition range_xor_max_leq (w : wavelet) (l r x upper default_value : Z) : res Z :=
    if r <=? l then Ok default_value else
    if upper =? MAX then range_xor_max w l r x else range_xor_max_lt w l r x (upper + 1) default_value.

  (* wavelet_matrix.hpp:138-159: the versions without x pass x = 0 *)
  Definition range_kth_smallest w l r k d := range_xor_kth_smallest w l r k 0 d.
  Definition range_kth_largest w l r k d := range_xor_kth_largest w l r k 0 d.
  Definition range_min w l r := range_xor_min w l r 0.
  Definition range_max w l r := range_xor_max w l r 0.
  Definition range_freq w l r upper := range_xor_freq w l r 0 upper.
  Definition range_freq2 w l r lower upper := range_xor_freq2 w l r 0 lower upper.
  Definition range_min_geq w l r lower d := range_xor_min_geq w l r 0 lower d.
  Definition range_min_gt w l r lower d := range_xor_min_gt w l r 0 lower d.
  Definition range_max_lt w l r upper d := range_xor_max_lt w l r 0 upper d.
  Definition range_max_leq w l r upper d := range_xor_max_leq w l r 0 upper d.
End Wavelet.
