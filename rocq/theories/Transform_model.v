(* Model of transform/kronecker_power.hpp, subset.hpp, supset.hpp,
   walsh_hadamard.hpp, divisor.hpp, multiple.hpp and of
   convolution/convolution.hpp, or_/and_/xor_/gcd_/lcm_convolution.hpp,
   convolution_naive.hpp, dirichlet_convolution.hpp.  The element type and its
   operations are parameters; sizes are unbounded. *)
From Verif Require Import Base.

Section Transform.
  Context {T : Type}.
  Variables (r0 : T) (add sub mul : T -> T -> T).

  (* kronecker_power.hpp:34-47 (and 21-31, where the unit transform gets the D
     references instead of a copy; the D positions are distinct) *)
  Definition kron (D : Z) (unit_transform : list T -> res (list T)) (x : list T) : res (list T) :=
    let n := zlen x in
    loop (S (Z.to_nat n)) (fun '(block, x) =>
      if block <? n then
        let* x := loop (S (Z.to_nat n)) (fun '(l, x) =>
          if l <? n then
            let* x := for_ l (l + block) (fun offset x =>
              let* work := for_ 0 D (fun i work => let* v := vget x (offset + i * block) in vset work i v) (vrep D r0) in
              let* work := unit_transform work in
              for_ 0 D (fun i x => let* v := vget work i in vset x (offset + i * block) v) x) x in
            Ok (inl (l + D * block, x))
          else Ok (inr x)) (0, x) in
        Ok (inl (block * D, x))
      else Ok (inr x)) (1, x).

  (* kronecker_power.hpp:53-59: multiplication by the matrix A *)
  Definition mat_unit (D : Z) (A : list (list T)) (x : list T) : res (list T) :=
    for_ 0 D (fun i y => for_ 0 D (fun j y =>
      let* yi := vget y i in
      let* row := vget A i in
      let* a := vget row j in
      let* xj := vget x j in
      vset y i (add yi (mul a xj))) y) (vrep D r0).
  (* kronecker_power.hpp:49-61 *)
  Definition kron_mat (x : list T) (A : list (list T)) : res (list T) :=
    let D := zlen A in
    let* row := vget A 0 in
    assert_ (D =? zlen row) ;;;
    kron D (mat_unit D A) x.

  (* a transform of two references *)
  Definition unit2 (f : T -> T -> T * T) (x : list T) : res (list T) :=
    let* x0 := vget x 0 in
    let* x1 := vget x 1 in
    let (y0, y1) := f x0 x1 in
    let* x := vset x 0 y0 in
    vset x 1 y1.
  (* subset.hpp:9-12, 23-25 *)
  Definition subset_zeta : list T -> res (list T) := kron 2 (unit2 (fun x0 x1 => (x0, add x1 x0))).
  (* subset.hpp:14-17, 27-29 *)
  Definition subset_mobius : list T -> res (list T) := kron 2 (unit2 (fun x0 x1 => (x0, sub x1 x0))).
  (* supset.hpp:9-12, 23-25 *)
  Definition supset_zeta : list T -> res (list T) := kron 2 (unit2 (fun x0 x1 => (add x0 x1, x1))).
  (* supset.hpp:14-17, 27-29 *)
  Definition supset_mobius : list T -> res (list T) := kron 2 (unit2 (fun x0 x1 => (sub x0 x1, x1))).
  (* walsh_hadamard.hpp:9-13, 19-21 *)
  Definition walsh_hadamard : list T -> res (list T) := kron 2 (unit2 (fun y0 y1 => (add y0 y1, sub y0 y1))).
  (* walsh_hadamard.hpp:22-27 ([scale v] is div(v, n)) and 28-34 ([scale v] is
     mul(v, inv(n))), n being the size converted to T *)
  Definition walsh_hadamard_inv (scale : Z -> T -> res T) (a : list T) : res (list T) :=
    let* a := walsh_hadamard a in
    for_ 0 (zlen a) (fun i a => let* v := vget a i in let* v := scale (zlen a) v in vset a i v) a.

  (* divisor.hpp:13-18: q = 1, 2, ...; pq = p * q *)
  Definition div_cum (n p : Z) (f : list T) (is_prime : list bool) : res (list T * list bool) :=
    loop (S (Z.to_nat n)) (fun '(q, pq, f, is_prime) =>
      if pq <? n then
        let* x := vget f pq in
        let* y := vget f q in
        let* f := vset f pq (add x y) in
        let* is_prime := vset is_prime pq false in
        Ok (inl (q + 1, pq + p, f, is_prime))
      else Ok (inr (f, is_prime))) (1, p, f, is_prime).
  (* the loop over p shared by the four transforms (divisor.hpp:19, 33 etc.) *)
  Definition over_primes (n : Z) (step : Z -> list T -> list bool -> res (list T * list bool)) (f : list T) : res (list T) :=
    let* s := for_ 2 n (fun p '(f, is_prime) =>
      let* b := vget is_prime p in
      if b : bool then step p f is_prime else Ok (f, is_prime)) (f, vrep n true) in
    Ok (fst s).
  (* divisor.hpp:10-20 *)
  Definition divisor_zeta (f : list T) : res (list T) := let n := zlen f in over_primes n (div_cum n) f.
  (* divisor.hpp:26-32: q = qmax, ..., 1; pq = p * q *)
  Definition div_diff (n p : Z) (f : list T) (is_prime : list bool) : res (list T * list bool) :=
    let qmax := Z.quot (n - 1) p in
    let rmax := qmax * p in
    loop (S (Z.to_nat n)) (fun '(q, pq, f, is_prime) =>
      if 1 <=? q then
        let* x := vget f pq in
        let* y := vget f q in
        let* f := vset f pq (sub x y) in
        let* is_prime := vset is_prime pq false in
        Ok (inl (q - 1, pq - p, f, is_prime))
      else Ok (inr (f, is_prime))) (qmax, rmax, f, is_prime).
  (* divisor.hpp:23-34 *)
  Definition divisor_mobius (f : list T) : res (list T) := let n := zlen f in over_primes n (div_diff n) f.
  (* multiple.hpp:13-19 *)
  Definition mul_cum (n p : Z) (f : list T) (is_prime : list bool) : res (list T * list bool) :=
    let qmax := Z.quot (n - 1) p in
    let rmax := qmax * p in
    loop (S (Z.to_nat n)) (fun '(q, pq, f, is_prime) =>
      if 1 <=? q then
        let* x := vget f q in
        let* y := vget f pq in
        let* f := vset f q (add x y) in
        let* is_prime := vset is_prime pq false in
        Ok (inl (q - 1, pq - p, f, is_prime))
      else Ok (inr (f, is_prime))) (qmax, rmax, f, is_prime).
  (* multiple.hpp:10-21 *)
  Definition multiple_zeta (f : list T) : res (list T) := let n := zlen f in over_primes n (mul_cum n) f.
  (* multiple.hpp:27-32 *)
  Definition mul_diff (n p : Z) (f : list T) (is_prime : list bool) : res (list T * list bool) :=
    loop (S (Z.to_nat n)) (fun '(q, pq, f, is_prime) =>
      if pq <? n then
        let* x := vget f q in
        let* y := vget f pq in
        let* f := vset f q (sub x y) in
        let* is_prime := vset is_prime pq false in
        Ok (inl (q + 1, pq + p, f, is_prime))
      else Ok (inr (f, is_prime))) (1, p, f, is_prime).
  (* multiple.hpp:24-34 *)
  Definition multiple_mobius (f : list T) : res (list T) := let n := zlen f in over_primes n (mul_diff n) f.

  (* convolution.hpp:11-19 *)
  Definition transform_convolution (transform inv_transform : list T -> res (list T)) (a b : list T) : res (list T) :=
    let n := zlen a in
    assert_ (n =? zlen b) ;;;
    let* a := transform a in
    let* b := transform b in
    let* a := for_ 0 n (fun i a => let* x := vget a i in let* y := vget b i in vset a i (mul x y)) a in
    inv_transform a.
  (* or_convolution.hpp:14-21, and_convolution.hpp:14-21, gcd_convolution.hpp:14-21, lcm_convolution.hpp:14-21 *)
  Definition or_convolution := transform_convolution subset_zeta subset_mobius.
  Definition and_convolution := transform_convolution supset_zeta supset_mobius.
  Definition gcd_convolution := transform_convolution multiple_zeta multiple_mobius.
  Definition lcm_convolution := transform_convolution divisor_zeta divisor_mobius.
  (* xor_convolution.hpp:16-40 *)
  Definition xor_convolution (scale : Z -> T -> res T) := transform_convolution walsh_hadamard (walsh_hadamard_inv scale).

  (* convolution_naive.hpp:8-17; vector of size n + m - 1 converted to size_t:
     both empty asks for 2^64 - 1 elements (an exception), modelled as Abort *)
  Definition convolution_naive (a b : list T) : res (list T) :=
    let n := zlen a in let m := zlen b in
    assert_ (0 <=? n + m - 1) ;;;
    let c := vrep (n + m - 1) r0 in
    let acc i j c := (let* ai := vget a i in let* bj := vget b j in let* x := vget c (i + j) in vset c (i + j) (add x (mul ai bj))) in
    if n <? m then for_ 0 m (fun j c => for_ 0 n (fun i c => acc i j c) c) c
    else for_ 0 n (fun i c => for_ 0 m (fun j c => acc i j c) c) c.

  (* dirichlet_convolution.hpp:10-20 *)
  Definition dirichlet_convolution (a b : list T) (n : Z) : res (list T) :=
    let c := vrep n r0 in
    let m := Z.min (zlen a) n in let k := Z.min (zlen b) n in
    for_ 1 m (fun i c =>
      let jmax := Z.min (Z.quot (n + i - 1) i) k in
      for_ 1 jmax (fun j c =>
        let* ai := vget a i in let* bj := vget b j in
        let* x := vget c (i * j) in vset c (i * j) (add x (mul ai bj))) c) c.

  (* dirichlet_convolution.hpp:23-38; dp[i].reserve has no effect on values *)
  Definition dirichlet_convolution_coprime (a b : list T) (n : Z) : res (list T) :=
    let c := vrep n r0 in
    let m := Z.min (zlen a) n in let k := Z.min (zlen b) n in
    let dp := vrep m ([] : list Z) in
    let* s := for_ 1 m (fun i '(dp, c) =>
      let jmax := Z.min (Z.quot (n + i - 1) i) k in
      let* row := vget dp i in
      let* dp := vset dp i (row ++ [i]) in
      for_ 1 jmax (fun j '(dp, c) =>
        let* g := (if j <? i then let* r := vget dp (i - j) in vget r j else let* r := vget dp i in vget r (j - i)) in
        let* row := vget dp i in
        let* dp := vset dp i (row ++ [g]) in
        if g =? 1 then
          let* ai := vget a i in let* bj := vget b j in
          let* x := vget c (i * j) in let* c := vset c (i * j) (add x (mul ai bj)) in
          Ok (dp, c)
        else Ok (dp, c)) (dp, c)) (dp, c) in
    Ok (snd s).
End Transform.
