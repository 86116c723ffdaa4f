(* number/mobius_function.hpp: class MobiusFunction<N>; int and long long are unbounded *)
From Verif Require Import Base Sieve_model.
(* library/number/mobius_function.hpp:63-65 *)
Record mobf := MF { mf_n : Z; mf_mpf : list Z; mf_dat : list Z }.
(* library/number/mobius_function.hpp:13-25.  The inner loop over q = 2p, 3p, ... <= N counts the multiples *)
Definition mob_new (N : Z) : res mobf :=
  let* s := for_ 2 (N + 1) (fun p (s : list Z * list Z) =>
    let '(mpf, dat) := s in
    let* x := vget mpf p in
    if negb (x =? 0) then Ok s else                                        (* line 17 *)
    let* mpf := vset mpf p p in
    let* dat := vset dat p (-1) in
    for_ 2 (N / p + 1) (fun k (s : list Z * list Z) =>                     (* line 20 *)
      let '(mpf, dat) := s in
      let q := p * k in
      let* y := vget mpf q in
      let* mpf := (if y =? 0 then vset mpf q p else Ok mpf) in             (* line 21 *)
      let* d := vget dat q in
      let* dat := vset dat q (if Z.rem q (p * p) =? 0 then 0 else - d) in  (* line 22 *)
      Ok (mpf, dat)) (mpf, dat)) (vrep (N + 1) 0, vrep (N + 1) 1) in
  let '(mpf, dat) := s in Ok (MF N mpf dat).
(* library/number/mobius_function.hpp:27-38: operator(), operator[], mobius *)
Definition mob_at (f : mobf) (n : Z) : res Z := assert_ ((0 <? n) && (n <=? mf_n f)) ;;; vget (mf_dat f) n.
(* library/number/mobius_function.hpp:40-43 *)
Definition mob_mpf (f : mobf) (n : Z) : res Z := assert_ ((2 <=? n) && (n <=? mf_n f)) ;;; vget (mf_mpf f) n.
(* library/number/mobius_function.hpp:48-57; the inner do-while is that of LinearSieve *)
Definition mob_factorize (f : mobf) (n : Z) : res (list (Z * Z)) :=
  assert_ ((0 <? n) && (n <=? mf_n f)) ;;;
  loop (S (Z.to_nat n)) (fun '(n, out) =>
    if 1 <? n then
      let* p := vget (mf_mpf f) n in
      let* (n, c) := strip n p in
      Ok (inl (n, out ++ [(p, c)]))
    else Ok (inr out)) (n, []).
(* library/number/mobius_function.hpp:58-61 *)
Definition mob_is_prime (f : mobf) (n : Z) : res bool :=
  assert_ (n <=? mf_n f) ;;; if 2 <=? n then let* p := vget (mf_mpf f) n in Ok (p =? n) else Ok false.
