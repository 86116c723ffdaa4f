(* Model of number/linear_sieve.hpp.  int is unbounded (all values stay <= n). *)
From Verif Require Import Base.

Record sieve := mkSieve { sv_n : Z; sv_mpf : list Z; sv_primes : list Z }.
(* linear_sieve.hpp:20-23: the range-for with its break *)
Fixpoint mark_multiples (primes : list Z) (prime_max d : Z) (mpf : list Z) : res (list Z) :=
  match primes with
  | [] => Ok mpf
  | prime :: rest =>
      if prime_max <? prime then Ok mpf
      else let* mpf := vset mpf (prime * d) prime in mark_multiples rest prime_max d mpf
  end.
(* linear_sieve.hpp:13-25; a negative size n + 1 throws (Abort); reserve is not modelled *)
Definition sieve_make (n : Z) : res sieve :=
  assert_ (0 <=? n + 1) ;;;
  let* s := for_ 2 (n + 1) (fun d '(mpf, primes) =>
    let* x := vget mpf d in
    let primes := if x =? d then primes ++ [d] else primes in
    let prime_max := Z.min x (Z.quot n d) in
    let* mpf := mark_multiples primes prime_max d mpf in
    Ok (mpf, primes)) (zrange (n + 1), []) in
  Ok (mkSieve n (fst s) (snd s)).
(* linear_sieve.hpp:26-34 *)
Definition prime_num (s : sieve) : Z := zlen (sv_primes s).
Definition get_prime_list (s : sieve) : list Z := sv_primes s.
Definition get_min_prime_factor (s : sieve) : list Z := sv_mpf s.
(* the do-while of linear_sieve.hpp:44; n % 0 is undefined *)
Definition strip (n p : Z) : res (Z * Z) :=
  loop (S (Z.to_nat n)) (fun '(n, c) =>
    if p =? 0 then UB else
    let n := Z.quot n p in let c := c + 1 in
    if Z.rem n p =? 0 then Ok (inl (n, c)) else Ok (inr (n, c))) (n, 0).
(* linear_sieve.hpp:39-48 *)
Definition sv_factorize (s : sieve) (n : Z) : res (list (Z * Z)) :=
  assert_ ((0 <? n) && (n <=? sv_n s)) ;;;
  loop (S (Z.to_nat n)) (fun '(n, out) =>
    if 1 <? n then
      let* p := vget (sv_mpf s) n in
      let* (n, c) := strip n p in
      Ok (inl (n, out ++ [(p, c)]))
    else Ok (inr out)) (n, []).
