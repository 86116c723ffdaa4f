(* C31 and C32: Manacher and Morris-Pratt *)
From Verif Require Import Base Seq Strings_model Strings_spec Strings_proof Strings_proof2.
From Coq Require Import Sorted.

(* C31.  For every sequence and every dummy element (even one that occurs in it): odd_length(i)
   is the length of the longest palindrome centred at i, even_length(i) that of the longest one
   centred between i-1 and i. *)
Theorem manacher_correct :
  forall (T : Type) (eqb : T -> T -> bool), (forall x y, eqb x y = true <-> x = y) ->
  forall (s : list T) (dummy : T), exists r, manacher eqb s dummy = Ok r /\ zlen r = 2 * zlen s + 1 /\
    (forall i, 0 <= i < zlen s -> exists len, odd_length r i = Ok len /\ longest_odd s i len) /\
    (forall i, 0 <= i <= zlen s -> exists len, even_length r i = Ok len /\ longest_even s i len).
Proof. exact @manacher_ok. Qed.
Print Assumptions manacher_correct.

Example manacher_example :
  (forall x y, Z.eqb x y = true <-> x = y) /\
  exists r, manacher Z.eqb [1; 2; 1; 2; 2; 1; 3] 2 = Ok r /\
    map (odd_length r) [0; 1; 2; 3; 4; 5; 6] = map Ok [1; 3; 3; 1; 1; 1; 1] /\
    map (even_length r) [0; 1; 2; 3; 4; 5; 6; 7] = map Ok [0; 0; 0; 0; 4; 0; 0; 0].
Proof. split; [exact Z.eqb_eq|]. eexists. split; [vm_compute; reflexivity|]. split; vm_compute; reflexivity. Qed.

(* C32.  The failure table: entry i is the longest proper border of the first i elements. *)
Theorem morris_pratt_correct :
  forall (T : Type) (eqb : T -> T -> bool), (forall x y, eqb x y = true <-> x = y) ->
  forall s : list T, exists mp, morris_pratt eqb s = Ok mp /\ zlen mp = zlen s + 1 /\ vget mp 0 = Ok (-1) /\
    forall i, 1 <= i <= zlen s -> exists b, vget mp i = Ok b /\ longest_border s i b.
Proof. exact @mp_correct. Qed.
Print Assumptions morris_pratt_correct.

(* C32.  all_periods lists exactly the periods (those dividing the length, if fragments are not
   accepted), in increasing order. *)
Theorem all_periods_correct :
  forall (T : Type) (eqb : T -> T -> bool), (forall x y, eqb x y = true <-> x = y) ->
  forall (s : list T) (accept_fragment : bool), exists l, all_periods eqb s accept_fragment = Ok l /\
    lists (fun p => period s p /\ (accept_fragment = true \/ zlen s mod p = 0)) l.
Proof. exact @all_periods_ok. Qed.
Print Assumptions all_periods_correct.

(* C32.  min_period is the prefix whose length is the least period. *)
Theorem min_period_correct :
  forall (T : Type) (eqb : T -> T -> bool), (forall x y, eqb x y = true <-> x = y) ->
  forall (s : list T) (accept_fragment : bool), 0 < zlen s ->
    exists p, min_period eqb s accept_fragment = Ok (slice 0 p s) /\ period s p /\ (accept_fragment = true \/ zlen s mod p = 0) /\
      forall q, period s q -> (accept_fragment = true \/ zlen s mod q = 0) -> p <= q.
Proof. exact @min_period_ok. Qed.
Print Assumptions min_period_correct.

(* C32.  On std::string, for a non-empty pattern and a text without the NUL character, the
   matcher lists exactly the positions of the pattern in the text, in increasing order. *)
Theorem matcher_correct :
  forall (T : Type) (eqb : T -> T -> bool), (forall x y, eqb x y = true <-> x = y) ->
  forall (s t : list T) (nul : T), 0 < zlen s -> (forall c, In c t -> nul <> c) ->
    exists l, matcher eqb (Some nul) s t = Ok l /\ lists (occurrence s t) l.
Proof. exact @matcher_ok. Qed.
Print Assumptions matcher_correct.

Example morris_pratt_example :
  (forall x y, Z.eqb x y = true <-> x = y) /\
  morris_pratt Z.eqb [1; 2; 1; 1; 2; 1; 2] = Ok [-1; 0; 0; 1; 1; 2; 3; 2] /\
  all_periods Z.eqb [1; 2; 1; 2; 1; 2] true = Ok [2; 4; 6] /\ all_periods Z.eqb [1; 2; 1; 2; 1; 2] false = Ok [2; 6] /\
  min_period Z.eqb [1; 2; 1; 2; 1; 2] false = Ok [1; 2] /\ min_period Z.eqb [1; 2; 1; 2; 1] false = Ok [1; 2; 1; 2; 1] /\
  matcher Z.eqb (Some 0) [1; 2; 1] [1; 2; 1; 2; 1; 1; 2; 1] = Ok [0; 2; 5].
Proof. split; [exact Z.eqb_eq|]. vm_compute. auto 10. Qed.

(* C32, failing cases: after a match the next character is compared with s[s.size()], undefined for
   a container other than std::string, and wrong when the text contains NUL; min_period of an
   empty sequence reads element 0 of an empty vector. *)
Theorem matcher_refuted :
  forall (T : Type) (eqb : T -> T -> bool), (forall x y, eqb x y = true <-> x = y) ->
  forall a b nul : T, matcher eqb None [a] [a; b] = UB /\ matcher eqb (Some nul) [a] [a; nul; b] = UB /\ min_period eqb [] true = UB.
Proof. exact @matcher_bad. Qed.
Print Assumptions matcher_refuted.
