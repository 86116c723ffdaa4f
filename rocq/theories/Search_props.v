(* C39: binary and ternary search.  [B] is 2^31 for int, 2^63 for long long. *)
From Verif Require Import Base Search_model Search_proof.

(* C39.  For a predicate that stays true once true, binary_search returns the first place where it
   is true.  The distance of the two arguments must be a value of the type. *)
Theorem binary_search_finds_boundary :
  forall B f l r, - B <= l -> r < B -> r - l < B -> l <= r -> f l = false -> f r = true ->
  (forall x y, l <= x -> x <= y -> y <= r -> f x = true -> f y = true) ->
  exists x, binary_search B f l r = Ok x /\ l <= x <= r /\ forall y, l <= y <= r -> (f y = true <-> x <= y).
Proof. exact binary_search_least. Qed.
Print Assumptions binary_search_finds_boundary.

(* C39.  For any predicate it still returns a place where the predicate turns from false to true. *)
Theorem binary_search_finds_a_boundary :
  forall B f l r, - B <= l -> r < B -> r - l < B -> l <= r -> f l = false -> f r = true ->
  exists x, binary_search B f l r = Ok x /\ l < x <= r /\ f x = true /\ f (x - 1) = false.
Proof. exact binary_search_ok. Qed.
Print Assumptions binary_search_finds_a_boundary.

(* C39.  Arguments that break the contract fail an assertion. *)
Theorem binary_search_rejects :
  forall B f l r, (l > r -> binary_search B f l r = Abort) /\ (l <= r -> f l = true \/ f r = false -> binary_search B f l r = Abort).
Proof. exact bs_reject. Qed.
Print Assumptions binary_search_rejects.

(* C39.  binary_search_exponential returns the boundary t as long as twice the way to it fits. *)
Theorem binary_search_exponential_finds_boundary :
  forall B f l t, - B <= l -> l < t -> f l = false -> f t = true ->
  (forall x y, l <= x -> x <= y -> f x = true -> f y = true) -> (forall y, l <= y < t -> f y = false) ->
  l + 2 * (t - 1 - l) < B -> 2 * (t - 1 - l) < B -> t < B -> 1 < B -> binary_search_exponential B f l = Ok t.
Proof. exact exp_ok. Qed.
Print Assumptions binary_search_exponential_finds_boundary.

(* C39.  ternary_search_key finds a minimum of a convex (maximum of a concave) function on [l, r],
   r not the largest value of the type. *)
Theorem ternary_search_convex :
  forall B f l r, - B <= l -> l <= r -> r < B - 1 -> r - l < B -> (forall x, l < x < r -> 2 * f x <= f (x - 1) + f (x + 1)) ->
  exists x, ternary_convex B f l r = Ok x /\ l <= x <= r /\ forall y, l <= y <= r -> f x <= f y.
Proof. exact convex_ok. Qed.
Print Assumptions ternary_search_convex.
Theorem ternary_search_concave :
  forall B f l r, - B <= l -> l <= r -> r < B - 1 -> r - l < B -> (forall x, l < x < r -> f (x - 1) + f (x + 1) <= 2 * f x) ->
  exists x, ternary_concave B f l r = Ok x /\ l <= x <= r /\ forall y, l <= y <= r -> f y <= f x.
Proof. exact concave_ok. Qed.
Print Assumptions ternary_search_concave.

(* C39.  ternary_search_value is the minimum when the values of f fit in Arg. *)
Theorem ternary_search_value_convex :
  forall B f l r, - B <= l -> l <= r -> r < B - 1 -> r - l < B -> (forall x, l < x < r -> 2 * f x <= f (x - 1) + f (x + 1)) ->
  (forall x, l <= x <= r -> - B <= f x < B) ->
  exists v, ternary_value B Z.gtb f l r = Ok v /\ (exists x, l <= x <= r /\ f x = v) /\ forall y, l <= y <= r -> v <= f y.
Proof. exact value_ok. Qed.
Print Assumptions ternary_search_value_convex.

(* Findings: (a) a search over more than half of the range of the type overflows; (b) r = INT_MAX overflows the final
   scan; (c) ternary_search_value returns Arg, so a 64-bit value is cut to an int argument type. *)
Theorem binary_search_wide_refuted : forall B f l r, l <= r -> f l = false -> f r = true -> B <= r - l -> binary_search B f l r = UB.
Proof. exact bs_wide. Qed.
Print Assumptions binary_search_wide_refuted.
Theorem ternary_search_max_refuted : ternary_convex (2 ^ 31) (fun x => - x) (2 ^ 31 - 3) (2 ^ 31 - 1) = UB.
Proof. vm_compute. reflexivity. Qed.
Print Assumptions ternary_search_max_refuted.
Theorem ternary_search_value_refuted : ternary_value (2 ^ 31) Z.gtb (fun x => x * x + 2 ^ 31) (-5) 5 = Ok (- 2 ^ 31).
Proof. vm_compute. reflexivity. Qed.
Print Assumptions ternary_search_value_refuted.

Example search_example :
  binary_search (2 ^ 31) (fun x => 30 <=? x * x) 0 100 = Ok 6 /\ binary_search_exponential (2 ^ 31) (fun x => 1000 <=? x * x * x) (-3) = Ok 10 /\
  ternary_convex (2 ^ 31) (fun x => (x - 7) * (x - 7)) (-50) 60 = Ok 7 /\ ternary_concave (2 ^ 31) (fun x => - (x - 7) * (x - 8)) (-50) 60 = Ok 7 /\
  ternary_value (2 ^ 31) Z.gtb (fun x => (x - 7) * (x - 9)) (-50) 60 = Ok (-1) /\
  (forall x y, 0 <= x -> x <= y -> y <= 100 -> (30 <=? x * x) = true -> (30 <=? y * y) = true).
Proof. repeat (split; [vm_compute; reflexivity|]). intros x y H1 H2 H3 H. apply Z.leb_le in H. apply Z.leb_le. nia. Qed.
