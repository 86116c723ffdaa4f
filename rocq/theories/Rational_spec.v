(* What a Rational stands for: a fraction in lowest terms with positive
   denominator, i.e. a number of the standard library's Q. *)
From Verif Require Import Base Rational_model.
From Coq Require Import QArith.
Open Scope Z_scope.
Definition normal (r : rat) : Prop := 0 < rden r /\ Z.gcd (rnum r) (rden r) = 1.
Definition qval (r : rat) : Q := rnum r # Z.to_pos (rden r).
(* the outcome [m] is the normal form of the number [q] *)
Definition is_value (m : res rat) (q : Q) : Prop := exists r, m = Ok r /\ normal r /\ (qval r == q)%Q.
Definition sign_of (c : comparison) : Z := match c with Lt => -1 | Eq => 0 | Gt => 1 end.
