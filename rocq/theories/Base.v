(* Shared vocabulary of all the models: the outcome monad, bounds-checked
   vectors and loops.  Nothing here models one particular file; it fixes how
   C++ effects are rendered.

   - [Ok a]        the call returns normally with value [a];
   - [UB]          undefined behaviour: an out-of-range [operator[]], a null
                   pointer, a division by zero, a signed overflow, a bad shift;
   - [Abort]       a failing [assert];
   - [OutOfFuel]   the model's fuel ran out: never a normal-looking value. *)
From Coq Require Export List Arith ZArith Lia Bool.
From Coq Require Export ZifyBool ZifyNat ZifyN.
Export ListNotations.
#[global] Open Scope Z_scope.

Inductive res (A : Type) : Type :=
| Ok (a : A)
| UB
| Abort
| OutOfFuel.
Arguments Ok {A} a.
Arguments UB {A}.
Arguments Abort {A}.
Arguments OutOfFuel {A}.

Definition bind {A B} (m : res A) (f : A -> res B) : res B :=
  match m with
  | Ok a => f a
  | UB => UB
  | Abort => Abort
  | OutOfFuel => OutOfFuel
  end.

Declare Scope res_scope.
Delimit Scope res_scope with res.
#[global] Open Scope res_scope.
Notation "'let*' x ':=' m 'in' f" := (bind m (fun x => f))
  (at level 200, x pattern, m at level 100, f at level 200, right associativity) : res_scope.
Notation "m ';;;' f" := (bind m (fun _ => f))
  (at level 199, f at level 200, right associativity) : res_scope.

(* [assert(b)] of <cassert> *)
Definition assert_ (b : bool) : res unit := if b then Ok tt else Abort.

(* ---- std::vector with bounds-checked access (index of C++ type int/size_t) *)
Definition zlen {A} (v : list A) : Z := Z.of_nat (length v).

Definition vget {A} (v : list A) (i : Z) : res A :=
  if i <? 0 then UB else
  match nth_error v (Z.to_nat i) with Some a => Ok a | None => UB end.

Fixpoint upd {A} (v : list A) (n : nat) (a : A) : list A :=
  match v, n with
  | [], _ => []
  | _ :: v', O => a :: v'
  | x :: v', S n' => x :: upd v' n' a
  end.

Definition zupd {A} (v : list A) (i : Z) (a : A) : list A := upd v (Z.to_nat i) a.

Definition vset {A} (v : list A) (i : Z) (a : A) : res (list A) :=
  if (0 <=? i) && (i <? zlen v) then Ok (zupd v i a) else UB.

(* [std::vector<A>(n, a)] *)
Definition vrep {A} (n : Z) (a : A) : list A := repeat a (Z.to_nat n).

(* ---- loops -------------------------------------------------------------- *)
(* [for (int i = lo; i < hi; ++i) body] with loop-carried state *)
Fixpoint for_up {S} (k : nat) (i : Z) (body : Z -> S -> res S) (s : S) : res S :=
  match k with
  | O => Ok s
  | Datatypes.S k' => let* s' := body i s in for_up k' (i + 1) body s'
  end.
Definition for_ {S} (lo hi : Z) (body : Z -> S -> res S) (s : S) : res S :=
  for_up (Z.to_nat (hi - lo)) lo body s.

(* [for (int i = hi; i > lo; --i) body], i.e. i = hi, hi-1, ..., lo+1 *)
Fixpoint for_dn {S} (k : nat) (i : Z) (body : Z -> S -> res S) (s : S) : res S :=
  match k with
  | O => Ok s
  | Datatypes.S k' => let* s' := body i s in for_dn k' (i - 1) body s'
  end.
Definition ford_ {S} (hi lo : Z) (body : Z -> S -> res S) (s : S) : res S :=
  for_dn (Z.to_nat (hi - lo)) hi body s.

(* [for (auto x : l) body] *)
Fixpoint for_each {X S} (l : list X) (body : X -> S -> res S) (s : S) : res S :=
  match l with
  | [] => Ok s
  | x :: l' => let* s' := body x s in for_each l' body s'
  end.

(* general loop: [inl s] continues with state [s], [inr r] leaves with [r] *)
Fixpoint loop {S R} (fuel : nat) (body : S -> res (S + R)) (s : S) : res R :=
  match fuel with
  | O => OutOfFuel
  | Datatypes.S k =>
      let* x := body s in
      match x with inl s' => loop k body s' | inr r => Ok r end
  end.

(* ---- machine integers --------------------------------------------------- *)
Definition u32 (x : Z) : Z := x mod 2 ^ 32.
Definition u64 (x : Z) : Z := x mod 2 ^ 64.
Definition u128 (x : Z) : Z := x mod 2 ^ 128.
(* a signed result that does not fit is undefined behaviour *)
Definition i32 (x : Z) : res Z := if (- 2 ^ 31 <=? x) && (x <? 2 ^ 31) then Ok x else UB.
Definition i64 (x : Z) : res Z := if (- 2 ^ 63 <=? x) && (x <? 2 ^ 63) then Ok x else UB.
(* the value of the bit pattern [x mod 2^32] (resp. 2^64) as a signed integer:
   conversion unsigned -> signed *)
Definition to_i32 (x : Z) : Z := let y := x mod 2 ^ 32 in if y <? 2 ^ 31 then y else y - 2 ^ 32.
Definition to_i64 (x : Z) : Z := let y := x mod 2 ^ 64 in if y <? 2 ^ 63 then y else y - 2 ^ 64.

(* the integers 0, 1, ..., n-1 *)
Definition zrange (n : Z) : list Z := map Z.of_nat (seq 0 (Z.to_nat n)).

#[global] Arguments zlen : simpl never.
#[global] Arguments vget : simpl never.
#[global] Arguments vset : simpl never.
#[global] Arguments zupd : simpl never.
#[global] Arguments vrep : simpl never.
#[global] Arguments zrange : simpl never.
