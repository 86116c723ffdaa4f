(* Specification vocabulary for SlopeTrick: the function described by a history of calls. *)
From Verif Require Import Base.

Inductive sop := AddConst (a : Z) | AddRight (a : Z) | AddLeft (a : Z) | AddAbs (a : Z) | CumMinLeft | CumMinRight | ShiftL (d : Z) | ShiftR (d : Z) | Translate (d : Z) | Slide (a b : Z).
(* v is the least value of f on the points satisfying P *)
Definition least (f : Z -> Z) (P : Z -> Prop) (v : Z) : Prop := (exists y, P y /\ v = f y) /\ forall y, P y -> v <= f y.
(* the function h after the call o on an object that stood for f *)
Definition sop_fn (o : sop) (f h : Z -> Z) : Prop := forall x,
  match o with
  | AddConst a => h x = f x + a
  | AddRight a => h x = f x + Z.max 0 (x - a)
  | AddLeft a => h x = f x + Z.max 0 (a - x)
  | AddAbs a => h x = f x + Z.abs (x - a)
  | CumMinLeft => least f (fun y => y <= x) (h x)
  | CumMinRight => least f (fun y => x <= y) (h x)
  | ShiftL d => h x = f (x + d)
  | ShiftR d => h x = f (x - d)
  | Translate d => h x = f (x - d)
  | Slide a b => least f (fun y => x - b <= y <= x - a) (h x)
  end.
(* f is the function after the calls, starting from the zero function *)
Inductive described : list sop -> (Z -> Z) -> Prop :=
  | d_nil : forall f, (forall x, f x = 0) -> described [] f
  | d_snoc : forall os o f h, described os f -> sop_fn o f h -> described (os ++ [o]) h.
(* how far the parameters of the calls reach *)
Definition reach1 (o : sop) : Z :=
  match o with
  | AddConst _ | CumMinLeft | CumMinRight => 0
  | AddRight a | AddLeft a | AddAbs a | ShiftL a | ShiftR a | Translate a => Z.abs a
  | Slide a b => Z.max (Z.abs a) (Z.abs b)
  end.
Definition reach (os : list sop) : Z := fold_right (fun o s => reach1 o + s) 0 os.
(* sliding_window_minimum asserts a <= b *)
Definition sop_ok (o : sop) : Prop := match o with Slide a b => a <= b | _ => True end.
