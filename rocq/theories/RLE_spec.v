(* Run-length encodings. *)
From Verif Require Import Base.

(* the sequence that a list of runs stands for *)
Definition expand {T} (runs : list (T * Z)) : list T := concat (map (fun '(x, k) => vrep k x) runs).

(* the runs are not empty, and neighbours differ *)
Definition maximal_runs {T} (runs : list (T * Z)) : Prop :=
  (forall r, In r runs -> 0 < snd r) /\
  (forall i x y, vget runs i = Ok x -> vget runs (i + 1) = Ok y -> fst x <> fst y).
