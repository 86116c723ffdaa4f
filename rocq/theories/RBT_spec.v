(* What a red-black tree stands for: a sequence, through every history of calls. *)
From Verif Require Import Base Seq RBT_model.

Section Spec.
  Context {T F : Type}.
  Variables (op : T -> T -> T) (e : T) (mapping : F -> T -> Z -> T) (composition : F -> F -> F) (id : F) (feqb : F -> F -> bool).
  (* the operators act on the values of stretches of a given length *)
  Record acts : Prop := {
    act_id : forall x, mapping id x 1 = x;
    act_comp : forall f g x n, 1 <= n -> mapping (composition f g) x n = mapping f (mapping g x n) n;
    act_op : forall f x y n m, 1 <= n -> 1 <= m -> mapping f (op x y) (n + m) = op (mapping f x n) (mapping f y m);
    act_eqb : forall f g, feqb f g = true <-> f = g }.
  Definition commutes : Prop := forall x y, op x y = op y x.
  (* act on the elements l .. r-1, and turn them round *)
  Definition applied (f : F) (l r : Z) (s : list T) : list T := slice 0 l s ++ map (fun x => mapping f x 1) (slice l r s) ++ slice r (zlen s) s.
  Definition reversed (l r : Z) (s : list T) : list T := slice 0 l s ++ rev (slice l r s) ++ slice r (zlen s) s.
  Notation build := (build op mapping composition id feqb).
  Notation merge := (merge op mapping composition id feqb).
  Notation split := (split op mapping composition id feqb).
  Notation split_range := (split_range op mapping composition id feqb).
  Notation insert := (insert op mapping composition id feqb).
  Notation erase := (erase op mapping composition id feqb).
  Notation update_value := (update_value op mapping composition id feqb).
  Notation get := (get op mapping composition id feqb).
  Notation prod := (prod op e mapping composition id feqb).
  Notation apply := (apply op mapping composition id feqb).
  Notation reverse := (reverse op mapping composition id feqb).
  (* [holds t s]: t results from calls of the interface, and s from the same calls on sequences *)
  Inductive holds : otree T F -> list T -> Prop :=
    | h_empty : holds None []
    | h_build a t : build a = Ok t -> holds t a
    | h_merge t1 s1 t2 s2 t : holds t1 s1 -> holds t2 s2 -> merge t1 t2 = Ok t -> holds t (s1 ++ s2)
    | h_split_l t s k a b : holds t s -> 0 <= k <= zlen s -> split t k = Ok (a, b) -> holds a (slice 0 k s)
    | h_split_r t s k a b : holds t s -> 0 <= k <= zlen s -> split t k = Ok (a, b) -> holds b (slice k (zlen s) s)
    | h_range_l t s l r a b c : holds t s -> 0 <= l <= r -> r <= zlen s -> split_range t l r = Ok (a, b, c) -> holds a (slice 0 l s)
    | h_range_m t s l r a b c : holds t s -> 0 <= l <= r -> r <= zlen s -> split_range t l r = Ok (a, b, c) -> holds b (slice l r s)
    | h_range_r t s l r a b c : holds t s -> 0 <= l <= r -> r <= zlen s -> split_range t l r = Ok (a, b, c) -> holds c (slice r (zlen s) s)
    | h_insert t s k v t' : holds t s -> 0 <= k <= zlen s -> insert t k v = Ok t' -> holds t' (slice 0 k s ++ v :: slice k (zlen s) s)
    | h_erase t s k t' x : holds t s -> 0 <= k < zlen s -> erase t k = Ok (t', x) -> holds t' (slice 0 k s ++ slice (k + 1) (zlen s) s)
    | h_update t s k f t' : holds t s -> 0 <= k < zlen s -> update_value t k f = Ok t' -> holds t' (slice 0 k s ++ map f (slice k (k + 1) s) ++ slice (k + 1) (zlen s) s)
    | h_get t s k t' x : holds t s -> 0 <= k < zlen s -> get t k = Ok (t', x) -> holds t' s
    | h_prod t s l r t' x : holds t s -> 0 <= l <= r -> r <= zlen s -> prod t l r = Ok (t', x) -> holds t' s
    | h_apply t s l r f t' : holds t s -> 0 <= l <= r -> r <= zlen s -> apply t l r f = Ok t' -> holds t' (applied f l r s)
    | h_apply_all t s f : holds t s -> holds (apply_all mapping composition t f) (map (fun x => mapping f x 1) s)
    (* turning round needs a commutative product *)
    | h_reverse t s l r t' : commutes -> holds t s -> 0 <= l <= r -> r <= zlen s -> reverse t l r = Ok t' -> holds t' (reversed l r s)
    | h_reverse_all t s : commutes -> holds t s -> holds (reverse_all t) (rev s).
End Spec.
