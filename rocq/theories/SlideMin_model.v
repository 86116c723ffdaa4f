(* sliding_window_minimum: library/datastructure/sliding_window_minimum.hpp.  The vector _a filled from
   the generator is the list a; std::deque is a list. *)
From Verif Require Import Base.

Section Slide.
  Context {T : Type}.
  Variable cmp : T -> T -> bool.
  Variable a : list T.
  Record slide := SW { sw_l : Z; sw_r : Z; sw_dq : list Z }.
  (* sliding_window_minimum.hpp:66-68 *)
  Definition sw_init : slide := SW 0 0 [].
  (* sliding_window_minimum.hpp:34.  Fuel: every pass shortens the deque *)
  Definition sw_pop_back (v : T) (dq : list Z) : res (list Z) :=
    loop (length dq + 1) (fun dq =>
      match rev dq with
      | [] => Ok (inr dq)
      | b :: rest => let* x := vget a b in if cmp x v then Ok (inl (rev rest)) else Ok (inr dq)
      end) dq.
  (* sliding_window_minimum.hpp:31-36 *)
  Definition sw_proc_right (s : slide) : res slide :=
    assert_ (sw_r s <? zlen a) ;;;
    let* v := vget a (sw_r s) in
    let* dq := sw_pop_back v (sw_dq s) in
    Ok (SW (sw_l s) (sw_r s + 1) (dq ++ [sw_r s])).
  (* sliding_window_minimum.hpp:37-39.  Fuel: _r grows *)
  Definition sw_right_to (to : Z) (s : slide) : res slide :=
    loop (Z.to_nat (to - sw_r s) + 1) (fun s => if sw_r s <? to then let* s := sw_proc_right s in Ok (inl s) else Ok (inr s)) s.
  (* sliding_window_minimum.hpp:40-44; front() of an empty deque is undefined *)
  Definition sw_proc_left (s : slide) : res slide :=
    assert_ (sw_l s <? sw_r s) ;;;
    let* f := vget (sw_dq s) 0 in
    Ok (SW (sw_l s + 1) (sw_r s) (if f =? sw_l s then tl (sw_dq s) else sw_dq s)).
  (* sliding_window_minimum.hpp:45-47 *)
  Definition sw_left_to (to : Z) (s : slide) : res slide :=
    loop (Z.to_nat (to - sw_l s) + 1) (fun s => if sw_l s <? to then let* s := sw_proc_left s in Ok (inl s) else Ok (inr s)) s.
  (* sliding_window_minimum.hpp:48-50 *)
  Definition sw_proc (new_l new_r : Z) (s : slide) : res slide :=
    let* s := sw_right_to new_r s in sw_left_to new_l s.
  (* sliding_window_minimum.hpp:51-54 *)
  Definition sw_arg_query (s : slide) : res Z := assert_ (sw_l s <? sw_r s) ;;; vget (sw_dq s) 0.
  (* sliding_window_minimum.hpp:55-57 *)
  Definition sw_query (s : slide) : res T := let* i := sw_arg_query s in vget a i.

  (* the calls; get_left, get_right and get_window_size are lines 59-67 *)
  Inductive swop := SRight | SRightTo (to : Z) | SLeft | SLeftTo (to : Z) | SProc (l r : Z) | SArg | SQuery | SGetL | SGetR | SSize.
  Inductive swret := RUnit | RInt (z : Z) | RVal (x : T).
  Definition sw_step (s : slide) (o : swop) : res (swret * slide) :=
    match o with
    | SRight => let* s := sw_proc_right s in Ok (RUnit, s)
    | SRightTo to => let* s := sw_right_to to s in Ok (RUnit, s)
    | SLeft => let* s := sw_proc_left s in Ok (RUnit, s)
    | SLeftTo to => let* s := sw_left_to to s in Ok (RUnit, s)
    | SProc l r => let* s := sw_proc l r s in Ok (RUnit, s)
    | SArg => let* i := sw_arg_query s in Ok (RInt i, s)
    | SQuery => let* x := sw_query s in Ok (RVal x, s)
    | SGetL => Ok (RInt (sw_l s), s)
    | SGetR => Ok (RInt (sw_r s), s)
    | SSize => Ok (RInt (sw_r s - sw_l s), s)
    end.
End Slide.
Arguments swret T : clear implicits.
Arguments RUnit {T}. Arguments RInt {T}.
