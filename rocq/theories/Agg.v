(* Sums over a commutative semigroup, with [None] as the sum of nothing. *)
From Verif Require Import Base BaseLemmas.
From Coq Require Import Permutation.

Section OSum.
  Context {T : Type}.
  Variable op : T -> T -> T.
  Hypothesis op_assoc : forall a b c, op a (op b c) = op (op a b) c.

  Definition oop (a b : option T) : option T :=
    match a, b with
    | None, _ => b
    | _, None => a
    | Some x, Some y => Some (op x y)
    end.
  Definition osum (l : list T) : option T := fold_right (fun a s => oop (Some a) s) None l.

  Lemma oop_assoc a b c : oop a (oop b c) = oop (oop a b) c.
  Proof. destruct a, b, c; simpl; auto. now rewrite op_assoc. Qed.
  Lemma oop_None_r a : oop a None = a.
  Proof. destruct a; auto. Qed.
  Lemma osum_app l m : osum (l ++ m) = oop (osum l) (osum m).
  Proof.
    induction l as [|a l IH]; simpl; auto. rewrite IH.
    change (match osum l with Some y => Some (op a y) | None => Some a end) with (oop (Some a) (osum l)).
    rewrite <- oop_assoc. reflexivity.
  Qed.
  Lemma osum_fold l a : osum (a :: l) = Some (fold_left op l a).
  Proof.
    revert a; induction l as [|b l IH]; intro a; auto.
    change (osum (a :: b :: l)) with (oop (Some a) (osum (b :: l))). rewrite IH. simpl. f_equal.
    clear IH. revert a b; induction l as [|c l IH]; intros a b; simpl; auto.
    rewrite IH. now rewrite op_assoc.
  Qed.
  Lemma osum_cons_Some l a : exists s, osum (a :: l) = Some s.
  Proof. rewrite osum_fold; eauto. Qed.

  Hypothesis op_comm : forall a b, op a b = op b a.
  Lemma oop_comm a b : oop a b = oop b a.
  Proof. destruct a, b; simpl; auto. now rewrite op_comm. Qed.
  Lemma osum_perm l m : Permutation l m -> osum l = osum m.
  Proof.
    induction 1 as [|x l m H IH|x y l|l m k H1 IH1 H2 IH2]; auto.
    - change (oop (Some x) (osum l) = oop (Some x) (osum m)). now rewrite IH.
    - change (oop (Some y) (oop (Some x) (osum l)) = oop (Some x) (oop (Some y) (osum l))).
      rewrite !oop_assoc. now rewrite (oop_comm (Some y)).
    - congruence.
  Qed.
  Lemma osum_filter_or {X} (f g : X -> bool) (h : X -> T) l :
    (forall x, In x l -> f x = true -> g x = false) ->
    osum (map h (filter (fun x => f x || g x) l)) = oop (osum (map h (filter f l))) (osum (map h (filter g l))).
  Proof.
    induction l as [|x l IH]; intros H; auto; cbn [filter].
    pose proof (IH (fun y I => H y (or_intror I))) as IH'. clear IH.
    pose proof (H x (or_introl eq_refl)) as Hx.
    destruct (f x) eqn:Fx; [rewrite (Hx eq_refl)|]; cbn [orb map].
    - change (oop (Some (h x)) (osum (map h (filter (fun x => f x || g x) l))) =
        oop (oop (Some (h x)) (osum (map h (filter f l)))) (osum (map h (filter g l)))).
      rewrite IH', oop_assoc. reflexivity.
    - destruct (g x) eqn:Gx; cbn [map]; auto.
      change (oop (Some (h x)) (osum (map h (filter (fun x => f x || g x) l))) =
        oop (osum (map h (filter f l))) (oop (Some (h x)) (osum (map h (filter g l))))).
      rewrite IH', !oop_assoc. now rewrite (oop_comm (Some (h x))).
  Qed.
End OSum.
