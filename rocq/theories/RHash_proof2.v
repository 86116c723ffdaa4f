(* A non-zero polynomial over a prime field has fewer roots than coefficients. *)
From Verif Require Import Base BaseLemmas ListZ RHash_spec RHash_proof.
From Coq Require Import Znumtheory.
Import ListNotations.
Open Scope Z_scope.

Section Roots.
  Variable p : Z.
  Hypothesis Pp : prime p.
  (* coefficients, least significant first *)
  Fixpoint ev (cs : list Z) (x : Z) : Z := match cs with [] => 0 | c :: cs => c + x * ev cs x end.
  Fixpoint quo (r : Z) (cs : list Z) : list Z := match cs with [] => [] | c :: cs => match cs with [] => [] | _ => ev cs r :: quo r cs end end.
  Lemma quo_cons r c d cs : quo r (c :: d :: cs) = ev (d :: cs) r :: quo r (d :: cs). Proof. reflexivity. Qed.
  Lemma quo_ok r x cs : ev cs x - ev cs r = (x - r) * ev (quo r cs) x.
  Proof.
    induction cs as [|c cs IH]; [cbn; lia|]. destruct cs as [|d cs]; [cbn [ev quo]; lia|]. rewrite quo_cons.
    change (ev (c :: d :: cs) x) with (c + x * ev (d :: cs) x). change (ev (c :: d :: cs) r) with (c + r * ev (d :: cs) r).
    change (ev (ev (d :: cs) r :: quo r (d :: cs)) x) with (ev (d :: cs) r + x * ev (quo r (d :: cs)) x).
    rewrite Z.mul_add_distr_l. replace ((x - r) * (x * ev (quo r (d :: cs)) x)) with (x * ((x - r) * ev (quo r (d :: cs)) x)) by ring. rewrite <- IH. ring.
  Qed.
  Lemma quo_length r cs : length (quo r cs) = pred (length cs).
  Proof. induction cs as [|c cs IH]; auto. destruct cs as [|d cs]; auto. rewrite quo_cons. cbn [length] in *. rewrite IH. reflexivity. Qed.
  Definition zero (cs : list Z) : Prop := forall c, In c cs -> (p | c).
  Lemma ev_zero cs x : zero cs -> (p | ev cs x).
  Proof. induction cs as [|c cs IH]; intros H; cbn [ev]; [apply Z.divide_0_r|]. apply Z.divide_add_r; [apply H; left; auto|]. apply Z.divide_mul_r. apply IH. intros d Hd. apply H. right; auto. Qed.
  Lemma quo_zero r cs : (p | ev cs r) -> zero (quo r cs) -> zero cs.
  Proof.
    induction cs as [|c cs IH]; intros E Zq; [intros d []|]. destruct cs as [|d cs].
    - cbn [ev] in E. intros x [<-|[]]. replace c with (c + r * 0) by lia. exact E.
    - rewrite quo_cons in Zq. assert (E2 : (p | ev (d :: cs) r)) by (apply Zq; left; auto).
      assert (Zt : zero (d :: cs)). { apply IH; auto. intros x Hx. apply Zq. right; auto. }
      intros x [<-|Hx]; [|auto]. change (ev (c :: d :: cs) r) with (c + r * ev (d :: cs) r) in E. apply Z.divide_add_cancel_r with (r * ev (d :: cs) r); [apply Z.divide_mul_r; auto|]. rewrite Z.add_comm. exact E.
  Qed.
  Lemma roots : forall rs cs, NoDup rs -> (forall r, In r rs -> 0 <= r < p) -> (forall r, In r rs -> (p | ev cs r)) -> ~ zero cs -> (length rs < length cs)%nat.
  Proof.
    induction rs as [|r rs IH]; intros cs ND R Ev Nz.
    { destruct cs as [|c cs]; [destruct Nz; intros c []|cbn [length]; lia]. }
    inversion ND; subst. assert (Er : (p | ev cs r)) by (apply Ev; left; auto).
    assert (L : (length rs < length (quo r cs))%nat).
    { apply IH; auto.
      - intros x Hx. apply R. right; auto.
      - intros x Hx. assert (D : (p | (x - r) * ev (quo r cs) x)). { rewrite <- quo_ok. apply Z.divide_sub_r; auto. apply Ev. right; auto. }
        apply prime_mult in D; auto. destruct D as [D|D]; auto. exfalso.
        pose proof (R x (or_intror Hx)) as Rx. pose proof (R r (or_introl eq_refl)) as Rr. assert (x = r); [|subst; contradiction].
        destruct D as (k & Ek). assert (k = 0) by nia. subst k. lia.
      - intros Zq. apply Nz. apply (quo_zero r); auto. }
    rewrite quo_length in L. cbn [length]. lia.
  Qed.
  (* difference of two coefficient lists *)
  Fixpoint dif (a b : list Z) : list Z := match a, b with [], b => map Z.opp b | a, [] => a | x :: a, y :: b => (x - y) :: dif a b end.
  Lemma ev_opp b x : ev (map Z.opp b) x = - ev b x.
  Proof. induction b as [|y b IH]; [auto|]. cbn [map ev]. rewrite IH. ring. Qed.
  Lemma dif_ev a : forall b x, ev (dif a b) x = ev a x - ev b x.
  Proof.
    induction a as [|y a IH]; intros b x; [cbn [dif]; rewrite ev_opp; cbn [ev]; lia|]. destruct b as [|z b]; [cbn [dif]; cbn [ev]; lia|]. cbn [dif ev]. rewrite IH. ring.
  Qed.
  Lemma dif_length a : forall b, length (dif a b) = Nat.max (length a) (length b).
  Proof. induction a as [|y a IH]; intros b; [cbn [dif]; rewrite map_length; reflexivity|]. destruct b as [|z b]; [reflexivity|]. cbn [dif length]. rewrite IH. reflexivity. Qed.
  Lemma dif_zero a : (forall x, In x a -> 0 < x < p) -> forall b, (forall x, In x b -> 0 < x < p) -> zero (dif a b) -> a = b.
  Proof.
    assert (Sm : forall x, 0 < x < p -> ~ (p | x)). { intros x Hx D. apply Z.divide_pos_le in D; lia. }
    intros Ha. induction a as [|y a IH]; intros b Hb Zd.
    - destruct b as [|z b]; auto. exfalso. apply (Sm z); [apply Hb; left; auto|]. apply Z.divide_opp_r. apply Zd. left; auto.
    - destruct b as [|z b]. { exfalso. apply (Sm y); [apply Ha; left; auto|]. apply Zd. left; auto. }
      cbn [dif] in Zd. assert (y = z). { assert (D : (p | y - z)) by (apply Zd; left; auto). pose proof (Ha y (or_introl eq_refl)). pose proof (Hb z (or_introl eq_refl)). destruct D as (k & Ek). assert (k = 0) by nia. subst k. lia. }
      f_equal; auto. apply IH; [intros x Hx; apply Ha; right; auto|intros x Hx; apply Hb; right; auto|]. intros x Hx. apply Zd. right; auto.
  Qed.
  Lemma poly_ev b s : poly b s = ev (rev s) b.
  Proof. induction s as [|x s IH] using rev_ind; [reflexivity|]. rewrite poly_snoc, rev_unit. cbn [ev]. rewrite IH. ring. Qed.
  Lemma collisions s t bs : s <> t -> (forall x, In x s -> 0 < x < p) -> (forall x, In x t -> 0 < x < p) -> NoDup bs -> (forall b, In b bs -> 0 <= b < p) ->
    (forall b, In b bs -> poly b s mod p = poly b t mod p) -> zlen bs < Z.max (zlen s) (zlen t).
  Proof.
    intros Ne Hs Ht ND Rb Ev. assert (P0 : 0 < p) by (destruct Pp; lia).
    assert (L : (length bs < length (dif (rev s) (rev t)))%nat).
    { apply roots; auto.
      - intros b Ib. rewrite dif_ev, <- !poly_ev. apply Z.mod_divide; [lia|]. rewrite Zminus_mod, (Ev b Ib), Z.sub_diag. apply Zmod_0_l.
      - intros Zd. apply Ne. rewrite <- (rev_involutive s), <- (rev_involutive t). f_equal. apply dif_zero; auto; intros x Hx; apply in_rev in Hx; auto. }
    rewrite dif_length, !rev_length in L. unfold zlen. lia.
  Qed.
End Roots.
