From Verif Require Import Base BaseLemmas ListZ Bits SubIt_spec SubIt_model.
From Coq Require Import Sorted.
Import ListNotations.
Open Scope Z_scope.

Lemma card0 : card 0 = 0. Proof. reflexivity. Qed.
Lemma card_even x : card (2 * x) = card x. Proof. destruct x; reflexivity. Qed.
Lemma card_odd x : 0 <= x -> card (2 * x + 1) = 1 + card x. Proof. destruct x; intros; [reflexivity|reflexivity|lia]. Qed.
Lemma ones_pos p : 1 <= ones p. Proof. induction p; cbn [ones]; lia. Qed.
Lemma card_nonneg x : 0 <= card x. Proof. destruct x; cbn [card]; try lia. pose proof (ones_pos p). lia. Qed.
Lemma card_pos x : 0 < x -> 1 <= card x. Proof. destruct x; intros; try lia. apply ones_pos. Qed.
(* induction on the bits of a natural number *)
Lemma bin_ind (P : Z -> Prop) : P 0 -> (forall x, 0 < x -> P x -> P (2 * x)) -> (forall x, 0 <= x -> P x -> P (2 * x + 1)) -> forall x, 0 <= x -> P x.
Proof.
  intros H0 H1 H2 x Hx. destruct x as [|p|p]; [auto| |lia]. clear Hx. induction p as [p IH|p IH|].
  - apply (H2 (Zpos p)); auto; lia.
  - apply (H1 (Zpos p)); auto; lia.
  - apply (H2 0); auto; lia.
Qed.
Lemma split2 x : exists q b, x = 2 * q + b /\ 0 <= b <= 1 /\ q = x / 2 /\ b = x mod 2.
Proof. exists (x / 2), (x mod 2). pose proof (Z.div_mod x 2 ltac:(lia)). pose proof (Z.mod_pos_bound x 2 ltac:(lia)). repeat split; lia. Qed.
Lemma card_b x b : 0 <= x -> 0 <= b <= 1 -> card (2 * x + b) = card x + b.
Proof. intros Hx Hb. assert (C : b = 0 \/ b = 1) by lia. destruct C as [-> | ->]; [rewrite Z.add_0_r, card_even; lia|rewrite card_odd by auto; lia]. Qed.
Lemma card_cat m : 0 <= m -> forall h l, 0 <= h -> 0 <= l < 2 ^ m -> card (2 ^ m * h + l) = card h + card l.
Proof.
  revert m. apply (natlike_ind (fun m => forall h l, 0 <= h -> 0 <= l < 2 ^ m -> card (2 ^ m * h + l) = card h + card l)).
  - intros h l Hh Hl. rewrite Z.pow_0_r in *. replace l with 0 by lia. rewrite card0. rewrite Z.add_0_r, Z.mul_1_l. lia.
  - intros m Hm IH h l Hh Hl. rewrite Z.pow_succ_r in * by auto. destruct (split2 l) as (q & b & E & Hb & _ & _).
    rewrite E. replace (2 * 2 ^ m * h + (2 * q + b)) with (2 * (2 ^ m * h + q) + b) by ring.
    assert (Hq : 0 <= q < 2 ^ m) by lia. assert (0 <= 2 ^ m * h) by (apply Z.mul_nonneg_nonneg; lia). rewrite !card_b by lia. rewrite IH by auto. lia.
Qed.
Lemma card_full m : 0 <= m -> card (2 ^ m - 1) = m.
Proof.
  revert m. apply natlike_ind; [reflexivity|]. intros m Hm IH. rewrite Z.pow_succ_r by auto. pose proof (Z.pow_pos_nonneg 2 m ltac:(lia) Hm). replace (2 * 2 ^ m - 1) with (2 * (2 ^ m - 1) + 1) by ring. rewrite card_odd by lia. rewrite IH. lia.
Qed.
Lemma card_le m : 0 <= m -> forall x, 0 <= x < 2 ^ m -> card x <= m /\ (card x = m -> x = 2 ^ m - 1).
Proof.
  revert m. apply (natlike_ind (fun m => forall x, 0 <= x < 2 ^ m -> card x <= m /\ (card x = m -> x = 2 ^ m - 1))).
  - intros x Hx. rewrite Z.pow_0_r in *. replace x with 0 by lia. rewrite card0. lia.
  - intros m Hm IH x Hx. rewrite Z.pow_succ_r in * by auto. destruct (split2 x) as (q & b & E & Hb & _ & _). assert (Hq : 0 <= q < 2 ^ m) by lia. destruct (IH q Hq) as (A & B). rewrite E. rewrite card_b by lia.
    split; [lia|]. intros F. assert (b = 1) by lia. specialize (B ltac:(lia)). lia.
Qed.

Ltac bit2 := intros; 
  repeat match goal with H : 0 <= ?b <= 1 |- _ => assert (b = 0 \/ b = 1) by lia; clear H end;
  repeat match goal with H : ?b = 0 \/ ?b = 1 |- _ => destruct H as [-> | ->] end;
  apply Z.bits_inj'; intros i Hi; rewrite ?Z.land_spec, ?Z.lor_spec, ?Z.lxor_spec;
  match goal with |- context [2 * ?o ?a ?c + ?e] => let e' := eval compute in e in change e with e' end;
  rewrite ?Z.add_0_r; (destruct (Z.eq_dec i 0) as [->|N];
  [rewrite ?Z.testbit_odd_0, ?Z.testbit_even_0; reflexivity|
   replace i with (Z.succ (i - 1)) by lia; rewrite ?Z.testbit_odd_succ, ?Z.testbit_even_succ by lia; rewrite ?Z.land_spec, ?Z.lor_spec, ?Z.lxor_spec; reflexivity]).
Lemma land2 a c x y : 0 <= x <= 1 -> 0 <= y <= 1 -> Z.land (2 * a + x) (2 * c + y) = 2 * Z.land a c + x * y. Proof. bit2. Qed.
Lemma lor2 a c x y : 0 <= x <= 1 -> 0 <= y <= 1 -> Z.lor (2 * a + x) (2 * c + y) = 2 * Z.lor a c + Z.max x y. Proof. bit2. Qed.
Lemma lxor2 a c x y : 0 <= x <= 1 -> 0 <= y <= 1 -> Z.lxor (2 * a + x) (2 * c + y) = 2 * Z.lxor a c + Z.abs (x - y). Proof. bit2. Qed.
Lemma lor_cat m : 0 <= m -> forall h l, 0 <= l < 2 ^ m -> Z.lor (2 ^ m * h) l = 2 ^ m * h + l.
Proof.
  revert m. apply (natlike_ind (fun m => forall h l, 0 <= l < 2 ^ m -> Z.lor (2 ^ m * h) l = 2 ^ m * h + l)).
  - intros h l Hl. rewrite Z.pow_0_r in *. replace l with 0 by lia. rewrite Z.lor_0_r. lia.
  - intros m Hm IH h l Hl. rewrite Z.pow_succ_r in * by auto. destruct (split2 l) as (q & b & E & Hb & _ & _). rewrite E. replace (2 * 2 ^ m * h) with (2 * (2 ^ m * h) + 0) by ring.
    rewrite lor2 by lia. rewrite IH by lia. lia.
Qed.
Lemma lxor_shift m : 0 <= m -> forall a b, Z.lxor (2 ^ m * a) (2 ^ m * b) = 2 ^ m * Z.lxor a b.
Proof.
  revert m. apply (natlike_ind (fun m => forall a b, Z.lxor (2 ^ m * a) (2 ^ m * b) = 2 ^ m * Z.lxor a b)).
  - intros a b. rewrite Z.pow_0_r, !Z.mul_1_l. auto.
  - intros m Hm IH a b. rewrite Z.pow_succ_r by auto. replace (2 * 2 ^ m * a) with (2 * (2 ^ m * a) + 0) by ring. replace (2 * 2 ^ m * b) with (2 * (2 ^ m * b) + 0) by ring. rewrite lxor2 by lia. rewrite IH. change (Z.abs (0 - 0)) with 0. ring.
Qed.
Lemma lxor_carry j : 0 <= j -> forall h, Z.lxor (2 ^ (j + 1) * h + 2 ^ j) (2 ^ (j + 1) * h + 2 ^ j - 1) = 2 ^ (j + 1) - 1.
Proof.
  intros Hj h. pose proof Hj as Hj0. revert j Hj Hj0.
  apply (natlike_ind (fun j => 0 <= j -> Z.lxor (2 ^ (j + 1) * h + 2 ^ j) (2 ^ (j + 1) * h + 2 ^ j - 1) = 2 ^ (j + 1) - 1)).
  - intros _. change (2 ^ (0 + 1)) with 2. change (2 ^ 0) with 1. replace (2 * h + 1 - 1) with (2 * h + 0) by ring. rewrite lxor2 by lia. rewrite Z.lxor_nilpotent. reflexivity.
  - intros j Hj IH _. specialize (IH Hj). replace (Z.succ j + 1) with (Z.succ (j + 1)) by lia. rewrite !Z.pow_succ_r by lia.
    replace (2 * 2 ^ (j + 1) * h + 2 * 2 ^ j - 1) with (2 * (2 ^ (j + 1) * h + 2 ^ j - 1) + 1) by ring. replace (2 * 2 ^ (j + 1) * h + 2 * 2 ^ j) with (2 * (2 ^ (j + 1) * h + 2 ^ j) + 0) by ring.
    rewrite lxor2 by lia. rewrite IH. change (Z.abs (0 - 1)) with 1. ring.
Qed.

(* subsets *)
Lemma subset2 t x s y : 0 <= x <= 1 -> 0 <= y <= 1 -> (subset (2 * t + x) (2 * s + y) <-> subset t s /\ x <= y).
Proof.
  intros Hx Hy. unfold subset. rewrite land2 by auto. assert (Cx : x = 0 \/ x = 1) by lia. assert (Cy : y = 0 \/ y = 1) by lia.
  destruct Cx as [-> | ->], Cy as [-> | ->]; lia.
Qed.
Lemma subset_le t s : 0 <= s -> subset t s -> t <= s.
Proof.
  intros Hs. revert t. revert s Hs. apply (bin_ind (fun s => forall t, subset t s -> t <= s)).
  - intros t (A & B). rewrite Z.land_0_r in B. lia.
  - intros s Hs IH t H. destruct (split2 t) as (q & b & -> & Hb & _ & _). replace (2 * s) with (2 * s + 0) in H by lia. apply subset2 in H; [|lia|lia]. destruct H as (A & B). specialize (IH q A). lia.
  - intros s Hs IH t H. destruct (split2 t) as (q & b & -> & Hb & _ & _). apply subset2 in H; [|lia|lia]. destruct H as (A & B). specialize (IH q A). lia.
Qed.
Lemma subset_refl s : 0 <= s -> subset s s. Proof. split; auto. apply Z.land_diag. Qed.
Lemma subset_land t s : 0 <= s -> subset (Z.land t s) s.
Proof. intros H. split; [apply Z.land_nonneg; auto|]. rewrite <- Z.land_assoc, Z.land_diag. auto. Qed.
(* the largest subset of s below the subset t is (t - 1) & s *)
Lemma below t : 0 < t -> forall s x, 0 <= s -> subset t s -> subset x s -> x < t -> x <= Z.land (t - 1) s < t.
Proof.
  revert t. apply (pos_bin_ind (fun t => forall s x, 0 <= s -> subset t s -> subset x s -> x < t -> x <= Z.land (t - 1) s < t)).
  - intros t Ht s x Hs St Sx Lx. destruct (split2 s) as (s' & b & -> & Hb & _ & _). apply subset2 in St; [|lia|lia]. destruct St as ((_ & St) & Lb). replace (2 * t + 1 - 1) with (2 * t + 0) by ring. rewrite land2 by lia. rewrite St. lia.
  - intros t Ht IH s x Hs St Sx Lx. destruct (split2 s) as (s' & b & -> & Hb & _ & _). destruct (split2 x) as (q & c & -> & Hc & _ & _). replace (2 * t) with (2 * t + 0) in St by lia. apply subset2 in St; [|lia|lia]. apply subset2 in Sx; [|lia|lia].
    destruct (IH s' q) as (A & B); [lia|tauto|tauto|lia|]. replace (2 * t - 1) with (2 * (t - 1) + 1) by ring. rewrite land2 by lia. lia.
Qed.
Lemma sorted_snoc' {A} (R : A -> A -> Prop) l x : StronglySorted R l -> (forall y, In y l -> R y x) -> StronglySorted R (l ++ [x]).
Proof.
  induction l as [|a l IH]; intros S H; [constructor; constructor|]. inversion S; subst. cbn [app]. constructor; [apply IH; auto; intros y Hy; apply H; right; auto|].
  apply Forall_forall. intros y Hy. apply in_app_or in Hy. destruct Hy as [Hy|[<-|[]]]; [rewrite Forall_forall in H3; auto|apply H; left; auto].
Qed.
Lemma all_subset_ok W s : 0 < W -> 0 <= s < 2 ^ W - 1 -> exists l, all_subset W s = Ok l /\ StronglySorted Z.gt l /\ forall x, In x l <-> subset x s.
Proof.
  intros HW Hs. unfold all_subset, uw. rewrite Z.mod_small by lia.
  destruct (loop_inv (fun '(t, out) => (t = s + 1 \/ subset t s) /\ StronglySorted Z.gt out /\ (forall x, In x out <-> subset x s /\ t <= x)) (fun '(t, out) => Z.to_nat t)
    (fun l => StronglySorted Z.gt l /\ forall x, In x l <-> subset x s)
    (fun '(t, out) => if t =? 0 then Ok (inr out) else let t := Z.land (t - 1) s in Ok (inl (t, out ++ [t]))) (Z.to_nat s + 2) (s + 1, [])) as (l & E & S & I).
  - split; auto. split; [constructor|]. intros x. split; [intros []|]. intros (A & B). apply subset_le in A; lia.
  - lia.
  - intros [t out] (C & S & I). destruct (Z.eqb_spec t 0) as [->|Nt].
    + eexists; split; [reflexivity|]. split; auto. intros x. rewrite I. split; [tauto|]. intros H. split; auto. destruct H; auto.
    + assert (Ht : 0 < t) by (destruct C as [-> |(C & _)]; lia). cbv zeta. eexists; split; [reflexivity|].
      assert (B : forall x, subset x s -> x < t -> x <= Z.land (t - 1) s).
      { intros x Sx Lx. destruct C as [-> |C]; [replace (s + 1 - 1) with s by ring; rewrite Z.land_diag; lia|]. apply (below t Ht s x); auto; lia. }
      assert (L : Z.land (t - 1) s < t).
      { destruct C as [-> |C]; [replace (s + 1 - 1) with s by ring; rewrite Z.land_diag; lia|]. apply (below t Ht s 0); auto; [lia|]. split; [lia|apply Z.land_0_l]. }
      assert (Sb : subset (Z.land (t - 1) s) s) by (apply subset_land; lia).
      split; [|destruct Sb; lia]. split; auto. split.
      * apply sorted_snoc'; auto. intros y Hy. apply I in Hy. lia.
      * intros x. rewrite in_app_iff, I. cbn [In]. split.
        -- intros [(A & A')|[<-|[]]]; split; auto; lia.
        -- intros (A & A'). destruct (Z.lt_ge_cases x t) as [K|K]; [|left; split; auto]. right; left. specialize (B x A K). lia.
  - exists l. auto.
Qed.
(* set bits *)
Lemma blsr x : 0 < x -> 0 <= Z.land x (x - 1) < x /\ (forall i, 0 <= i -> (Z.testbit x i = true <-> i = ctz x \/ Z.testbit (Z.land x (x - 1)) i = true)) /\ (forall i, 0 <= i -> Z.testbit (Z.land x (x - 1)) i = true -> ctz x < i) /\ card (Z.land x (x - 1)) = card x - 1.
Proof.
  revert x. apply pos_bin_ind.
  - intros x Hx. replace (2 * x + 1 - 1) with (2 * x + 0) by ring. rewrite land2 by lia. rewrite Z.land_diag. replace (2 * x + 1 * 0) with (2 * x) by ring. rewrite ctz_odd by auto.
    split; [lia|]. split; [|split].
    + intros i Hi. destruct (Z.eq_dec i 0) as [->|N]; [rewrite Z.testbit_odd_0; tauto|]. replace i with (Z.succ (i - 1)) by lia. rewrite Z.testbit_odd_succ, Z.testbit_even_succ by lia. split; [auto|]. intros [F|F]; [lia|auto].
    + intros i Hi H. destruct (Z.eq_dec i 0) as [->|N]; [rewrite Z.testbit_even_0 in H; discriminate|lia].
    + rewrite card_even, card_odd by auto. lia.
  - intros x Hx (A & B & C & D). replace (2 * x - 1) with (2 * (x - 1) + 1) by ring. replace (Z.land (2 * x) (2 * (x - 1) + 1)) with (2 * Z.land x (x - 1)) by (replace (2 * x) with (2 * x + 0) by ring; rewrite land2 by lia; ring).
    rewrite ctz_double by auto. pose proof (ctz_nonneg x). split; [lia|]. split; [|split].
    + intros i Hi. destruct (Z.eq_dec i 0) as [->|N]; [rewrite !Z.testbit_even_0; split; [intros F; inversion F|intros [F|F]; [exfalso; clear - F H; lia|inversion F]]|]. replace i with (Z.succ (i - 1)) by lia. rewrite !Z.testbit_even_succ by lia. rewrite (B (i - 1)) by lia. split; intros [F|F]; auto; left; lia.
    + intros i Hi H'. destruct (Z.eq_dec i 0) as [->|N]; [rewrite Z.testbit_even_0 in H'; discriminate|]. replace i with (Z.succ (i - 1)) in H' by lia. rewrite Z.testbit_even_succ in H' by lia. apply C in H'; lia.
    + rewrite !card_even. auto.
Qed.
Lemma all_setbit_ok W s : 0 <= W -> 0 <= s < 2 ^ W -> exists l, all_setbit W s = Ok l /\ StronglySorted Z.lt l /\ forall i, In i l <-> 0 <= i /\ Z.testbit s i = true.
Proof.
  intros HW Hs. unfold all_setbit.
  destruct (loop_inv (fun '(t, out) => 0 <= t /\ StronglySorted Z.lt out /\ (forall i, (0 <= i /\ Z.testbit s i = true) <-> (In i out \/ (0 <= i /\ Z.testbit t i = true))) /\ (forall i j, In i out -> 0 <= j -> Z.testbit t j = true -> i < j)) (fun '(t, out) => Z.to_nat (card t))
    (fun l => StronglySorted Z.lt l /\ forall i, In i l <-> 0 <= i /\ Z.testbit s i = true)
    (fun '(s, out) => if s =? 0 then Ok (inr out) else Ok (inl (Z.land s (s - 1), out ++ [ctz s]))) (Z.to_nat W + 1) (s, [])) as (l & E & S & I).
  - split; [lia|]. split; [constructor|]. split; [intros i; cbn [In]; tauto|intros i j []].
  - destruct (card_le W HW s Hs). lia.
  - intros [t out] (Ht & S & I & L). destruct (Z.eqb_spec t 0) as [->|Nt].
    + eexists; split; [reflexivity|]. split; auto. intros i. rewrite I. split; [auto|]. intros [A|(A & B)]; auto. rewrite Z.bits_0 in B. discriminate.
    + destruct (blsr t ltac:(lia)) as (A & B & C & D). eexists; split; [reflexivity|]. pose proof (card_pos t ltac:(lia)). split; [|lia]. pose proof (ctz_nonneg t) as Cn.
      split; [lia|]. split; [|split].
      * apply sorted_snoc'; auto. intros y Hy. apply L; auto. apply B; auto.
      * intros i. rewrite I, in_app_iff. cbn [In]. split.
        -- intros [X|(X & Y)]; auto. apply B in Y; auto. destruct Y as [-> |Y]; auto.
        -- intros [[X|[<-|[]]]|(X & Y)]; auto; right; split; auto; apply B; auto.
      * intros i j Hi Hj T. apply in_app_or in Hi. destruct Hi as [Hi|[<-|[]]]; [apply L; auto; apply B; auto|apply C; auto].
  - exists l. auto.
Qed.
