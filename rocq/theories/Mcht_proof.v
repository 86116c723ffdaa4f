From Verif Require Import Base BaseLemmas ListZ Mcht_spec Mcht_model.
Import ListNotations.
Open Scope Z_scope.

Definition hull (l : list (Z * Z)) : Prop :=
  (forall a p q b, l = a ++ p :: q :: b -> fst q < fst p) /\
  (forall a p q z b, l = a ++ p :: q :: z :: b -> is_nec z q p = true).
Definition mp (p : Z * Z) : Z * Z := (- fst p, snd p).
Definition mir (l : list (Z * Z)) := map mp l.

Lemma mp_mp p : mp (mp p) = p.
Proof. destruct p; unfold mp; cbn [fst snd]. rewrite Z.opp_involutive. reflexivity. Qed.
Lemma mir_mir l : mir (mir l) = l.
Proof. unfold mir. rewrite map_map. erewrite map_ext; [apply map_id|]. apply mp_mp. Qed.
Lemma at_mp x p : at_x (- x) (mp p) = at_x x p.
Proof. destruct p; unfold at_x, mp; cbn [fst snd]. ring. Qed.
Lemma nec_mp l m r : is_nec (mp r) (mp m) (mp l) = is_nec l m r.
Proof.
  destruct l as [la lb], m as [ma mb], r as [ra rb]; unfold is_nec, mp; cbn [fst snd].
  apply Bool.eq_iff_eq_true. rewrite !Z.ltb_lt.
  replace ((mb - lb) * (- ma - - ra)) with (- ((lb - mb) * (ra - ma))) by ring.
  replace ((rb - mb) * (- la - - ma)) with (- ((mb - rb) * (ma - la))) by ring. lia.
Qed.
Lemma hull_rev_mir l : hull l -> hull (rev (mir l)).
Proof.
  intros [H1 H2]; split.
  - intros a p q b E. assert (E2 : l = mir (rev b) ++ mp q :: mp p :: mir (rev a)).
    { rewrite <- (mir_mir l), <- (rev_involutive (mir l)), E. unfold mir. rewrite rev_app_distr. cbn [rev].
      rewrite <- !app_assoc. cbn [app]. rewrite !map_app. cbn [map]. reflexivity. }
    specialize (H1 _ _ _ _ E2). destruct p, q; cbn [mp fst] in *. lia.
  - intros a p q z b E. assert (E2 : l = mir (rev b) ++ mp z :: mp q :: mp p :: mir (rev a)).
    { rewrite <- (mir_mir l), <- (rev_involutive (mir l)), E. unfold mir. rewrite rev_app_distr. cbn [rev].
      rewrite <- !app_assoc. cbn [app]. rewrite !map_app. cbn [map]. reflexivity. }
    specialize (H2 _ _ _ _ _ E2). rewrite nec_mp in H2. exact H2.
Qed.
Lemma hull_tl p l : hull (p :: l) -> hull l.
Proof.
  intros [H1 H2]; split; intros a q; intros.
  - eapply (H1 (p :: a)). cbn [app]. f_equal. eassumption.
  - eapply (H2 (p :: a)). cbn [app]. f_equal. eassumption.
Qed.
Lemma hull_nil : hull [].
Proof. split; intros [|? ?]; discriminate. Qed.
Lemma hull_1 p : hull [p].
Proof. split; intros [|? [|? ?]]; discriminate. Qed.
Lemma hull_2 p q : fst q < fst p -> hull [p; q].
Proof.
  intros H; split.
  - intros [|? [|? [|? ?]]] ? ? ? E; cbn [app] in E; inversion E; subst; auto.
  - intros [|? [|? [|? ?]]] ? ? ? ? E; cbn [app] in E; inversion E.
Qed.
Lemma hull_cons p q z l : fst q < fst p -> is_nec z q p = true -> hull (q :: z :: l) -> hull (p :: q :: z :: l).
Proof.
  intros A B [H1 H2]; split.
  - intros [|a0 a] p' q' b E; cbn [app] in E; inversion E; subst; auto. eapply H1; eassumption.
  - intros [|a0 a] p' q' z' b E; cbn [app] in E; inversion E; subst; auto. eapply H2; eassumption.
Qed.
Lemma hull_head p q l : hull (p :: q :: l) -> fst q < fst p.
Proof. intros [H _]. apply (H [] p q l eq_refl). Qed.
Lemma hull_slopes p l : hull (p :: l) -> forall q, In q l -> fst q < fst p.
Proof.
  revert p; induction l as [|z l IH]; intros p H q Hq; [destruct Hq|].
  pose proof (hull_head _ _ _ H) as A. destruct Hq as [<-|Hq]; [exact A|].
  specialize (IH z (hull_tl _ _ H) q Hq). lia.
Qed.

(* a line found unnecessary lies above one of its neighbours everywhere *)
Lemma unnec a2 b2 a b s i x : a2 < a -> a < s -> (b2 - b) * (s - a) <= (b - i) * (a - a2) ->
  a2 * x + b2 <= a * x + b \/ s * x + i <= a * x + b.
Proof.
  intros A B C. destruct (Z_le_gt_dec (a2 * x + b2) (a * x + b)) as [D|D]; [auto|].
  destruct (Z_le_gt_dec (s * x + i) (a * x + b)) as [F|F]; [auto|]. exfalso.
  assert (D1 : (a - a2) * x < b2 - b) by lia. assert (F1 : b - i < (s - a) * x) by lia.
  assert (M1 : (a - a2) * x * (s - a) < (b2 - b) * (s - a)) by (apply Z.mul_lt_mono_pos_r; lia).
  assert (M2 : (b - i) * (a - a2) < (s - a) * x * (a - a2)) by (apply Z.mul_lt_mono_pos_r; lia).
  replace ((s - a) * x * (a - a2)) with ((a - a2) * x * (s - a)) in M2 by ring. lia.
Qed.
Lemma nec_step p q z x : fst z < fst q -> fst q < fst p -> is_nec z q p = true -> at_x x p < at_x x q -> at_x x q < at_x x z.
Proof.
  destruct p as [a0 b0], q as [a1 b1], z as [a2 b2]; unfold is_nec, at_x; cbn [fst snd]. intros A B N C.
  apply Z.ltb_lt in N.
  assert (C1 : (a0 - a1) * x < b1 - b0) by lia.
  assert (M : (a0 - a1) * x * (a1 - a2) < (b1 - b0) * (a1 - a2)) by (apply Z.mul_lt_mono_pos_r; lia).
  assert (G : (a1 - a2) * x < b2 - b1).
  { apply (Z.mul_lt_mono_pos_r (a0 - a1)); [lia|].
    replace ((a1 - a2) * x * (a0 - a1)) with ((a0 - a1) * x * (a1 - a2)) by ring. lia. }
  lia.
Qed.

Definition covers (l' l : list (Z * Z)) (x : Z) : Prop := forall m, In m l -> exists m', In m' l' /\ at_x x m' <= at_x x m.

Lemma add_left_ok l p : hull l -> (forall q, In q l -> fst q <= fst p) ->
  let l' := add_left l p in hull l' /\ l' <> [] /\ incl l' (p :: l) /\ forall x, covers l' (p :: l) x.
Proof.
  induction l as [|q r IH]; intros H S; cbn zeta.
  { cbn [add_left]. split; [apply hull_1|]. split; [discriminate|]. split; [apply incl_refl|].
    intros x m Hm. exists m; split; auto; lia. }
  assert (Sr : forall z, In z r -> fst z <= fst p) by (intros z Hz; apply S; right; auto).
  specialize (IH (hull_tl _ _ H) Sr). cbn zeta in IH.
  assert (Hself : forall l', l' = p :: q :: r -> l' <> [] /\ incl l' (p :: q :: r) /\ forall x, covers l' (p :: q :: r) x).
  { intros l' ->. split; [discriminate|]. split; [apply incl_refl|]. intros x m Hm; exists m; split; auto; lia. }
  assert (Hpop : (forall x, exists m', In m' (p :: r) /\ at_x x m' <= at_x x q) ->
     hull (add_left r p) /\ add_left r p <> [] /\ incl (add_left r p) (p :: q :: r) /\ forall x, covers (add_left r p) (p :: q :: r) x).
  { intros D. destruct IH as (I1 & I2 & I3 & I4). split; [auto|]. split; [auto|]. split.
    - intros z Hz. destruct (I3 z Hz) as [<-|Hz']; [left|right; right]; auto.
    - intros x m [<-|[<-|Hm]].
      + apply I4; left; auto.
      + destruct (D x) as (m' & Hm' & L). destruct (I4 x m' Hm') as (m2 & J1 & J2). exists m2; split; auto; lia.
      + apply I4; right; auto. }
  cbn [add_left]. destruct (Z.eqb_spec (fst q) (fst p)) as [E|E].
  - destruct (Z.leb_spec (snd q) (snd p)) as [L|L].
    + split; [exact H|]. split; [discriminate|]. split; [intros z Hz; right; exact Hz|].
      intros x m [<-|Hm].
      * exists q; split; [left; auto|]. unfold at_x. rewrite E. lia.
      * exists m; split; auto; lia.
    + apply Hpop. intros x. exists p; split; [left; auto|]. unfold at_x. rewrite E. lia.
  - assert (Eq : fst q < fst p) by (specialize (S q (or_introl eq_refl)); lia).
    destruct r as [|z r].
    + split; [apply hull_2; auto|]. apply Hself; reflexivity.
    + destruct (is_nec z q p) eqn:N.
      * split; [apply hull_cons; auto|]. apply Hself; reflexivity.
      * apply Hpop. intros x. unfold is_nec in N. apply Z.ltb_ge in N.
        destruct (unnec (fst z) (snd z) (fst q) (snd q) (fst p) (snd p) x (hull_head _ _ _ H) Eq N) as [K|K].
        -- exists z; split; [right; left; auto|exact K].
        -- exists p; split; [left; auto|exact K].
Qed.
Lemma add_back_mir l p : mir (add_back l p) = add_left (mir l) (mp p).
Proof.
  induction l as [|q r IH]; [reflexivity|]. cbn [add_back mir map add_left]. fold (mir r).
  assert (E : (fst (mp q) =? fst (mp p)) = (fst q =? fst p)).
  { destruct p, q; cbn [mp fst]. apply Bool.eq_iff_eq_true. rewrite !Z.eqb_eq. lia. }
  rewrite E. change (snd (mp q)) with (snd q). change (snd (mp p)) with (snd p).
  destruct (fst q =? fst p).
  - destruct (snd q <=? snd p); [reflexivity|exact IH].
  - destruct r as [|z r]; [reflexivity|]. cbn [mir map]. rewrite nec_mp. destruct (is_nec p q z); [reflexivity|exact IH].
Qed.
Lemma In_mir q l : In q (mir l) <-> In (mp q) l.
Proof.
  unfold mir. rewrite in_map_iff. split.
  - intros (z & <- & Hz). rewrite mp_mp. exact Hz.
  - intros Hq. exists (mp q). split; [apply mp_mp|exact Hq].
Qed.
Lemma covers_mir l' l x : covers (mir l') (mir l) (- x) -> covers l' l x.
Proof.
  intros H m Hm. destruct (H (mp m)) as (m' & A & B). { apply In_mir. rewrite mp_mp. exact Hm. }
  exists (mp m'). split; [apply In_mir; exact A|]. rewrite at_mp in B.
  rewrite <- (at_mp x (mp m')), mp_mp. exact B.
Qed.
Lemma rev_hull_mir l : hull (mir (rev l)) <-> hull l.
Proof.
  assert (E : mir (rev l) = rev (mir l)) by (unfold mir; apply map_rev). rewrite E. split.
  - intros H. apply hull_rev_mir in H. unfold mir in H at 1. rewrite map_rev in H. fold (mir (mir l)) in H.
    rewrite rev_involutive, mir_mir in H. exact H.
  - apply hull_rev_mir.
Qed.
Lemma add_right_ok l p : hull l -> (forall q, In q l -> fst p <= fst q) ->
  let l' := add_right l p in hull l' /\ l' <> [] /\ incl l' (p :: l) /\ forall x, covers l' (p :: l) x.
Proof.
  intros H S. cbn zeta. unfold add_right.
  destruct (add_left_ok (mir (rev l)) (mp p)) as (A & B & C & D).
  { apply rev_hull_mir; exact H. }
  { intros q Hq. apply (proj1 (In_mir _ _)) in Hq. apply in_rev in Hq. specialize (S _ Hq). destruct p, q; cbn [mp fst] in *. lia. }
  cbn zeta in *. rewrite <- add_back_mir in *. set (w := add_back (rev l) p) in *.
  split; [apply rev_hull_mir; rewrite rev_involutive; exact A|].
  split. { intros E. apply (f_equal (@rev _)) in E. rewrite rev_involutive in E. rewrite E in B. apply B; reflexivity. }
  split.
  - intros z Hz. apply in_rev in Hz. assert (Hz2 : In (mp z) (mir w)) by (apply In_mir; rewrite mp_mp; exact Hz).
    destruct (C _ Hz2) as [K|K].
    + left. rewrite <- (mp_mp p), K, mp_mp. reflexivity.
    + right. apply (proj1 (In_mir _ _)) in K. rewrite mp_mp in K. apply in_rev. exact K.
  - intros x m Hm. assert (Cv : covers w (p :: rev l) x). { apply covers_mir. cbn [mir map]. apply D. }
    destruct (Cv m) as (m' & J1 & J2). { destruct Hm as [<-|Hm]; [left; auto|right; apply in_rev in Hm; exact Hm]. }
    exists m'; split; auto. apply in_rev in J1. exact J1.
Qed.

(* ---- questions ---- *)
Lemma incr_all p l x : hull (p :: l) -> (match l with [] => True | q :: _ => at_x x p < at_x x q end) ->
  forall m, In m (p :: l) -> at_x x p <= at_x x m.
Proof.
  revert p; induction l as [|q l IH]; intros p H E m Hm.
  { destruct Hm as [<-|[]]; lia. }
  destruct Hm as [<-|Hm]; [lia|]. assert (at_x x q <= at_x x m); [|lia]. apply IH; auto.
  - apply (hull_tl _ _ H).
  - destruct l as [|z l]; [auto|]. destruct H as [H1 H2].
    apply (nec_step p q z x); auto. + apply (H1 [p] q z l eq_refl). + apply (H1 [] p q (z :: l) eq_refl). + apply (H2 [] p q z l eq_refl).
Qed.
Lemma q_pop_ok x l p : hull (p :: l) ->
  exists p' l', q_pop x (at_x x p) (p :: l) = (at_x x p', p' :: l') /\ hull (p' :: l') /\ incl (p' :: l') (p :: l) /\
    (forall y, x <= y -> covers (p' :: l') (p :: l) y) /\ forall m, In m (p' :: l') -> at_x x p' <= at_x x m.
Proof.
  revert p; induction l as [|q l IH]; intros p H.
  { exists p, []. cbn [q_pop]. split; [reflexivity|]. split; [exact H|]. split; [apply incl_refl|]. split.
    - intros y _ m Hm; exists m; split; auto; lia.
    - apply (incr_all p [] x H I). }
  cbn [q_pop]. cbn zeta. change (fst q * x + snd q) with (at_x x q).
  destruct (Z.ltb_spec (at_x x p) (at_x x q)) as [L|L].
  - exists p, (q :: l). split; [reflexivity|]. split; [exact H|]. split; [apply incl_refl|]. split.
    + intros y _ m Hm; exists m; split; auto; lia.
    + apply (incr_all p (q :: l) x H L).
  - destruct (IH q (hull_tl _ _ H)) as (p' & l' & E & A & B & C & D). exists p', l'. split; [exact E|]. split; [exact A|].
    split. { intros z Hz. right. apply B; auto. }
    split; [|exact D]. intros y Hy m [<-|Hm]; [|apply C; auto].
    destruct (C y Hy q (or_introl eq_refl)) as (m' & J1 & J2). exists m'; split; auto.
    pose proof (hull_head _ _ _ H) as HH. unfold at_x in *.
    assert (G : (fst p - fst q) * (y - x) >= 0) by (apply Z.le_ge, Z.mul_nonneg_nonneg; lia). nia.
Qed.

(* the values along the hull fall (not strictly), then rise strictly *)
Lemma unimodal x l : hull l -> l <> [] -> exists k, 0 <= k < zlen l /\
  (forall i p q, vget l i = Ok p -> vget l (i + 1) = Ok q -> i < k -> at_x x q <= at_x x p) /\
  (forall i p q, vget l i = Ok p -> vget l (i + 1) = Ok q -> k <= i -> at_x x p < at_x x q).
Proof.
  induction l as [|p l IH]; intros H N; [congruence|]. destruct l as [|q l].
  - exists 0. rewrite zlen_cons. change (zlen (@nil (Z*Z))) with 0. split; [lia|]. split; intros i p' q' A B C; [apply vget_range in A; lia|].
    apply vget_range in B. rewrite zlen_cons in B. change (zlen (@nil (Z*Z))) with 0 in B. lia.
  - pose proof (zlen_nonneg l) as Z0.
    destruct (Z_lt_ge_dec (at_x x p) (at_x x q)) as [L|L].
    + exists 0. rewrite !zlen_cons. split; [lia|]. split; [intros i p' q' A; apply vget_range in A; lia|].
      assert (G : forall i, 0 <= i -> forall p' q', vget (p :: q :: l) i = Ok p' -> vget (p :: q :: l) (i + 1) = Ok q' -> at_x x p' < at_x x q').
      { intros i Hi. apply (natlike_ind (fun i => forall p' q', vget (p :: q :: l) i = Ok p' -> vget (p :: q :: l) (i + 1) = Ok q' -> at_x x p' < at_x x q')); [| |exact Hi].
        - intros p' q' A B. rewrite vget_cons0 in A. rewrite vget_consS in B by lia. replace (0 + 1 - 1) with 0 in B by lia. rewrite vget_cons0 in B.
          inversion A; inversion B; subst; auto.
        - intros j Hj IHj p' q' A B. unfold Z.succ in *.
          destruct (vget_Ok (p :: q :: l) j) as (p0 & E0). { apply vget_range in A. lia. }
          specialize (IHj _ _ E0 A).
          destruct (vget_split _ _ _ E0) as (a & b & El & Ea).
          assert (Hb : exists b2, b = p' :: q' :: b2).
          { rewrite El in A, B. rewrite vget_app2 in A by lia. rewrite vget_app2 in B by lia.
            rewrite vget_consS in A by lia. rewrite vget_consS in B by lia.
            replace (j + 1 - zlen a - 1) with 0 in A by lia. replace (j + 1 + 1 - zlen a - 1) with 1 in B by lia.
            destruct b as [|b1 [|b2 b]].
            - unfold vget in A; discriminate.
            - unfold vget in B; discriminate.
            - rewrite vget_cons0 in A. rewrite vget_consS in B by lia. change (1 - 1) with 0 in B. rewrite vget_cons0 in B. inversion A; inversion B; subst. eauto. }
          destruct Hb as (b2 & ->). destruct H as [H1 H2].
          apply (nec_step p0 p' q' x).
          + apply (H1 (a ++ [p0]) p' q' b2). rewrite <- app_assoc. exact El.
          + apply (H1 a p0 p' (q' :: b2) El).
          + apply (H2 a p0 p' q' b2 El).
          + exact IHj. }
      intros i p' q' A B C. apply (G i C); auto.
    + destruct (IH (hull_tl _ _ H) ltac:(discriminate)) as (k & K1 & K2 & K3). exists (k + 1). rewrite zlen_cons. split; [lia|]. split.
      * intros i p' q' A B C. destruct (Z.eq_dec i 0) as [->|Hi].
        -- rewrite vget_cons0 in A. rewrite vget_consS in B by lia. replace (0 + 1 - 1) with 0 in B by lia. rewrite vget_cons0 in B.
           inversion A; inversion B; subst. lia.
        -- pose proof (vget_range _ _ _ A) as R. rewrite vget_consS in A by lia. rewrite vget_consS in B by lia.
           apply (K2 (i - 1)); [exact A| |lia]. replace (i - 1 + 1) with (i + 1 - 1) by lia. exact B.
      * intros i p' q' A B C. rewrite vget_consS in A by lia. rewrite vget_consS in B by lia.
        apply (K3 (i - 1)); [exact A| |lia]. replace (i - 1 + 1) with (i + 1 - 1) by lia. exact B.
Qed.
Lemma ev_ok l x i : 0 <= i < zlen l -> exists p, vget l i = Ok p /\ ev l x i = Ok (at_x x p).
Proof. intros H. destruct (vget_Ok l i H) as (p & E). exists p; split; auto. unfold ev. rewrite E. reflexivity. Qed.
Lemma falls x l k : (forall i p q, vget l i = Ok p -> vget l (i + 1) = Ok q -> i < k -> at_x x q <= at_x x p) ->
  forall d i p q, 0 <= d -> vget l i = Ok p -> vget l (i + d) = Ok q -> i + d <= k -> at_x x q <= at_x x p.
Proof.
  intros H d i p q Hd. revert q. pattern d. apply natlike_ind; [| |exact Hd].
  - intros q A B C. replace (i + 0) with i in B by lia. rewrite A in B. inversion B; subst; lia.
  - intros e He IH q A B C. unfold Z.succ in *. destruct (vget_Ok l (i + e)) as (r & Er).
    { apply vget_range in A. apply vget_range in B. lia. }
    specialize (IH r A Er ltac:(lia)). assert (at_x x q <= at_x x r); [|lia].
    apply (H (i + e)); [exact Er| |lia]. replace (i + e + 1) with (i + (e + 1)) by lia. exact B.
Qed.
Lemma rises x l k : (forall i p q, vget l i = Ok p -> vget l (i + 1) = Ok q -> k <= i -> at_x x p < at_x x q) ->
  forall d i p q, 0 < d -> vget l i = Ok p -> vget l (i + d) = Ok q -> k <= i -> at_x x p < at_x x q.
Proof.
  intros H d i p q Hd. assert (G : forall e, 0 <= e -> forall q, vget l i = Ok p -> vget l (i + (e + 1)) = Ok q -> k <= i -> at_x x p < at_x x q).
  { intros e He. pattern e. apply natlike_ind; [| |exact He].
    - intros q' A B C. apply (H i); auto.
    - intros f Hf IH q' A B C. unfold Z.succ in *. destruct (vget_Ok l (i + (f + 1))) as (r & Er).
      { apply vget_range in A. apply vget_range in B. lia. }
      specialize (IH r A Er C). assert (at_x x r < at_x x q'); [|lia].
      apply (H (i + (f + 1))); [exact Er| |lia]. replace (i + (f + 1) + 1) with (i + (f + 1 + 1)) by lia. exact B. }
  intros A B C. apply (G (d - 1)); auto; [lia|]. replace (d - 1 + 1) with d by lia. exact B.
Qed.
Lemma q_tern_ok l x : hull l -> l <> [] -> exists p, q_tern l x = Ok (at_x x p) /\ In p l /\ forall m, In m l -> at_x x p <= at_x x m.
Proof.
  intros H N. destruct (unimodal x l H N) as (k & K1 & K2 & K3). unfold q_tern.
  match goal with |- context [loop ?f ?b ?s] =>
    destruct (loop_inv (fun st : Z * Z => let '(a, c) := st in -1 <= a < k /\ k < c <= zlen l) (fun st : Z * Z => Z.to_nat (snd st - fst st))
      (fun st : Z * Z => let '(a, c) := st in a = k - 1 /\ c = k + 1) b f s) as ([a c] & E & Ea & Ec) end.
  - lia.
  - cbn [fst snd]. lia.
  - intros [a c] (A & C). cbn [fst snd]. destruct (Z.leb_spec 3 (c - a)) as [L|L].
    + cbv zeta. set (d := (c - a) / 3). assert (Hd : 1 <= d /\ 3 * d <= c - a).
      { unfold d. pose proof (Z.div_mod (c - a) 3 ltac:(lia)) as D1. pose proof (Z.mod_pos_bound (c - a) 3 ltac:(lia)) as D2. lia. }
      destruct (ev_ok l x (a + d)) as (p & P1 & P2); [lia|]. destruct (ev_ok l x (c - d)) as (q & Q1 & Q2); [lia|].
      rewrite P2; cbn [bind]. rewrite Q2; cbn [bind].
      destruct (Z.ltb_spec (at_x x p) (at_x x q)) as [F|F]; eexists; (split; [reflexivity|]); cbn [fst snd].
      * split; [|lia]. split; [lia|]. split; [|lia].
        destruct (Z_lt_ge_dec k (c - d)) as [G|G]; [exact G|exfalso].
        assert (at_x x q <= at_x x p); [|lia].
        apply (falls x l k K2 (c - d - (a + d)) (a + d) p q); [lia|exact P1| |lia]. replace (a + d + (c - d - (a + d))) with (c - d) by lia. exact Q1.
      * split; [|lia]. split; [|lia]. split; [lia|].
        destruct (Z_lt_ge_dec (a + d) k) as [G|G]; [exact G|exfalso].
        assert (at_x x p < at_x x q); [|lia].
        apply (rises x l k K3 (c - d - (a + d)) (a + d) p q); [lia|exact P1| |lia]. replace (a + d + (c - d - (a + d))) with (c - d) by lia. exact Q1.
    + exists (inr (a, c)). split; [reflexivity|]. lia.
  - rewrite E. cbn [bind]. destruct (Z.eqb_spec (c - a) 2) as [_|C]; [|lia]. cbn [assert_ bind].
    destruct (ev_ok l x (a + 1)) as (p & P1 & P2); [lia|]. exists p. split; [exact P2|]. split; [eapply vget_In; eassumption|].
    intros m Hm. apply In_vget in Hm. destruct Hm as (j & Rj & J).
    replace (a + 1) with k in P1 by lia.
    destruct (Z_le_gt_dec j k) as [G|G].
    + apply (falls x l k K2 (k - j) j m p); [lia|exact J| |lia]. replace (j + (k - j)) with k by lia. exact P1.
    + apply Z.lt_le_incl. apply (rises x l k K3 (j - k) k p m); [lia|exact P1| |lia]. replace (k + (j - k)) with j by lia. exact J.
Qed.
