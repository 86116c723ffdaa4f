From Verif Require Import Base BaseLemmas Bits ZMod Seq ListZ RingSum Transform_model Transform_spec Kron_proof Kron_alg Transform_proof Naive_proof MMD_proof Search_proof SubConv_spec SubConv_model.
From Coq Require Import Ring.
(* two runs that end the same way with related results *)
Definition rr {A B} (R : A -> B -> Prop) (m : res A) (m' : res B) : Prop :=
  match m, m' with Ok a, Ok b => R a b | UB, UB => True | Abort, Abort => True | OutOfFuel, OutOfFuel => True | _, _ => False end.
Lemma rr_bind {A B C D} (R : A -> B -> Prop) (Q : C -> D -> Prop) m m' f g : rr R m m' -> (forall a b, R a b -> rr Q (f a) (g b)) -> rr Q (bind m f) (bind m' g).
Proof. destruct m, m'; cbn; tauto || auto. Qed.
Lemma rr_for {A B} (R : A -> B -> Prop) lo hi b b' s s' : (forall i s s', R s s' -> rr R (b i s) (b' i s')) -> R s s' -> rr R (for_ lo hi b s) (for_ lo hi b' s').
Proof.
  intros Hb. unfold for_. generalize (Z.to_nat (hi - lo)). intro k. revert lo s s'. induction k; intros lo s s' H; cbn [for_up]; auto.
  eapply rr_bind; [now apply Hb|]. intros a c Hac. now apply IHk.
Qed.
Definition sumrel {A B C D} (R : A -> B -> Prop) (Q : C -> D -> Prop) (x : A + C) (y : B + D) : Prop :=
  match x, y with inl a, inl b => R a b | inr a, inr b => Q a b | _, _ => False end.
Lemma rr_loop {A B C D} (R : A -> B -> Prop) (Q : C -> D -> Prop) b b' : (forall s s', R s s' -> rr (sumrel R Q) (b s) (b' s')) ->
  forall k s s', R s s' -> rr Q (loop k b s) (loop k b' s').
Proof.
  intros Hb. induction k; intros s s' H; cbn [loop]; [exact I|]. eapply rr_bind; [now apply Hb|]. intros [a|a] [c|c] Hac; cbn in Hac; try tauto; auto.
Qed.
Lemma f2_len {A B} (R : A -> B -> Prop) x y : Forall2 R x y -> zlen x = zlen y.
Proof. induction 1; [reflexivity|]. rewrite !zlen_cons. lia. Qed.
Lemma rr_vget {A B} (R : A -> B -> Prop) x y i : Forall2 R x y -> rr R (vget x i) (vget y i).
Proof.
  intro H. unfold vget. destruct (i <? 0); [exact I|].
  generalize (Z.to_nat i). intro k. revert k. induction H; intros [|k]; cbn; auto.
Qed.
Lemma rr_vset {A B} (R : A -> B -> Prop) x y i a b : Forall2 R x y -> R a b -> rr (Forall2 R) (vset x i a) (vset y i b).
Proof.
  intros H Hab. unfold vset. rewrite (f2_len R x y H). destruct (_ && _); [|exact I]. cbn.
  unfold zupd. generalize (Z.to_nat i). intro k. revert k. induction H; intros [|k]; cbn; auto.
Qed.
(* the kron loop with a two-point transform, without the work array *)
Definition pair_step {S} (f : S -> S -> S * S) (block offset : Z) (x : list S) : res (list S) :=
  let* v0 := vget x (offset + 0 * block) in let* v1 := vget x (offset + 1 * block) in
  let* x := vset x (offset + 0 * block) (fst (f v0 v1)) in vset x (offset + 1 * block) (snd (f v0 v1)).
Definition kron2 {S} (f : S -> S -> S * S) (x : list S) : res (list S) :=
    let n := zlen x in
    loop (Datatypes.S (Z.to_nat n)) (fun '(block, x) =>
      if block <? n then
        let* x := loop (Datatypes.S (Z.to_nat n)) (fun '(l, x) =>
          if l <? n then
            let* x := for_ l (l + block) (fun offset x => pair_step f block offset x) x in
            Ok (inl (l + 2 * block, x))
          else Ok (inr x)) (0, x) in
        Ok (inl (block * 2, x))
      else Ok (inr x)) (1, x).
Lemma for_ext' {S} lo hi (b b' : Z -> S -> res S) s : (forall i s, b i s = b' i s) -> for_ lo hi b s = for_ lo hi b' s.
Proof. intro H. unfold for_. generalize (Z.to_nat (hi - lo)). intro k. revert lo s. induction k; intros; cbn [for_up]; auto. rewrite H. destruct (b' lo s); cbn; auto. Qed.
Lemma kron_kron2 {S} (d : S) f x : kron d 2 (unit2 f) x = kron2 f x.
Proof.
  unfold kron, kron2. cbv zeta. apply loop_ext. intros [block y]. destruct (block <? zlen x); [|reflexivity].
  match goal with |- bind ?a _ = bind ?b _ => replace a with b; [reflexivity|] end. symmetry.
  apply loop_ext. intros [l z]. destruct (l <? zlen x); [|reflexivity].
  match goal with |- bind ?a _ = bind ?b _ => replace a with b; [reflexivity|] end. symmetry. apply for_ext'. intros o w.
  rewrite !for_2. unfold pair_step. change (vrep 2 d) with [d; d].
  destruct (vget w (o + 0 * block)) as [v0| | |]; cbn [bind]; try reflexivity.
  change (vset [d; d] 0 v0) with (Ok [v0; d]). cbn [bind].
  destruct (vget w (o + 1 * block)) as [v1| | |]; cbn [bind]; try reflexivity.
  change (vset [v0; d] 1 v1) with (Ok [v0; v1]). cbn [bind].
  unfold unit2. change (vget [v0; v1] 0) with (Ok v0). change (vget [v0; v1] 1) with (Ok v1). cbn [bind]. destruct (f v0 v1) as [p q]. cbn [fst snd].
  change (vset [v0; v1] 0 p) with (Ok [p; v1]). cbn [bind]. change (vset [p; v1] 1 q) with (Ok [p; q]). cbn [bind].
  rewrite for_2. change (vget [p; q] 0) with (Ok p). change (vget [p; q] 1) with (Ok q). cbn [bind]. reflexivity.
Qed.
Lemma kron2_rel {A B} (R : A -> B -> Prop) f g x y :
  (forall a b c d, R a c -> R b d -> R (fst (f a b)) (fst (g c d)) /\ R (snd (f a b)) (snd (g c d))) -> Forall2 R x y -> rr (Forall2 R) (kron2 f x) (kron2 g y).
Proof.
  intros Hf H. unfold kron2. cbv zeta. rewrite (f2_len R x y H).
  apply (rr_loop (fun s s' => fst s = fst s' /\ Forall2 R (snd s) (snd s'))); [|split; auto].
  intros [bl x'] [bl' y'] [E H']. cbn [fst snd] in *. subst bl'. destruct (bl <? zlen y); [|exact H'].
  eapply rr_bind with (R := Forall2 R); [|intros a b Hab; cbn; auto].
  apply (rr_loop (fun s s' => fst s = fst s' /\ Forall2 R (snd s) (snd s'))); [|split; auto].
  intros [l z] [l' w] [E H2]. cbn [fst snd] in *. subst l'. destruct (l <? zlen y); [|exact H2].
  eapply rr_bind with (R := Forall2 R); [|intros a b Hab; cbn; auto].
  apply rr_for; auto. intros o s s' Hs. unfold pair_step.
  eapply rr_bind; [apply rr_vget; exact Hs|]. intros v0 v0' H0. eapply rr_bind; [apply rr_vget; exact Hs|]. intros v1 v1' H1.
  destruct (Hf v0 v1 v0' v1' H0 H1) as [Ha Hb].
  eapply rr_bind; [apply rr_vset; [exact Hs|exact Ha]|]. intros s2 s2' Hs2. now apply rr_vset.
Qed.
(* popcounts *)
Lemma pop_nonneg x : 0 <= popcount x.
Proof. destruct x as [|p|p]; cbn; try lia. induction p; cbn [pos_pop]; lia. Qed.
Lemma pop_le k x : 0 <= x < 2 ^ Z.of_nat k -> popcount x <= Z.of_nat k.
Proof.
  revert x. induction k; intros x Hx. { assert (x = 0) by (cbn in Hx; lia). subst. reflexivity. }
  destruct (dig2 k x Hx) as [Hd Hm]. rewrite (Z.div_mod x (2 ^ Z.of_nat k)) by (pose proof (p2 k); lia).
  rewrite Z.mul_comm, pop_digit by lia. specialize (IHk _ Hm). assert (popcount (x / 2 ^ Z.of_nat k) <= 1) by (destruct (two01 _ Hd) as [-> | ->]; cbn; lia). lia.
Qed.
Lemma pop_zero x : 0 <= x -> popcount x = 0 -> x = 0.
Proof.
  destruct x as [|p|p]; cbn; try lia. intros _ H. exfalso. assert (X : 1 <= pos_pop p) by (clear H; induction p; cbn [pos_pop]; lia). lia.
Qed.
Definition npop (x : N) : Z := match x with N0 => 0 | Npos p => pos_pop p end.
Lemma pos_pop_lor p : forall q, pos_pop (Pos.lor p q) + npop (Pos.land p q) = pos_pop p + pos_pop q.
Proof.
  induction p; destruct q; cbn [Pos.lor Pos.land pos_pop]; try (cbn [npop pos_pop]; lia).
  all: try (specialize (IHp q); destruct (Pos.land p q); cbn [Pos.Nsucc_double Pos.Ndouble N.succ_double N.double npop pos_pop] in *; lia).
Qed.
Lemma pop_lor x y : 0 <= x -> 0 <= y -> popcount (Z.lor x y) + popcount (Z.land x y) = popcount x + popcount y.
Proof.
  intros Hx Hy. destruct x as [|p|p], y as [|q|q]; try lia; cbn [Z.lor Z.land popcount]; try lia.
  rewrite <- (pos_pop_lor p q). f_equal. destruct (Pos.land p q); reflexivity.
Qed.
Lemma disjoint_pop t u : 0 <= t -> 0 <= u -> (popcount t + popcount u =? popcount (Z.lor t u)) = (Z.land t u =? 0).
Proof.
  intros Ht Hu. pose proof (pop_lor t u Ht Hu). assert (0 <= Z.land t u) by (apply Z.land_nonneg; lia).
  destruct (Z.eqb_spec (Z.land t u) 0) as [E|N].
  - rewrite E in H. cbn in H. apply Z.eqb_eq. lia.
  - apply Z.eqb_neq. intro X. apply N. apply pop_zero; lia.
Qed.
Lemma subset_bits x i : subset x i = true <-> forall m, 0 <= m -> Z.testbit x m = true -> Z.testbit i m = true.
Proof.
  unfold subset. rewrite Z.eqb_eq. split.
  - intros E m Hm Hx. rewrite <- E, Z.land_spec in Hx. now apply andb_true_iff in Hx.
  - intro H. apply Z.bits_inj'. intros m Hm. rewrite Z.land_spec. specialize (H m Hm). destruct (Z.testbit x m); auto.
Qed.
Lemma subset_lor t u i : subset (Z.lor t u) i = subset t i && subset u i.
Proof.
  apply eq_true_iff_eq. rewrite andb_true_iff, !subset_bits. split.
  - intro H. split; intros m Hm Hb; apply H; auto; rewrite Z.lor_spec, Hb; auto using orb_true_r.
  - intros [H1 H2] m Hm Hb. rewrite Z.lor_spec in Hb. apply orb_true_iff in Hb as [Hb|Hb]; auto.
Qed.
Lemma lor_range k t u : 0 <= t < 2 ^ Z.of_nat k -> 0 <= u < 2 ^ Z.of_nat k -> 0 <= Z.lor t u < 2 ^ Z.of_nat k.
Proof. apply (range_bits orb Z.lor lor_bits eq_refl eq_refl); [|lia]. intros a b Ha Hb. apply Z.lor_nonneg. auto. Qed.

Section SC.
  Context {T : Type}.
  Variables (r0 r1 : T) (add mul sub : T -> T -> T) (opp : T -> T).
  Hypothesis RT : ring_theory r0 r1 add mul sub opp (@eq T).
  Add Ring RSC : RT.
  Notation sum := (RingSum.sum r0 add).
  Notation at_ := (RingSum.at_ r0).
  Lemma fop_at op : (forall x, op x r0 = x) -> forall g f i, at_ (fop r0 op f g) i = op (at_ f i) (at_ g i).
  Proof.
    intros Hop g f i. unfold RingSum.at_. generalize (Z.to_nat i). revert f.
    induction g as [|y g IH]; intros f m.
    - replace (fop r0 op f []) with f by now destruct f. destruct m; cbn; now rewrite Hop.
    - destruct f as [|x f], m; cbn [fop nth]; auto. rewrite IH. now destruct m.
  Qed.
  Lemma fop_len op : forall g f, zlen (fop r0 op f g) = Z.max (zlen f) (zlen g).
  Proof.
    induction g as [|y g IH]; intros f.
    - replace (fop r0 op f []) with f by now destruct f. change (zlen (@nil T)) with 0. pose proof (zlen_nonneg f). lia.
    - destruct f as [|x f]; cbn [fop]; rewrite !zlen_cons, IH; change (zlen (@nil T)) with 0; pose proof (zlen_nonneg g); lia.
  Qed.
  Lemma at_tab n g j : 0 <= j < n -> at_ (tabulate n g) j = g j.
  Proof. intro H. apply (at_rep r0 _ n g); [apply map_rep; lia|auto]. Qed.
  Lemma tab_ext n (g h : Z -> T) : (forall j, 0 <= j < n -> g j = h j) -> tabulate n g = tabulate n h.
  Proof. intro H. apply map_ext_in. intros j Hj. apply In_zrange in Hj. auto. Qed.
  Lemma tab_len n (g : Z -> T) : 0 <= n -> zlen (tabulate n g) = n.
  Proof. intro H. apply (rep_len _ _ _ (map_rep g n H)). Qed.
  (* n series of length L with coefficients Q *)
  Definition mrep (L : Z) (fs : list (list T)) (n : Z) (Q : Z -> Z -> T) : Prop :=
    zlen fs = n /\ forall j, 0 <= j < n -> exists f, vget fs j = Ok f /\ zlen f = L /\ forall d, 0 <= d -> at_ f d = Q j d.
  Definition R (L d : Z) (p : list T) (v : T) : Prop := zlen p = L /\ at_ p d = v.
  Lemma mrep_f2 L fs n Q d : mrep L fs n Q -> 0 <= d -> Forall2 (R L d) fs (tabulate n (fun j => Q j d)).
  Proof.
    intros [Hl H] Hd. replace (tabulate n (fun j => Q j d)) with (map (fun p => at_ p d) fs).
    - assert (X : forall f, In f fs -> zlen f = L).
      { intros f Hf. apply In_vget in Hf as (j & Hj & E). destruct (H j ltac:(lia)) as (f' & E' & Lf & _). congruence. }
      clear H Hl. induction fs; cbn; constructor; [split; auto; apply X; now left|]. apply IHfs. intros f Hf. apply X. now right.
    - apply (rep_eq _ _ n (fun j => Q j d)).
      + split; [rewrite zlen_map; auto|]. intros j Hj. destruct (H j Hj) as (f & E & _ & C). rewrite vget_map, E. cbn [bind]. now rewrite C.
      + apply map_rep. rewrite <- Hl. apply zlen_nonneg.
  Qed.
  Lemma f2_mrep L ra n Q : 0 <= n -> (forall d, 0 <= d -> Forall2 (R L d) ra (tabulate n (fun j => Q j d))) -> mrep L ra n Q.
  Proof.
    intros Hn H. split.
    - rewrite (f2_len _ _ _ (H 0 ltac:(lia))). now apply tab_len.
    - intros j Hj. pose proof (rr_vget _ _ _ j (H 0 ltac:(lia))) as X. pose proof (map_rep (fun j => Q j 0) n Hn) as M. fold (tabulate n (fun j => Q j 0)) in M.
      rewrite (rep_get _ _ _ _ M Hj) in X. destruct (vget ra j) as [f| | |] eqn:E; cbn in X; try tauto. exists f. split; auto. split; [apply X|]. intros d Hd.
      pose proof (rr_vget _ _ _ j (H d Hd)) as Y. pose proof (map_rep (fun j => Q j d) n Hn) as M'. fold (tabulate n (fun j => Q j d)) in M'.
      rewrite (rep_get _ _ _ _ M' Hj), E in Y. apply Y.
  Qed.
  Lemma kron_m op L fs n Q Q' : (forall x, op x r0 = x) -> 0 <= n -> mrep L fs n Q ->
    (forall d, 0 <= d -> kron r0 2 (unit2 (fun x0 x1 => (x0, op x1 x0))) (tabulate n (fun j => Q j d)) = Ok (tabulate n (fun j => Q' j d))) ->
    exists ra, kron [] 2 (unit2 (fun x0 x1 => (x0, fop r0 op x1 x0))) fs = Ok ra /\ mrep L ra n Q'.
  Proof.
    intros Hop Hn Hm Hs.
    assert (K : forall d, 0 <= d -> rr (Forall2 (R L d)) (kron [] 2 (unit2 (fun x0 x1 => (x0, fop r0 op x1 x0))) fs) (Ok (tabulate n (fun j => Q' j d)))).
    { intros d Hd. rewrite <- Hs by auto. rewrite !kron_kron2. apply kron2_rel; [|now apply mrep_f2].
      intros a b c e [La Ea] [Lb Eb]. cbn [fst snd]. split; [now split|]. split; [rewrite fop_len; lia|]. rewrite fop_at by auto. now subst. }
    destruct (kron [] 2 _ fs) as [ra| | |] eqn:E; try (now destruct (K 0 ltac:(lia))). exists ra. split; auto. apply f2_mrep; auto.
  Qed.
  Definition zetaf (n : Z) (G : Z -> T) (i : Z) : T := sum 0 n (fun t => if subset t i then G t else r0).
  Lemma zeta_tab k G : subset_zeta r0 add (tabulate (2 ^ Z.of_nat k) G) = Ok (tabulate (2 ^ Z.of_nat k) (zetaf (2 ^ Z.of_nat k) G)).
  Proof.
    pose proof (p2 k). rewrite (subset_zeta_ok r0 r1 add mul sub opp RT _ k) by (unfold pow2len; apply tab_len; lia). f_equal. unfold subset_sums. rewrite tab_len by lia.
    apply tab_ext. intros i Hi. unfold zetaf. apply sum_ext. intros t Ht. now rewrite at_tab.
  Qed.
  Lemma mob_tab k G : subset_mobius r0 sub (tabulate (2 ^ Z.of_nat k) (zetaf (2 ^ Z.of_nat k) G)) = Ok (tabulate (2 ^ Z.of_nat k) G).
  Proof.
    pose proof (p2 k). destruct (subset_inverse r0 r1 add mul sub opp RT (tabulate (2 ^ Z.of_nat k) G) k) as [E _]; [unfold pow2len; apply tab_len; lia|].
    now rewrite zeta_tab in E.
  Qed.
  Lemma ctz_pow k : Bits.ctz_ (2 ^ Z.of_nat k) = Ok (Z.of_nat k).
  Proof.
    pose proof (p2 k). unfold Bits.ctz_. rewrite (proj2 (Z.eqb_neq _ _)) by lia. f_equal.
    transitivity (Bits.ctz (2 ^ Z.of_nat k * (2 * 0 + 1))); [f_equal; lia|]. apply Bits.ctz_unique; lia.
  Qed.
  Lemma low_pow k : Z.land (- 2 ^ Z.of_nat k) (2 ^ Z.of_nat k) = 2 ^ Z.of_nat k.
  Proof.
    pose proof (p2 k). rewrite Z.land_comm. change (Bits.lowbit (2 ^ Z.of_nat k) = 2 ^ Z.of_nat k). rewrite Bits.lowbit_ctz by lia. f_equal.
    transitivity (Bits.ctz (2 ^ Z.of_nat k * (2 * 0 + 1))); [f_equal; lia|]. apply Bits.ctz_unique; lia.
  Qed.
  Lemma at_out f d : zlen f <= d -> at_ f d = r0.
  Proof. intro H. unfold RingSum.at_. apply nth_overflow. unfold zlen in H. lia. Qed.
  Lemma at_zupd f i v d : 0 <= i < zlen f -> 0 <= d -> at_ (zupd f i v) d = if d =? i then v else at_ f d.
  Proof.
    intros Hi Hd. destruct (Z.lt_ge_cases d (zlen f)) as [Hl|Hl].
    - rewrite (at_rep r0 _ _ _ d (rep_upd _ _ _ i v (rep_at r0 f) Hi)) by lia. unfold fupd. reflexivity.
    - rewrite !at_out by (rewrite ?zlen_zupd; lia). destruct (Z.eqb_spec d i); [lia|reflexivity].
  Qed.
  Lemma ensure_id f i : i < zlen f -> ensure_deg r0 f i = f.
  Proof. intro H. unfold ensure_deg, vrep. replace (Z.to_nat (i + 1 - zlen f)) with O by lia. apply app_nil_r. Qed.
  Lemma ranked_ok a k : zlen a = 2 ^ Z.of_nat k ->
    exists fs, ranked r0 a = Ok fs /\ mrep (Z.of_nat k + 1) fs (2 ^ Z.of_nat k) (fun j d => if d =? popcount j then at_ a j else r0).
  Proof.
    intro Ha. pose proof (p2 k) as Hp. unfold ranked. cbv zeta. rewrite Ha, low_pow, Z.eqb_refl. cbn [assert_ bind]. rewrite ctz_pow. cbn [bind].
    set (L := Z.of_nat k + 1). set (n := 2 ^ Z.of_nat k) in *.
    match goal with |- context [for_ 0 n ?b ?s] =>
      destruct (for_inv (fun i fs => mrep L fs n (fun j d => if (j <? i) && (d =? popcount j) then at_ a j else r0)) 0 n b s) as (fs & E & H) end; [lia| | |].
    - split; [apply zlen_vrep; lia|]. intros j Hj. exists (vrep L r0). rewrite vget_vrep by lia. split; auto. split; [apply zlen_vrep; unfold L; lia|].
      intros d Hd. rewrite (proj2 (Z.ltb_ge j 0)) by lia. cbn [andb]. destruct (Z.lt_ge_cases d L) as [Hl|Hl].
      + apply (at_rep r0 _ L (fun _ => r0)); [apply rep_vrep; unfold L; lia|lia].
      + apply at_out. rewrite zlen_vrep; unfold L in *; lia.
    - intros i fs Hi [Hl H]. destruct (H i Hi) as (f & Ef & Lf & Cf). rewrite Ef. cbn [bind].
      rewrite (rep_get _ _ _ _ (rep_at r0 a)) by lia. cbn [bind].
      pose proof (pop_nonneg i) as P0. pose proof (pop_le k i Hi) as P1. unfold fset. rewrite ensure_id by (rewrite Lf; unfold L; lia). rewrite vset_ok by (rewrite Lf; unfold L; lia). cbn [bind].
      rewrite vset_ok by lia. eexists; split; [reflexivity|]. split; [now rewrite zlen_zupd|]. intros j Hj. rewrite vget_zupd by lia.
      destruct (Z.eqb_spec i j) as [<-|Nij].
      + eexists; split; [reflexivity|]. split; [now rewrite zlen_zupd|]. intros d Hd. rewrite at_zupd by (rewrite ?Lf; unfold L; lia). rewrite (proj2 (Z.ltb_lt i (i + 1))) by lia. cbn [andb].
        destruct (Z.eqb_spec d (popcount i)); auto. rewrite Cf by lia. now rewrite Z.ltb_irrefl.
      + destruct (H j Hj) as (f' & Ef' & Lf' & Cf'). exists f'. split; auto. split; auto. intros d Hd. rewrite Cf' by lia.
        replace (j <? i + 1) with (j <? i); auto. destruct (Z.ltb_spec j i), (Z.ltb_spec j (i + 1)); auto; lia.
    - exists fs. split; auto. destruct H as [Hl H]. split; auto. intros j Hj. destruct (H j Hj) as (f & Ef & Lf & Cf). exists f. split; auto. split; auto. intros d Hd. rewrite Cf by auto.
      now rewrite (proj2 (Z.ltb_lt j n)) by lia.
  Qed.
  (* product of two series of length L, cut to L terms *)
  Definition prodL (L : Z) (f g : Z -> T) (d : Z) : T :=
    if d <? L then sum 0 L (fun e => sum 0 L (fun e' => if e + e' =? d then mul (f e) (g e') else r0)) else r0.
  Lemma fmul_ok L f g : 1 <= L -> zlen f = L -> zlen g = L ->
    exists h, fmul r0 add mul f g (zlen f) = Ok h /\ zlen h = L /\ forall d, 0 <= d -> at_ h d = prodL L (at_ f) (at_ g) d.
  Proof.
    intros HL Lf Lg. unfold fmul. cbv zeta. rewrite Lf, Lg. rewrite (proj2 (Z.ltb_ge L 0)) by lia. rewrite (proj2 (Z.eqb_neq L 0)) by lia. cbn [orb].
    rewrite (Z.min_l L (L + L - 1)) by lia.
    match goal with |- context [for_ 0 L ?b ?s] =>
      destruct (add_loop' r0 r1 add mul sub opp RT L 0 L b (fun i d => sum 0 (Z.min L (L - i)) (fun j => if i + j =? d then mul (at_ f i) (at_ g j) else r0)) s (fun _ => r0)) as (h & E & Hh) end.
    - apply rep_vrep. lia.
    - intros i c q Hi Rc. apply (add_loop' r0 r1 add mul sub opp RT L 0 (Z.min L (L - i)) _ (fun j d => if i + j =? d then mul (at_ f i) (at_ g j) else r0)); auto.
      intros j c' q' Hj Rc'. apply (acc_one r0 r1 add mul sub opp RT); auto; lia.
    - exists h. split; auto. split; [apply Hh|]. intros d Hd. unfold prodL. destruct (Z.ltb_spec d L) as [Hl|Hl].
      + rewrite (at_rep r0 _ _ _ d Hh) by lia. transitivity (sum 0 L (fun i => sum 0 (Z.min L (L - i)) (fun j => if i + j =? d then mul (at_ f i) (at_ g j) else r0))); [ring|].
        apply sum_ext. intros i Hi. rewrite (sum_split _ _ _ _ _ _ RT 0 (Z.min L (L - i)) L) by lia.
        rewrite (sum_zero _ _ _ _ _ _ RT (Z.min L (L - i)) L); [ring|]. intros j Hj. rewrite (proj2 (Z.eqb_neq _ _)) by lia. reflexivity.
      + apply at_out. rewrite (rep_len _ _ _ Hh). lia.
  Qed.
  Lemma product_ok L n ra rb Q1 Q2 : 1 <= L -> 0 <= n -> mrep L ra n Q1 -> mrep L rb n Q2 ->
    exists rc, for_ 0 n (fun i ra => let* f := vget ra i in let* g := vget rb i in let* h := fmul r0 add mul f g (zlen f) in vset ra i h) ra = Ok rc /\
      mrep L rc n (fun j d => prodL L (Q1 j) (Q2 j) d).
  Proof.
    intros HL Hn Ma Mb.
    match goal with |- context [for_ 0 n ?b ?s] =>
      destruct (for_inv (fun i rc => mrep L rc n (fun j d => if j <? i then prodL L (Q1 j) (Q2 j) d else Q1 j d)) 0 n b s) as (fs & E & H) end; [lia| | |].
    - destruct Ma as [Hl H]. split; auto. intros j Hj. destruct (H j Hj) as (f & Ef & Lf & Cf). exists f. split; auto. split; auto. intros d Hd. rewrite Cf by auto.
      now rewrite (proj2 (Z.ltb_ge j 0)) by lia.
    - intros i rc Hi [Hl H]. destruct (H i Hi) as (f & Ef & Lf & Cf). destruct Mb as [_ Mb]. destruct (Mb i Hi) as (g & Eg & Lg & Cg). rewrite Ef. cbn [bind]. rewrite Eg. cbn [bind].
      destruct (fmul_ok L f g HL Lf Lg) as (h & Eh & Lh & Ch). rewrite Eh. cbn [bind]. rewrite vset_ok by lia. eexists; split; [reflexivity|].
      split; [now rewrite zlen_zupd|]. intros j Hj. rewrite vget_zupd by lia. destruct (Z.eqb_spec i j) as [<-|Nij].
      + exists h. split; auto. split; auto. intros d Hd. rewrite Ch by auto. rewrite (proj2 (Z.ltb_lt i (i + 1))) by lia. unfold prodL. destruct (d <? L); auto.
        apply sum_ext. intros e He. apply sum_ext. intros e' He'. rewrite Cf, Cg by lia. now rewrite Z.ltb_irrefl.
      + destruct (H j Hj) as (f' & Ef' & Lf' & Cf'). exists f'. split; auto. split; auto. intros d Hd. rewrite Cf' by lia.
        replace (j <? i + 1) with (j <? i); auto. destruct (Z.ltb_spec j i), (Z.ltb_spec j (i + 1)); auto; lia.
    - exists fs. split; auto. destruct H as [Hl H]. split; auto. intros j Hj. destruct (H j Hj) as (f & Ef & Lf & Cf). exists f. split; auto. split; auto. intros d Hd. rewrite Cf by auto.
      now rewrite (proj2 (Z.ltb_lt j n)) by lia.
  Qed.
  Lemma deranked_ok L n k rc Q : n = 2 ^ Z.of_nat k -> L = Z.of_nat k + 1 -> mrep L rc n Q -> deranked r0 rc = Ok (tabulate n (fun s => Q s (popcount s))).
  Proof.
    intros En EL [Hl H]. pose proof (p2 k) as Hp. unfold deranked. cbv zeta. rewrite Hl, En, low_pow, Z.eqb_refl. cbn [assert_ bind]. rewrite <- En in *.
    match goal with |- context [for_ 0 n ?b ?s0] =>
      destruct (for_inv (fun i c => rep c n (fun s => if s <? i then Q s (popcount s) else r0)) 0 n b s0) as (c & E & Rc) end; [lia| | |].
    - eapply rep_ext; [apply rep_vrep; lia|]. intros j Hj. cbn beta. now rewrite (proj2 (Z.ltb_ge j 0)) by lia.
    - intros i c Hi Rc. destruct (H i Hi) as (f & Ef & Lf & Cf). rewrite Ef. cbn [bind]. pose proof (pop_nonneg i) as P0. pose proof (pop_le k i ltac:(lia)) as P1.
      unfold fget. rewrite (proj2 (Z.leb_le _ _)) by lia. rewrite (rep_get _ _ _ _ (rep_at r0 f)) by lia. cbn [bind]. rewrite (rep_set _ _ _ _ _ Rc) by lia.
      eexists; split; [reflexivity|]. eapply rep_ext; [apply rep_upd; [exact Rc|lia]|]. intros j Hj. unfold fupd. rewrite Cf by lia.
      destruct (Z.eqb_spec j i) as [Eji|Nji]; destruct (Z.ltb_spec j i), (Z.ltb_spec j (i + 1)); try lia; auto. now subst j.
    - rewrite E. f_equal. apply rep_map. eapply rep_ext; [exact Rc|]. intros j Hj. cbn beta. now rewrite (proj2 (Z.ltb_lt j n)) by lia.
  Qed.
  (* pairs with union s whose sizes add up to d *)
  Definition G (n L : Z) (A B : Z -> T) (s d : Z) : T :=
    if d <? L then sum 0 n (fun t => sum 0 n (fun u => if (Z.lor t u =? s) && (popcount t + popcount u =? d) then mul (A t) (B u) else r0)) else r0.
  Lemma sum_if lo hi (b : bool) f : (if b then sum lo hi f else r0) = sum lo hi (fun i => if b then f i else r0).
  Proof. destruct b; auto. symmetry. now apply (sum_zero _ _ _ _ _ _ RT). Qed.
  Lemma zeta_G k L A B i d : L = Z.of_nat k + 1 -> 0 <= i < 2 ^ Z.of_nat k -> 0 <= d ->
    let n := 2 ^ Z.of_nat k in
    prodL L (fun e => zetaf n (fun t => if e =? popcount t then A t else r0) i) (fun e => zetaf n (fun t => if e =? popcount t then B t else r0) i) d = zetaf n (fun s => G n L A B s d) i.
  Proof.
    intros EL Hi Hd n. unfold prodL, G. destruct (d <? L); cycle 1.
    { unfold zetaf. symmetry. apply (sum_zero _ _ _ _ _ _ RT). intros t _. now destruct (subset t i). }
    set (X := fun t u => if (subset t i && subset u i) && (popcount t + popcount u =? d) then mul (A t) (B u) else r0).
    transitivity (sum 0 n (fun t => sum 0 n (fun u => X t u))).
    - set (Y := fun e e' t u => if e =? popcount t then (if e' =? popcount u then (if e + e' =? d then (if subset t i && subset u i then mul (A t) (B u) else r0) else r0) else r0) else r0).
      transitivity (sum 0 L (fun e => sum 0 L (fun e' => sum 0 n (fun t => sum 0 n (fun u => Y e e' t u))))).
      { apply sum_ext. intros e He. apply sum_ext. intros e' He'. unfold zetaf. rewrite (sum_mul _ _ _ _ _ _ RT). rewrite sum_if. apply sum_ext. intros t Ht. rewrite sum_if.
        apply sum_ext. intros u Hu. unfold Y. destruct (e + e' =? d), (subset t i), (subset u i), (e =? popcount t), (e' =? popcount u); cbn [andb]; ring. }
      transitivity (sum 0 n (fun t => sum 0 n (fun u => sum 0 L (fun e => sum 0 L (fun e' => Y e e' t u))))).
      { transitivity (sum 0 L (fun e => sum 0 n (fun t => sum 0 n (fun u => sum 0 L (fun e' => Y e e' t u))))).
        - apply sum_ext. intros e He. rewrite (sum_swap _ _ _ _ _ _ RT). apply sum_ext. intros t Ht. apply (sum_swap _ _ _ _ _ _ RT).
        - rewrite (sum_swap _ _ _ _ _ _ RT). apply sum_ext. intros t Ht. apply (sum_swap _ _ _ _ _ _ RT). }
      apply sum_ext. intros t Ht. apply sum_ext. intros u Hu. pose proof (pop_nonneg t). pose proof (pop_nonneg u). pose proof (pop_le k t Ht). pose proof (pop_le k u Hu).
      transitivity (sum 0 L (fun e => if e =? popcount t then (if e + popcount u =? d then (if subset t i && subset u i then mul (A t) (B u) else r0) else r0) else r0)).
      { apply sum_ext. intros e He. unfold Y. destruct (e =? popcount t); [|now apply (sum_zero _ _ _ _ _ _ RT)].
        apply (sum_one _ _ _ _ _ _ RT 0 L (popcount u) (fun e' => if e + e' =? d then (if subset t i && subset u i then mul (A t) (B u) else r0) else r0)). lia. }
      rewrite (sum_one _ _ _ _ _ _ RT 0 L (popcount t) (fun e => if e + popcount u =? d then (if subset t i && subset u i then mul (A t) (B u) else r0) else r0)) by lia.
      unfold X. destruct (subset t i && subset u i), (popcount t + popcount u =? d); reflexivity.
    - unfold zetaf.
      transitivity (sum 0 n (fun s => sum 0 n (fun t => sum 0 n (fun u => if s =? Z.lor t u then (if subset s i && (popcount t + popcount u =? d) then mul (A t) (B u) else r0) else r0)))).
      2:{ apply sum_ext. intros s Hs. rewrite sum_if. apply sum_ext. intros t Ht. rewrite sum_if. apply sum_ext. intros u Hu. rewrite (Z.eqb_sym s).
          destruct (Z.lor t u =? s), (subset s i), (popcount t + popcount u =? d); reflexivity. }
      symmetry. rewrite (sum_swap _ _ _ _ _ _ RT). apply sum_ext. intros t Ht. rewrite (sum_swap _ _ _ _ _ _ RT). apply sum_ext. intros u Hu.
      rewrite (sum_one _ _ _ _ _ _ RT 0 n (Z.lor t u) (fun s => if subset s i && (popcount t + popcount u =? d) then mul (A t) (B u) else r0)) by (now apply lor_range).
      unfold X. now rewrite subset_lor.
  Qed.
  Lemma mrep_ext L fs n Q Q' : mrep L fs n Q -> (forall j d, 0 <= j < n -> 0 <= d -> Q j d = Q' j d) -> mrep L fs n Q'.
  Proof. intros [Hl H] E. split; auto. intros j Hj. destruct (H j Hj) as (f & Ef & Lf & Cf). exists f. split; auto. split; auto. intros d Hd. rewrite Cf by auto. auto. Qed.
  Lemma ranked_zeta_ok a k : zlen a = 2 ^ Z.of_nat k ->
    exists fs, ranked_zeta r0 add a = Ok fs /\ mrep (Z.of_nat k + 1) fs (2 ^ Z.of_nat k) (fun j d => zetaf (2 ^ Z.of_nat k) (fun t => if d =? popcount t then at_ a t else r0) j).
  Proof.
    intro Ha. pose proof (p2 k) as Hp. destruct (ranked_ok a k Ha) as (fs & E & M). unfold ranked_zeta. rewrite E. cbn [bind].
    eapply kron_m; [intro; ring|lia|exact M|]. intros d Hd. apply (zeta_tab k (fun t => if d =? popcount t then at_ a t else r0)).
  Qed.
  Lemma subset_convolution_ok a b k : zlen a = 2 ^ Z.of_nat k -> zlen b = zlen a ->
    subset_convolution r0 add sub mul a b = Ok (disjoint_union_sums r0 add mul a b).
  Proof.
    intros Ha Hb. pose proof (p2 k) as Hp. unfold subset_convolution. cbv zeta. set (n := 2 ^ Z.of_nat k) in *. set (L := Z.of_nat k + 1).
    destruct (ranked_zeta_ok a k Ha) as (ra & Ea & Ma). destruct (ranked_zeta_ok b k ltac:(fold n; lia)) as (rb & Eb & Mb). rewrite Ea. cbn [bind]. rewrite Eb. cbn [bind]. rewrite Ha.
    destruct (product_ok L n ra rb _ _ ltac:(unfold L; lia) ltac:(lia) Ma Mb) as (rc & Ec & Mc). rewrite Ec. cbn [bind].
    assert (Mc' : mrep L rc n (fun j d => zetaf n (fun s => G n L (at_ a) (at_ b) s d) j)).
    { eapply mrep_ext; [exact Mc|]. intros j d Hj Hd. cbn beta. apply (zeta_G k L (at_ a) (at_ b) j d eq_refl Hj Hd). }
    unfold deranked_mobius.
    destruct (kron_m sub L rc n _ (fun s d => G n L (at_ a) (at_ b) s d) ltac:(intro; ring) ltac:(lia) Mc') as (rd & Ed & Md).
    { intros d Hd. apply (mob_tab k (fun s => G n L (at_ a) (at_ b) s d)). }
    unfold subset_mobius. rewrite Ed. cbn [bind]. rewrite (deranked_ok L n k rd _ eq_refl eq_refl Md). f_equal. unfold disjoint_union_sums. rewrite Hb, Ha.
    apply tab_ext. intros s Hs. unfold G. pose proof (pop_le k s Hs). rewrite (proj2 (Z.ltb_lt _ _)) by (unfold L; lia).
    apply sum_ext. intros t Ht. apply sum_ext. intros u Hu. destruct (Z.eqb_spec (Z.lor t u) s) as [<-|]; auto. now rewrite disjoint_pop by lia.
  Qed.
End SC.
