(* Ranks for a strict weak order, permutations of updates, and BinaryHeap. *)
From Verif Require Import Base BaseLemmas ListZ Seq Hist Heap_model Heap_spec.
From Coq Require Import Permutation.

(* ranks *)
Section Rank.
  Context {T : Type}.
  Variable lt : T -> T -> bool.
  Hypothesis W : strict_weak_order lt.
  Definition rank (l : list T) (x : T) : Z := zlen (filter (fun y => lt y x) l).
  Lemma rank_mono l x y : (forall z, lt z x = true -> lt z y = true) -> rank l x <= rank l y.
  Proof.
    intro H. unfold rank. induction l as [|a l IH]; cbn [filter]; [lia|].
    destruct (lt a x) eqn:E; [rewrite (H _ E), !zlen_cons; lia|]. destruct (lt a y); rewrite ?zlen_cons; lia.
  Qed.
  Lemma rank_lt l x y : In x l -> lt x y = true -> rank l x < rank l y.
  Proof.
    destruct W as (I & Tr & _). intros Hx H. apply in_split in Hx. destruct Hx as (l1 & l2 & ->).
    assert (M : forall l, rank l x <= rank l y) by (intro l; apply rank_mono; intros z Hz; eapply Tr; eauto).
    pose proof (M l1) as M1. pose proof (M l2) as M2. unfold rank in *. rewrite !filter_app, !zlen_app. cbn [filter].
    rewrite I, H, zlen_cons. lia.
  Qed.
  Lemma rank_spec l x y : In x l -> In y l -> lt x y = (rank l x <? rank l y).
  Proof.
    intros Hx Hy. destruct (lt x y) eqn:E; symmetry.
    - apply Z.ltb_lt. now apply rank_lt.
    - apply Z.ltb_ge. apply rank_mono. intros z Hz. destruct W as (I & Tr & Nt).
      destruct (lt z x) eqn:E'; auto. exfalso. rewrite (Nt z x y E' E) in Hz. discriminate.
  Qed.
End Rank.

(* permutations *)
Lemma upd_perm {A} (v : list A) i x y : nth_error v i = Some x -> Permutation (x :: upd v i y) (y :: v).
Proof.
  revert i; induction v as [|a v IH]; intros [|i] H; cbn in *; try discriminate.
  - injection H as ->. apply perm_swap.
  - rewrite perm_swap, (IH _ H). apply perm_swap.
Qed.
Lemma zupd_perm {A} (v : list A) i x y : vget v i = Ok x -> Permutation (x :: zupd v i y) (y :: v).
Proof.
  unfold vget, zupd. destruct (i <? 0); [discriminate|]. destruct (nth_error v (Z.to_nat i)) as [a|] eqn:E; [|discriminate].
  intro H. injection H as ->. now apply upd_perm.
Qed.
Lemma swap_perm {A} (v : list A) i j x y : vget v i = Ok x -> vget v j = Ok y -> 0 <= i < zlen v -> 
  Permutation (zupd (zupd v i y) j x) v.
Proof.
  intros Hi Hj B. apply (Permutation_cons_inv (a := y)). rewrite <- (zupd_perm v i x y Hi).
  apply zupd_perm. rewrite vget_zupd by lia. destruct (i =? j) eqn:E; auto.
Qed.
Lemma rep_swap {A} (v : list A) n g i j : rep v n g -> 0 <= i < n -> 0 <= j < n ->
  exists v', swap v i j = Ok v' /\ rep v' n (fupd (fupd g i (g j)) j (g i)) /\ Permutation v' v.
Proof.
  intros R Hi Hj. unfold swap. rewrite !(rep_get _ _ _ _ R) by lia. cbn [bind].
  rewrite (rep_set _ _ _ _ _ R) by lia. cbn [bind]. pose proof (rep_upd _ _ _ _ (g j) R Hi) as R1.
  rewrite (rep_set _ _ _ _ _ R1) by lia. eexists; split; [reflexivity|]. split; [now apply rep_upd|].
  destruct R as [L R]. apply swap_perm; auto. lia.
Qed.
Lemma rep_In {A} (v : list A) n g i : rep v n g -> 0 <= i < n -> In (g i) v.
Proof.
  intros R Hi. pose proof (rep_get _ _ _ _ R Hi) as H. unfold vget in H. destruct (i <? 0); [discriminate|].
  destruct (nth_error v (Z.to_nat i)) eqn:E; [|discriminate]. injection H as <-. eapply nth_error_In; eauto.
Qed.
Lemma In_rep {A} (v : list A) n g x : rep v n g -> In x v -> exists i, 0 <= i < n /\ g i = x.
Proof.
  intros [L R] H. apply In_nth_error in H. destruct H as (k & E).
  assert (k < length v)%nat by (apply nth_error_Some; congruence). unfold zlen in L.
  exists (Z.of_nat k). split; [lia|]. specialize (R (Z.of_nat k) ltac:(lia)). unfold vget in R.
  replace (Z.of_nat k <? 0) with false in R by lia. rewrite Nat2Z.id, E in R. congruence.
Qed.

(* the binary heap *)
Section BH.
  Context {T : Type}.
  Variable lt : T -> T -> bool.
  Variable cmp : bool.
  Notation before := (compare lt cmp).
  Variable univ : list T.
  Variable rk : T -> Z.
  Hypothesis RK : forall x y, In x univ -> In y univ -> before x y = (rk x <? rk y).

  Definition child (p c : Z) : Prop := c = 2 * p + 1 \/ c = 2 * p + 2.
  (* every edge below a node >= k is in order *)
  Definition heap_from (k n : Z) (g : Z -> Z) : Prop := forall p c, k <= p -> child p c -> c < n -> g p <= g c.

  Lemma heapify_up_ok v n h leaf : rep v n h -> incl v univ -> 0 <= leaf < n ->
    (forall p c, 0 <= p -> child p c -> c < n -> c <> leaf -> rk (h p) <= rk (h c)) -> (forall c, child leaf c -> n <= c) ->
    exists v' h', heapify_up lt cmp v leaf = Ok v' /\ rep v' n h' /\ Permutation v' v /\ heap_from 0 n (fun i => rk (h' i)).
  Proof.
    intros R I Hl Ho Hc. unfold heapify_up. rewrite (rep_get _ _ _ _ R) by lia. cbn [bind]. set (val := h leaf).
    match goal with |- context [loop ?fu ?bo ?st] =>
      destruct (loop_inv (fun '(cur, dat) => 0 <= cur <= leaf /\ exists g, rep (zupd dat cur val) n g /\ zlen dat = n /\ g cur = val /\
          Permutation (zupd dat cur val) v /\
          (forall p c, 0 <= p -> child p c -> c < n -> c <> cur -> rk (g p) <= rk (g c)) /\
          (forall p c, 0 <= p -> child p cur -> child cur c -> c < n -> rk (g p) <= rk (g c)))
        (fun s => Z.to_nat (fst s))
        (fun '(cur, dat) => 0 <= cur <= leaf /\ exists g, rep (zupd dat cur val) n g /\ zlen dat = n /\ Permutation (zupd dat cur val) v /\
          heap_from 0 n (fun i => rk (g i))) bo fu st) as ((cur, dat) & E & Q) end.
    - split; [lia|]. exists h. assert (E : zupd v leaf val = v) by (apply zupd_id; now apply (rep_get _ _ _ _ R)).
      rewrite E. split; [exact R|]. split; [apply R|]. split; auto. split; auto. split; auto.
      intros p c _ _ C L. specialize (Hc c C). lia.
    - cbn [fst]. lia.
    - intros (cur, dat) (B & g & Rg & Lg & Gc & Pm & Ho' & Hg). cbv beta iota.
      destruct (negb (cur =? 0)) eqn:E0.
      + cbv zeta. rewrite Z.shiftr_div_pow2 by lia. change (2 ^ 1) with 2. set (par := (cur - 1) / 2).
        assert (HP : child par cur /\ 0 <= par < cur) by (unfold child, par; lia). clearbody par. destruct HP as [HP HP'].
        assert (Gp : vget dat par = Ok (g par)).
        { rewrite <- (rep_get _ _ _ _ Rg) by lia. symmetry. apply vget_zupd_diff; lia. }
        rewrite Gp. cbn [bind].
        assert (IN : forall i, 0 <= i < n -> In (g i) univ).
        { intros i Hi. apply I. apply (Permutation_in _ Pm). now apply (rep_In _ _ _ _ Rg). }
        assert (In val univ) by (rewrite <- Gc; apply IN; lia).
        rewrite RK by (auto; apply IN; lia). destruct (rk val <? rk (g par)) eqn:E1; cbn [negb].
        * rewrite vset_ok by lia. cbn [bind]. eexists; split; [reflexivity|]. cbv beta iota. split; [|cbn [fst]; lia].
          split; [lia|]. exists (fupd (fupd g cur (g par)) par val).
          assert (Ez : zupd (zupd dat cur (g par)) par val = zupd (zupd (zupd dat cur val) cur (g par)) par val)
            by now rewrite zupd_zupd_same.
          rewrite Ez. split; [apply rep_upd; [apply rep_upd; auto; lia|lia]|]. split; [now rewrite zlen_zupd|].
          split; [apply fupd_same|]. split.
          { etransitivity; [|exact Pm]. apply swap_perm; rewrite ?zlen_zupd; try lia.
            - rewrite (rep_get _ _ _ _ Rg) by lia. now rewrite Gc.
            - apply (rep_get _ _ _ _ Rg). lia. }
          split.
          -- intros p c Hp C L N. pose proof (Ho' p c Hp C L) as H1. pose proof (Hg p c Hp) as H2. pose proof (Hg par c ltac:(lia) HP) as H3.
             unfold fupd. unfold child in *. 
             destruct (p =? par) eqn:F1; destruct (c =? par) eqn:F2; destruct (p =? cur) eqn:F3; destruct (c =? cur) eqn:F4;
             try apply Z.eqb_eq in F1; try apply Z.eqb_eq in F2; try apply Z.eqb_eq in F3; try apply Z.eqb_eq in F4;
             try subst p; try subst c; lia.
          -- intros p c Hp C1 C2 L. pose proof (Ho' p par Hp C1 ltac:(lia)) as H1. pose proof (Ho' par c ltac:(lia) C2 L) as H2.
             unfold fupd. unfold child in *.
             destruct (p =? par) eqn:F1; destruct (c =? par) eqn:F2; destruct (p =? cur) eqn:F3; destruct (c =? cur) eqn:F4; try lia.
        * eexists; split; [reflexivity|]. cbv beta iota. split; [lia|]. exists g. split; auto. split; auto. split; auto.
          intros p c Hp C L. destruct (Z.eq_dec c cur) as [->|]; [|apply Ho'; auto; lia].
          assert (p = par) by (unfold child in *; lia). subst p. rewrite Gc. lia.
      + eexists; split; [reflexivity|]. cbv beta iota. split; [lia|]. exists g. split; auto. split; auto. split; auto.
        intros p c Hp C L. apply Ho'; auto. unfold child in C. lia.
    - cbn zeta in E |- *. rewrite E. cbn [bind fst snd]. destruct Q as (B & g & Rg & Lg & Pm & Hh).
      rewrite vset_ok by lia. exists (zupd dat cur val), g. auto.
  Qed.

  Lemma heapify_down_ok v n h root : rep v n h -> incl v univ -> 0 <= root < n ->
    heap_from (root + 1) n (fun i => rk (h i)) ->
    exists v' h', heapify_down lt cmp v root = Ok v' /\ rep v' n h' /\ Permutation v' v /\ heap_from root n (fun i => rk (h' i)).
  Proof.
    intros R I Hl Ho. unfold heapify_down. rewrite (rep_get _ _ _ _ R) by lia. cbn [bind]. set (val := h root).
    assert (Lv : zlen v = n) by apply R. rewrite Lv. rewrite Z.shiftr_div_pow2 by lia. change (2 ^ 1) with 2.
    set (m := n / 2). assert (HM : 2 * m <= n <= 2 * m + 1) by (unfold m; lia). clearbody m.
    match goal with |- context [loop ?fu ?bo ?st] =>
      destruct (loop_inv (fun '(cur, dat) => root <= cur < n /\ exists g, rep (zupd dat cur val) n g /\ zlen dat = n /\ g cur = val /\
          Permutation (zupd dat cur val) v /\
          (forall p c, root <= p -> child p c -> c < n -> p <> cur -> rk (g p) <= rk (g c)) /\
          (forall p c, root <= p -> child p cur -> child cur c -> c < n -> rk (g p) <= rk (g c)))
        (fun s => Z.to_nat (n - fst s))
        (fun '(cur, dat) => root <= cur < n /\ exists g, rep (zupd dat cur val) n g /\ zlen dat = n /\ Permutation (zupd dat cur val) v /\
          heap_from root n (fun i => rk (g i))) bo fu st) as ((cur, dat) & E & Q) end.
    - split; [lia|]. exists h. assert (E : zupd v root val = v) by (apply zupd_id; now apply (rep_get _ _ _ _ R)).
      rewrite E. split; [exact R|]. split; [apply R|]. split; auto. split; auto. split.
      + intros p c Hp C L N. apply (Ho p c); auto. lia.
      + intros p c Hp C. unfold child in C. lia.
    - cbn [fst]. lia.
    - intros (cur, dat) (B & g & Rg & Lg & Gc & Pm & Ho' & Hg). cbv beta iota.
      destruct (cur <? m) eqn:E0.
      + cbv zeta. rewrite Z.shiftl_mul_pow2 by lia. change (2 ^ 1) with 2.
        assert (IN : forall i, 0 <= i < n -> In (g i) univ).
        { intros i Hi. apply I. apply (Permutation_in _ Pm). now apply (rep_In _ _ _ _ Rg). }
        assert (IV : In val univ) by (rewrite <- Gc; apply IN; lia).
        assert (GG : forall j, 0 <= j < n -> j <> cur -> vget dat j = Ok (g j)).
        { intros j Hj Nj. rewrite <- (rep_get _ _ _ _ Rg) by lia. symmetry. apply vget_zupd_diff; lia. }
        assert (exists ch, (if cur * 2 + 1 + 1 <? n then
            let* x := vget dat (cur * 2 + 1 + 1) in let* y := vget dat (cur * 2 + 1) in Ok (if before x y then cur * 2 + 1 + 1 else cur * 2 + 1)
            else Ok (cur * 2 + 1)) = Ok ch /\ child cur ch /\ ch < n /\ forall c, child cur c -> c < n -> rk (g ch) <= rk (g c)) as (ch & Ec & Cc & Lc & Mc).
        { destruct (cur * 2 + 1 + 1 <? n) eqn:E2.
          - rewrite !GG by lia. cbn [bind]. rewrite RK by (apply IN; lia).
            replace (cur * 2 + 1 + 1) with (2 * cur + 2) by lia. replace (cur * 2 + 1) with (2 * cur + 1) by lia.
            destruct (rk (g (2 * cur + 2)) <? rk (g (2 * cur + 1))) eqn:E3; eexists; (split; [reflexivity|]); unfold child; (split; [auto|]); (split; [lia|]);
              intros c [-> | ->]; lia.
          - eexists; split; [reflexivity|]. unfold child. split; [lia|]. split; [lia|]. intros c [-> | ->] L; [|lia].
            replace (cur * 2 + 1) with (2 * cur + 1) by lia. lia. }
        rewrite Ec. cbn [bind]. clear Ec. assert (Nc : ch <> cur /\ 0 <= ch) by (unfold child in Cc; lia).
        rewrite GG by lia. cbn [bind]. rewrite RK by (auto; apply IN; lia).
        destruct (rk (g ch) <? rk val) eqn:E1; cbn [negb].
        * rewrite vset_ok by lia. cbn [bind]. eexists; split; [reflexivity|]. cbv beta iota.
          split; [|cbn [fst]; unfold child in Cc; lia].
          split; [unfold child in Cc; lia|]. exists (fupd (fupd g cur (g ch)) ch val).
          assert (Ez : zupd (zupd dat cur (g ch)) ch val = zupd (zupd (zupd dat cur val) cur (g ch)) ch val)
            by now rewrite zupd_zupd_same.
          rewrite Ez. split; [apply rep_upd; [apply rep_upd; auto; lia|lia]|]. split; [now rewrite zlen_zupd|].
          split; [apply fupd_same|]. split.
          { etransitivity; [|exact Pm]. apply swap_perm; rewrite ?zlen_zupd; try lia.
            - rewrite (rep_get _ _ _ _ Rg) by lia. now rewrite Gc.
            - apply (rep_get _ _ _ _ Rg). lia. }
          split.
          -- intros p c Hp C L N. unfold fupd.
             destruct (Z.eq_dec c ch) as [->|N1].
             { assert (p = cur) by (unfold child in *; lia). subst p. rewrite !Z.eqb_refl. replace (cur =? ch) with false by lia. lia. }
             replace (c =? ch) with false by lia. replace (p =? ch) with false by lia.
             destruct (p =? cur) eqn:F3; [apply Z.eqb_eq in F3; subst p|].
             { replace (c =? cur) with false by (unfold child in C; lia). auto. }
             destruct (c =? cur) eqn:F4; [apply Z.eqb_eq in F4; subst c|apply Ho'; auto; lia]. apply Hg; auto.
          -- intros p c Hp C1 C2 L. assert (p = cur) by (unfold child in *; lia). subst p. unfold fupd.
             rewrite Z.eqb_refl. replace (cur =? ch) with false by lia. unfold child in C2, Cc.
             replace (c =? ch) with false by lia. replace (c =? cur) with false by lia. apply Ho'; auto. lia. unfold child; lia.
        * eexists; split; [reflexivity|]. cbv beta iota. split; [lia|]. exists g. split; auto. split; auto. split; auto.
          intros p c Hp C L. destruct (Z.eq_dec p cur) as [->|]; [|apply Ho'; auto; lia].
          specialize (Mc c C L). rewrite Gc. lia.
      + eexists; split; [reflexivity|]. cbv beta iota. split; [lia|]. exists g. split; auto. split; auto. split; auto.
        intros p c Hp C L. apply Ho'; auto. unfold child in C. lia.
    - cbn zeta in E |- *. rewrite E. cbn [bind fst snd]. destruct Q as (B & g & Rg & Lg & Pm & Hh).
      rewrite vset_ok by lia. exists (zupd dat cur val), g. auto.
  Qed.

  Definition heap_v (k : Z) (v : list T) : Prop :=
    forall p c x y, k <= p -> 0 <= p -> child p c -> vget v p = Ok x -> vget v c = Ok y -> rk x <= rk y.
  Lemma heap_v_rep k v h : 0 <= k -> rep v (zlen v) h -> (heap_v k v <-> heap_from k (zlen v) (fun i => rk (h i))).
  Proof.
    intros K R. split.
    - intros H p c Hp C L. unfold child in C. apply (H p c); auto; try (apply (rep_get _ _ _ _ R); lia). lia.
    - intros H p c x y Hp Hp' C Ex Ey. pose proof (vget_range _ _ _ Ey) as By. pose proof (vget_range _ _ _ Ex) as Bx.
      rewrite (rep_get _ _ _ _ R) in Ex by lia. rewrite (rep_get _ _ _ _ R) in Ey by lia.
      injection Ex as <-. injection Ey as <-. apply (H p c); auto. lia.
  Qed.
  Lemma rep_ex {A} (v : list A) i : 0 <= i < zlen v -> exists h, rep v (zlen v) h.
  Proof. intro H. destruct v as [|x v]; [change (zlen (@nil A)) with 0 in H; lia|]. exists (fun i => nth (Z.to_nat i) (x :: v) x). apply rep_nth. Qed.
  Lemma down_ok v root : incl v univ -> 0 <= root < zlen v -> heap_v (root + 1) v ->
    exists v', heapify_down lt cmp v root = Ok v' /\ Permutation v' v /\ heap_v root v'.
  Proof.
    intros I B H. destruct (rep_ex v root B) as (h & R). apply (proj1 (heap_v_rep (root + 1) v h ltac:(lia) R)) in H.
    destruct (heapify_down_ok v (zlen v) h root R I B H) as (v' & h' & E & R' & P & H').
    exists v'. split; auto. split; auto. assert (L : zlen v' = zlen v) by apply R'. rewrite <- L in R', H'.
    apply (heap_v_rep root v' h'); auto. lia.
  Qed.
  Lemma construct_heap_ok v : incl v univ ->
    exists v', construct_heap lt cmp v = Ok v' /\ Permutation v' v /\ heap_v 0 v'.
  Proof.
    intro I. unfold construct_heap. rewrite Z.shiftr_div_pow2 by lia. change (2 ^ 1) with 2.
    pose proof (zlen_nonneg v) as N0. set (m := zlen v / 2).
    assert (HM : 2 * m <= zlen v <= 2 * m + 1) by (unfold m; lia). clearbody m.
    apply (ford_inv (fun i d => Permutation d v /\ heap_v i d)); [lia| |].
    - split; auto. intros p c x y Hp Hp' C Ex Ey. pose proof (vget_range _ _ _ Ey). unfold child in C. lia.
    - intros i d Hi (P & H). assert (L : zlen d = zlen v) by (unfold zlen; now rewrite (Permutation_length P)).
      destruct (down_ok d (i - 1)) as (d' & E & P' & H').
      + intros x Hx. apply I. eapply Permutation_in; eauto.
      + lia.
      + now replace (i - 1 + 1) with i by lia.
      + exists d'. split; auto. split; auto. etransitivity; eauto.
  Qed.
  Lemma heap_v_app v x c y p z : heap_v 0 v -> child p c -> 0 <= p -> c < zlen v -> vget (v ++ [x]) p = Ok y -> vget (v ++ [x]) c = Ok z -> rk y <= rk z.
  Proof.
    intros H C Hp L Ey Ez. unfold child in C. rewrite vget_app1 in Ey, Ez by lia. apply (H p c y z); auto.
  Qed.
  Lemma push_ok v x : incl (x :: v) univ -> heap_v 0 v ->
    exists v', bh_push lt cmp v x = Ok v' /\ Permutation v' (x :: v) /\ heap_v 0 v'.
  Proof.
    intros I H. unfold bh_push. set (w := v ++ [x]). pose proof (zlen_nonneg v).
    assert (Lw : zlen w = zlen v + 1) by (unfold w; rewrite zlen_app; reflexivity).
    destruct (rep_ex w 0 ltac:(lia)) as (h & R). rewrite Lw in *.
    destruct (heapify_up_ok w (zlen v + 1) h (zlen v + 1 - 1) R) as (v' & h' & E & R' & P & H').
    - intros y Hy. apply I. unfold w in Hy. apply in_app_iff in Hy. destruct Hy as [Hy|[->|[]]]; [now right|now left].
    - lia.
    - intros p c Hp C L N. unfold child in C. eapply (heap_v_app v x c _ p); eauto; fold w; try (apply (rep_get _ _ _ _ R)); unfold child; lia.
    - intros c C. unfold child in C. lia.
    - exists v'. split; auto. split.
      + etransitivity; [exact P|]. unfold w. symmetry. apply Permutation_cons_append.
      + assert (L : zlen v' = zlen v + 1) by apply R'. rewrite <- L in R', H'. apply (heap_v_rep 0 v' h'); auto. lia.
  Qed.
  Lemma heap_root v x y : incl v univ -> heap_v 0 v -> vget v 0 = Ok x -> In y v -> rk x <= rk y.
  Proof.
    intros I H Ex Hy. pose proof (vget_range _ _ _ Ex) as B. destruct (rep_ex v 0 B) as (h & R).
    apply (proj1 (heap_v_rep 0 v h ltac:(lia) R)) in H. rewrite (rep_get _ _ _ _ R) in Ex by lia. injection Ex as <-.
    destruct (In_rep _ _ _ _ R Hy) as (i & Hi & <-). clear Hy.
    assert (forall k i, 0 <= i < zlen v -> i <= Z.of_nat k -> rk (h 0) <= rk (h i)) as A.
    { clear i Hi. induction k as [|k IH]; intros i Hi L.
      - replace i with 0 by lia. lia.
      - destruct (Z.eq_dec i 0) as [->|N]; [lia|]. pose proof (IH ((i - 1) / 2) ltac:(lia) ltac:(lia)) as H1.
        assert (C : child ((i - 1) / 2) i) by (unfold child; lia). specialize (H ((i - 1) / 2) i ltac:(lia) C ltac:(lia)). cbv beta in H. lia. }
    apply (A (Z.to_nat i)); lia.
  Qed.
  Lemma heap_first v x : incl v univ -> heap_v 0 v -> vget v 0 = Ok x -> first_of before v x.
  Proof.
    intros I H Ex. assert (In x v).
    { pose proof (vget_range _ _ _ Ex) as B. destruct (rep_ex v 0 B) as (h & R). rewrite (rep_get _ _ _ _ R) in Ex by lia.
      injection Ex as <-. now apply (rep_In _ _ _ _ R). }
    split; auto. intros y Hy. rewrite RK by auto. apply Z.ltb_ge. eapply heap_root; eauto.
  Qed.
  Lemma pop_ok v : incl v univ -> heap_v 0 v -> 2 <= zlen v ->
    exists x v', bh_pop lt cmp v = Ok (x, v') /\ Permutation v (x :: v') /\ heap_v 0 v' /\ first_of before v x.
  Proof.
    intros I H L. unfold bh_pop. replace (zlen v =? 0) with false by lia. cbn [negb assert_ bind].
    destruct (rep_ex v 0 ltac:(lia)) as (h & R). 
    destruct (rep_swap v (zlen v) h 0 (zlen v - 1) R) as (w & Es & Rw & Pw); try lia. rewrite Es. cbn [bind].
    assert (Lw : zlen w = zlen v) by apply Rw. rewrite Lw. rewrite (rep_get _ _ _ _ Rw) by lia. rewrite fupd_same. cbn [bind].
    destruct (vget_last w) as (w' & x & Ew & L' & G & Er); [intros ->; change (zlen (@nil T)) with 0 in Lw; lia|]. rewrite Er.
    rewrite Lw in G. rewrite (rep_get _ _ _ _ Rw), fupd_same in G by lia. injection G as G.
    assert (P1 : Permutation v (h 0 :: w')).
    { rewrite <- Pw, Ew, G. symmetry. apply Permutation_cons_append. }
    pose proof (proj1 (heap_v_rep 0 v h ltac:(lia) R) H) as Hf.
    destruct (down_ok w' 0) as (v' & Ed & Pd & Hd).
    - intros y Hy. apply I. eapply Permutation_in; [symmetry; exact P1|now right].
    - lia.
    - intros p c y z Hp _ C Ey Ez. pose proof (vget_range _ _ _ Ez) as Bz. unfold child in C.
      rewrite <- (vget_app1 w' [x]) in Ey by lia. rewrite <- (vget_app1 w' [x]) in Ez by lia. rewrite <- Ew in Ey, Ez.
      rewrite (rep_get _ _ _ _ Rw) in Ey by lia. rewrite (rep_get _ _ _ _ Rw) in Ez by lia. unfold fupd in Ey, Ez.
      replace (p =? zlen v - 1) with false in Ey by lia. replace (p =? 0) with false in Ey by lia.
      replace (c =? zlen v - 1) with false in Ez by lia. replace (c =? 0) with false in Ez by lia.
      injection Ey as <-. injection Ez as <-. apply (Hf p c); unfold child; lia.
    - rewrite Ed. cbn [bind]. exists (h 0), v'. split; auto. split; [now rewrite Pd|]. split; auto.
      apply heap_first; auto. apply (rep_get _ _ _ _ R). lia.
  Qed.
End BH.

Lemma answers_run {S A O R} (step : S -> O -> res (R * S)) (spec : A -> O -> res (R * A) -> Prop) (Inv : S -> A -> Prop) :
  (forall s a o, Inv s a ->
    match step s o with
    | Ok (r, s') => exists a', spec a o (Ok (r, a')) /\ Inv s' a'
    | Abort => spec a o Abort
    | UB => spec a o UB
    | OutOfFuel => False
    end) ->
  forall ops s a, Inv s a -> answers spec a ops (run step s ops).
Proof.
  intro H. induction ops as [|o ops IH]; intros s a I; cbn [run]; [constructor|].
  specialize (H s a o I). destruct (step s o) as [(r, s')| | |].
  - destruct H as (a' & Hs & I'). specialize (IH s' a' I'). destruct (run step s' ops) as (rs, f). econstructor; eauto.
  - now constructor.
  - now constructor.
  - destruct H.
Qed.
Lemma compare_weak {T} (lt : T -> T -> bool) m : strict_weak_order lt -> strict_weak_order (compare lt m).
Proof.
  intros (I & Tr & N). unfold compare. destruct m; [now split|]. split; [auto|]. split; intros x y z H1 H2; eauto.
Qed.

Section BHH.
  Context {T : Type}.
  Variable lt : T -> T -> bool.
  Variable m : bool.
  Hypothesis W : strict_weak_order lt.
  (* in heap order for the ranks in any list containing the elements *)
  Definition is_heap (v : list T) : Prop :=
    forall p c x y, 0 <= p -> child p c -> vget v p = Ok x -> vget v c = Ok y -> compare lt m y x = false.
  Lemma is_heap_v u v : incl v u -> (is_heap v <-> heap_v (rank (compare lt m) u) 0 v).
  Proof.
    intro I. split; intros H p c x y; intros.
    - assert (compare lt m y x = false) as F by (eapply H; eauto).
      rewrite (rank_spec _ (compare_weak lt m W) u) in F by (apply I; eapply vget_In; eauto). lia.
    - rewrite (rank_spec _ (compare_weak lt m W) u) by (apply I; eapply vget_In; eauto). apply Z.ltb_ge. eapply (H p c); eauto.
  Qed.
  Lemma bh_construct_inv v : exists v', construct_heap lt m v = Ok v' /\ Permutation v' v /\ is_heap v'.
  Proof.
    destruct (construct_heap_ok lt m v _ (rank_spec _ (compare_weak lt m W) v) v) as (v' & E & P & H); [intros x; auto|].
    exists v'. split; auto. split; auto. apply (is_heap_v v); auto. intros x Hx. eapply Permutation_in; eauto.
  Qed.
  Lemma bh_sim s a o : Permutation s a /\ is_heap s ->
    match bh_step lt m s o with
    | Ok (r, s') => exists a', bh_spec (compare lt m) a o (Ok (r, a')) /\ (Permutation s' a' /\ is_heap s')
    | Abort => bh_spec (compare lt m) a o Abort
    | UB => bh_spec (compare lt m) a o UB
    | OutOfFuel => False
    end.
  Proof.
    intros (P & H).
    assert (FO : forall x, first_of (compare lt m) s x -> first_of (compare lt m) a x).
    { intros x (Hi & Hx). split; [eapply Permutation_in; eauto|]. intros y Hy. apply Hx. eapply Permutation_in; [symmetry|]; eauto. }
    assert (LE : zlen s = zlen a) by (unfold zlen; now rewrite (Permutation_length P)).
    assert (NIL : zlen s = 0 -> a = []).
    { intro Z0. destruct a; auto. rewrite LE, zlen_cons in Z0. pose proof (zlen_nonneg a). lia. }
    pose proof (proj1 (is_heap_v s s (incl_refl s)) H) as Hv.
    pose proof (rank_spec _ (compare_weak lt m W) s) as RS.
    destruct o as [x| | |]; cbn [bh_step].
    - destruct (push_ok lt m (x :: s) _ (rank_spec _ (compare_weak lt m W) (x :: s)) s x) as (v' & E & P' & H').
      + apply incl_refl.
      + apply is_heap_v; auto. intros y Hy; now right.
      + rewrite E. cbn [bind]. exists v'. split; [cbn; now rewrite P', P|]. split; auto. apply (is_heap_v (x :: s)); auto.
        intros y Hy. eapply Permutation_in; eauto.
    - unfold bh_top. destruct (zlen s =? 0) eqn:E0; cbn [negb assert_ bind]; [cbn; apply NIL; lia|].
      pose proof (zlen_nonneg s). destruct (vget_Ok s 0 ltac:(lia)) as (x & E). rewrite E. cbn [bind].
      exists a. split; [|auto]. cbn. split; auto. apply FO. eapply heap_first; eauto. apply incl_refl.
    - destruct (Z.eq_dec (zlen s) 0) as [Z0|N0].
      { unfold bh_pop. rewrite Z0. cbn. auto. }
      destruct (Z.eq_dec (zlen s) 1) as [Z1|N1].
      { assert (UBp : bh_pop lt m s = UB).
        { destruct s as [|x [|y s]]; [easy| |rewrite !zlen_cons in Z1; pose proof (zlen_nonneg s); lia]. reflexivity. }
        rewrite UBp. cbn [bind]. cbn. destruct a as [|x [|y a]]; [easy|eauto|rewrite LE, !zlen_cons in Z1; pose proof (zlen_nonneg a); lia]. }
      pose proof (zlen_nonneg s).
      destruct (pop_ok lt m s _ RS s) as (x & v' & E & P' & H' & F); auto; [apply incl_refl|lia|].
      rewrite E. cbn [bind]. exists v'. split.
      + cbn. split; auto. split; [now rewrite <- P|]. intros ->. unfold zlen in *. rewrite (Permutation_length P') in *. cbn in *. lia.
      + split; auto. apply (is_heap_v s); auto. intros y Hy. eapply Permutation_in; [symmetry; exact P'|now right].
    - exists a. split; auto. cbn. auto.
  Qed.
  Lemma bh_history v ops : exists v', construct_heap lt m v = Ok v' /\ answers (bh_spec (compare lt m)) v ops (run (bh_step lt m) v' ops).
  Proof.
    destruct (bh_construct_inv v) as (v' & E & P & H). exists v'. split; auto.
    eapply answers_run with (Inv := fun s a => Permutation s a /\ is_heap s); [exact bh_sim|auto].
  Qed.
End BHH.
