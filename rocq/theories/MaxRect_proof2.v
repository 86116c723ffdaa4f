(* Proofs about MaxRect_model: rectangles and squares in grids. *)
From Coq Require Import Sorted.
From Verif Require Import Base BaseLemmas ListZ MaxRect_model MaxRect_spec Seq MaxRect_proof.

Section Grid.
  Variable g : list (list bool).
  Variable m : Z.
  Hypothesis Hg : grid g m.
  Hypothesis Hm : 0 <= m.
  Let n := zlen g.
  Definition C (i j : Z) : bool := nth (Z.to_nat j) (nth (Z.to_nat i) g []) false.
  Lemma row_get i : 0 <= i < n -> vget g i = Ok (nth (Z.to_nat i) g []) /\ zlen (nth (Z.to_nat i) g []) = m.
  Proof. intro H. split; [now apply vget_nth|]. apply Hg, nth_In. unfold n, zlen in H. lia. Qed.
  Lemma gget_ok i j : 0 <= i < n -> 0 <= j < m -> gget g i j = Ok (C i j).
  Proof. intros Hi Hj. unfold gget. destruct (row_get i Hi) as (-> & L). cbn [bind]. apply vget_nth. lia. Qed.
  Lemma one_C i j : 0 <= i < n -> 0 <= j < m -> one g i j <-> C i j = true.
  Proof.
    intros Hi Hj. unfold one. destruct (row_get i Hi) as (R & L). split.
    - intros (row & E & G). rewrite R in E. injection E as <-. rewrite (vget_nth false) in G by lia. unfold C. congruence.
    - intro T. eexists. split; [exact R|]. rewrite (vget_nth false) by lia. unfold C in T. congruence.
  Qed.
  Lemma all_ones_C u d l r : all_ones g m (u, d, l, r) <->
    0 <= u <= d /\ d <= n /\ 0 <= l <= r /\ r <= m /\ forall i j, u <= i < d -> l <= j < r -> C i j = true.
  Proof.
    cbn [all_ones]. fold n. split; intros (A & B & D & E & F); (split; [auto|]); (split; [auto|]); (split; [auto|]); (split; [auto|]); intros i j Hi Hj; specialize (F i j Hi Hj); apply one_C in F || apply one_C; auto; lia.
  Qed.
  Lemma width_ok : 0 < n -> width g = Ok m.
  Proof.
    intro N. unfold width. fold n. destruct (Z.eqb_spec n 0); [lia|]. destruct (row_get 0 ltac:(lia)) as (-> & L). cbn [bind]. congruence.
  Qed.

  (* ---- heights ---- *)
  Fixpoint hgt (k : nat) (j : Z) : Z := match k with O => 0 | S k => if C (Z.of_nat k) j then hgt k j + 1 else 0 end.
  Lemma hgt_ok k j : 0 <= hgt k j <= Z.of_nat k /\ (forall t, Z.of_nat k - hgt k j <= t < Z.of_nat k -> C t j = true).
  Proof.
    induction k as [|k (IH1 & IH2)]; cbn [hgt]; [split; [lia|intros; lia]|]. destruct (C (Z.of_nat k) j) eqn:E; [|split; [lia|intros; lia]].
    split; [lia|]. intros t T. destruct (Z.eq_dec t (Z.of_nat k)) as [->|]; [auto|]. apply IH2. lia.
  Qed.
  Lemma hgt_max k j x : 0 <= x <= Z.of_nat k -> (forall t, Z.of_nat k - x <= t < Z.of_nat k -> C t j = true) -> x <= hgt k j.
  Proof.
    revert x. induction k as [|k IH]; intros x Hx A; cbn [hgt]; [lia|]. destruct (Z.eq_dec x 0) as [->|].
    - destruct (C (Z.of_nat k) j); [|lia]. pose proof (proj1 (hgt_ok k j)). lia.
    - rewrite A by lia. assert (x - 1 <= hgt k j); [|lia]. apply IH; [lia|]. intros t T. apply A. lia.
  Qed.
  (* zeros of row i + 1, all columns past the last row *)
  Definition zz (i j : Z) : Z := if i + 1 =? n then 1 else if C (i + 1) j then 0 else 1.
  Fixpoint zsum (i : Z) (k : nat) : Z := match k with O => 0 | S k => zsum i k + zz i (Z.of_nat k) end.
  Lemma zz_range i j : 0 <= zz i j <= 1.
  Proof. unfold zz. destruct (i + 1 =? n), (C (i + 1) j); lia. Qed.
  Lemma zsum_diff i a b : (a <= b)%nat -> 0 <= zsum i b - zsum i a /\ (zsum i b - zsum i a = 0 <-> forall j, Z.of_nat a <= j < Z.of_nat b -> zz i j = 0).
  Proof.
    induction 1 as [|b L (IH1 & IH2)]; [split; [lia|split; intros; lia]|]. cbn [zsum]. pose proof (zz_range i (Z.of_nat b)). split; [lia|]. split.
    - intros E j J. destruct (Z.eq_dec j (Z.of_nat b)) as [->|]; [lia|]. apply IH2; lia.
    - intro A. rewrite (A (Z.of_nat b)) by lia. assert (zsum i b - zsum i a = 0); [|lia]. apply IH2. intros j J. apply A. lia.
  Qed.

  Definition hrow (i : Z) (h : list Z) : Prop := rep h m (fun j => hgt (Z.to_nat i) j).
  Lemma rect_cell_ok i h cz : 0 <= i < n -> hrow i h -> zlen cz = m + 1 -> vget cz 0 = Ok 0 ->
    exists h' cz', for_ 0 m (rect_cell g i) (h, cz) = Ok (h', cz') /\ hrow (i + 1) h' /\ zlen cz' = m + 1 /\
      forall t, 0 <= t <= m -> vget cz' t = Ok (zsum i (Z.to_nat t)).
  Proof.
    intros Hi Hh Lc C0.
    destruct (for_inv (fun r st => rep (fst st) m (fun j => if j <? r then hgt (Z.to_nat (i + 1)) j else hgt (Z.to_nat i) j) /\
       zlen (snd st) = m + 1 /\ forall t, 0 <= t <= r -> vget (snd st) t = Ok (zsum i (Z.to_nat t))) 0 m (rect_cell g i) (h, cz)) as ((h', cz') & -> & A & B & D).
    - lia.
    - cbn [fst snd]. split; [|split; [auto|]].
      + destruct Hh as (L & G). split; [auto|]. intros j Hj. rewrite G by auto. destruct (Z.ltb_spec j 0); [lia|auto].
      + intros t T. assert (t = 0) as -> by lia. rewrite C0. auto.
    - intros r (h1, c1) Hr (A & B & D). cbn [fst snd] in *. unfold rect_cell. rewrite gget_ok by lia. cbn [bind].
      set (x := if C i r then hgt (Z.to_nat i) r + 1 else 0).
      assert ((if C i r then let* x := vget h1 r in Ok (x + 1) else Ok 0) = Ok x) as ->.
      { unfold x. destruct (C i r); [|auto]. rewrite (rep_get h1 m _ r A) by lia. cbn [bind]. destruct (Z.ltb_spec r r); [lia|auto]. }
      cbn [bind]. rewrite (rep_set h1 m _ r x A) by lia. cbn [bind]. rewrite (D r) by lia. cbn [bind].
      assert ((if negb (i + 1 =? zlen g) then let* b := gget g (i + 1) r in Ok (if b then 0 else 1) else Ok 1) = Ok (zz i r)) as ->.
      { unfold zz. fold n. destruct (Z.eqb_spec (i + 1) n); cbn [negb]; [auto|]. rewrite gget_ok by lia. auto. }
      cbn [bind]. rewrite vset_ok by lia. cbn [bind]. eexists. split; [reflexivity|]. cbn [fst snd]. split; [|split].
      + eapply rep_ext; [apply rep_upd; [exact A|lia]|]. intros j Hj. unfold fupd. cbv beta. destruct (Z.eqb_spec j r) as [->|].
        * destruct (Z.ltb_spec r (r + 1)); [|lia]. replace (Z.to_nat (i + 1)) with (S (Z.to_nat i)) by lia. cbn [hgt]. rewrite Z2Nat.id by lia. reflexivity.
        * destruct (Z.ltb_spec j r), (Z.ltb_spec j (r + 1)); auto; lia.
      + rewrite zlen_zupd. auto.
      + intros t T. rewrite vget_zupd by lia. destruct (Z.eqb_spec (r + 1) t) as [<-|].
        * replace (Z.to_nat (r + 1)) with (S (Z.to_nat r)) by lia. cbn [zsum]. rewrite Z2Nat.id by lia. reflexivity.
        * apply D. lia.
    - cbn [fst snd] in *. exists h', cz'. split; [auto|]. split; [|auto]. eapply rep_ext; [exact A|]. intros j Hj. cbv beta. destruct (Z.ltb_spec j m); [auto|lia].
  Qed.

  Definition kept (i : Z) (cz : list Z) (c : Z * Z * Z) : list block :=
    let '(l, r, x) := c in if zsum i (Z.to_nat r) - zsum i (Z.to_nat l) =? 0 then [] else [(i - x + 1, i + 1, l, r)].
  Lemma calls_ok i cz calls : (forall t, 0 <= t <= m -> vget cz t = Ok (zsum i (Z.to_nat t))) ->
    (forall l r x, In (l, r, x) calls -> 0 <= l <= m /\ 0 <= r <= m) -> forall out,
    for_each calls (rect_call i cz) out = Ok (out ++ flat_map (kept i cz) calls).
  Proof.
    intros D. induction calls as [|((l, r), x) calls IH]; intros I out; cbn [for_each flat_map]; [now rewrite app_nil_r|].
    destruct (I l r x ltac:(cbn; auto)). unfold rect_call at 1. rewrite !D by lia. cbn [bind].
    rewrite IH by (intros; eapply I; cbn; eauto). cbn [kept]. destruct (_ =? 0); [reflexivity|]. now rewrite <- app_assoc.
  Qed.

  (* the calls of maximal_rectangles *)
  Definition found (i l r x : Z) : Prop :=
    0 <= l < r /\ r <= m /\ 0 <= i < n /\ (forall j, l <= j < r -> x <= hgt (Z.to_nat (i + 1)) j) /\ (l = 0 \/ hgt (Z.to_nat (i + 1)) (l - 1) < x) /\
    (exists j, l <= j < r /\ hgt (Z.to_nat (i + 1)) j = x) /\ (r = m \/ hgt (Z.to_nat (i + 1)) r <= x) /\ exists j, l <= j < r /\ zz i j = 1.
  Lemma rect_row_ok i h cz out : 0 <= i < n -> hrow i h -> zlen cz = m + 1 -> vget cz 0 = Ok 0 ->
    exists h' cz' o, rect_row g m i (h, cz, out) = Ok (h', cz', out ++ o) /\ hrow (i + 1) h' /\ zlen cz' = m + 1 /\ vget cz' 0 = Ok 0 /\
      forall u d l r, In (u, d, l, r) o <-> exists x, u = i - x + 1 /\ d = i + 1 /\ found i l r x.
  Proof.
    intros Hi Hh Lc C0. unfold rect_row. destruct (rect_cell_ok i h cz Hi Hh Lc C0) as (h' & cz' & -> & Hh' & Lc' & D). cbn [bind].
    destruct Hh' as (Lh & Gh). destruct (hist_ok h') as (calls & -> & _ & I).
    { intros j x E. pose proof (vget_range _ _ _ E). rewrite Gh in E by lia. injection E as <-. apply hgt_ok. }
    cbn [bind].
    assert (EH : forall j, 0 <= j < m -> H h' j = hgt (Z.to_nat (i + 1)) j).
    { intros j Hj. specialize (Gh j Hj). rewrite H_get in Gh by lia. congruence. }
    rewrite (calls_ok i cz'); [|exact D|].
    2:{ intros l r x Q. apply I in Q. destruct Q as (A & (B & _) & _). lia. }
    cbn [bind]. exists h', cz', (flat_map (kept i cz') calls). split; [reflexivity|]. split; [split; auto|]. split; [auto|]. split; [rewrite D by lia; auto|].
    intros u d l r. rewrite in_flat_map. split.
    - intros (((l', r'), x) & Q & K). cbn [kept] in K. destruct (_ =? 0) eqn:E; [destruct K|]. destruct K as [K|[]]. injection K as <- <- <- <-.
      exists x. split; [auto|]. split; [auto|]. apply I in Q. destruct Q as (A & (B1 & B2 & B3 & j & B4 & B5) & F).
      split; [auto|]. split; [lia|]. split; [auto|]. split; [intros t T; rewrite <- EH by lia; auto|]. split.
      { destruct B3; [auto|]. destruct (Z.eq_dec l' 0); [auto|]. right. rewrite <- EH by lia. auto. }
      split; [exists j; split; [auto|rewrite <- EH by lia; auto]|]. split.
      { unfold HR in F. rewrite Lh in *. destruct (Z.ltb_spec r' m); [|left; lia]. right. rewrite <- EH by lia. auto. }
      destruct (zsum_diff i (Z.to_nat l') (Z.to_nat r') ltac:(lia)) as (_ & W).
      assert (X : forall k a, (exists j, a <= j < a + Z.of_nat k /\ zz i j = 1) \/ (forall j, a <= j < a + Z.of_nat k -> zz i j = 0)).
      { clear. induction k as [|k IH]; intro a; [right; intros; lia|]. destruct (IH a) as [(j & J & E)|A]; [left; exists j; split; [lia|auto]|].
        pose proof (zz_range i (a + Z.of_nat k)). destruct (Z.eq_dec (zz i (a + Z.of_nat k)) 1); [left; eexists; split; [|eassumption]; lia|].
        right. intros j J. destruct (Z.eq_dec j (a + Z.of_nat k)) as [->|]; [lia|apply A; lia]. }
      destruct (X (Z.to_nat (r' - l')) l') as [(t & T & Z1)|X0]; [exists t; split; [lia|auto]|]. exfalso.
      assert (zsum i (Z.to_nat r') - zsum i (Z.to_nat l') = 0); [|lia]. apply W. intros t T. apply X0. lia.
    - intros (x & -> & -> & A1 & A2 & A3 & A4 & A5 & (j & A6 & A7) & A8 & (t & A9 & A10)). exists (l, r, x). split.
      + apply I. split; [lia|]. split.
        * split; [auto|]. split; [intros k K; rewrite EH by lia; auto|]. split; [|exists j; split; [auto|rewrite EH by lia; auto]].
          destruct A5; [auto|]. destruct (Z.eq_dec l 0); [auto|]. right. rewrite EH by lia. auto.
        * unfold HR. rewrite Lh. destruct (Z.ltb_spec r m).
          -- destruct A8; [lia|]. rewrite EH by lia. auto.
          -- subst x. apply hgt_ok.
      + cbn [kept]. destruct (zsum_diff i (Z.to_nat l) (Z.to_nat r) ltac:(lia)) as (_ & W). destruct (Z.eqb_spec (zsum i (Z.to_nat r) - zsum i (Z.to_nat l)) 0) as [E|]; [|cbn; auto].
        apply (proj1 W) with (j := t) in E; lia.
  Qed.
  Lemma rects_ok : exists out, maximal_rectangles g = Ok out /\ forall u d l r, In (u, d, l, r) out <-> exists x, u = d - x /\ found (d - 1) l r x.
  Proof.
    unfold maximal_rectangles. fold n. destruct (Z.eqb_spec n 0) as [N|N].
    - exists []. split; [auto|]. intros u d l r. split; [intros []|]. intros (x & _ & _ & _ & Hi & _). lia.
    - assert (NN : 0 <= n) by apply zlen_nonneg. rewrite width_ok by lia. cbn [bind].
      destruct (@for_inv (list Z * list Z * list block) (fun i st => let '(h, cz, out) := st in hrow i h /\ zlen cz = m + 1 /\ vget cz 0 = Ok 0 /\
         forall u d l r, In (u, d, l, r) out <-> exists x, u = d - x /\ d - 1 < i /\ found (d - 1) l r x) 0 n (rect_row g m) (vrep m 0, vrep (m + 1) 0, @nil block)) as (((h, cz), out) & -> & _ & _ & _ & I).
      + lia.
      + split; [apply rep_vrep; lia|]. split; [apply zlen_vrep; lia|]. split; [apply vget_vrep; lia|].
        intros u d l r. split; [intros []|]. intros (x & _ & L & _ & _ & Hi & _). lia.
      + intros i ((h, cz), out) Hi (A & B & D & E). destruct (rect_row_ok i h cz out Hi A B D) as (h' & cz' & o & -> & A' & B' & D' & O).
        eexists. split; [reflexivity|]. split; [auto|]. split; [auto|]. split; [auto|]. intros u d l r. rewrite in_app_iff, E, O. split.
        * intros [(x & -> & L & F)|(x & -> & -> & F)]; exists x; [split; [auto|split; [lia|auto]]|].
          replace (i + 1 - 1) with i by lia. split; [lia|]. split; [lia|auto].
        * intros (x & -> & L & F). destruct (Z.eq_dec (d - 1) i) as [Q|Q].
          -- right. exists x. subst i. split; [lia|]. split; [lia|auto].
          -- left. exists x. split; [auto|]. split; [lia|auto].
      + cbn [bind]. exists out. split; [auto|]. intros u d l r. rewrite I. split; intros (x & Q & F); exists x; [tauto|]. split; [auto|]. split; [|auto].
        destruct F as (_ & _ & F & _). lia.
  Qed.
  Lemma found_ones d l r x : found (d - 1) l r x -> all_ones g m (d - x, d, l, r).
  Proof.
    intros (A1 & A2 & A3 & A4 & A5 & (j & A6 & A7) & _). pose proof (proj1 (hgt_ok (Z.to_nat (d - 1 + 1)) j)) as B. rewrite A7 in B.
    apply all_ones_C. split; [lia|]. split; [lia|]. split; [lia|]. split; [lia|]. intros i k Hi Hk.
    specialize (A4 k Hk). apply (proj2 (hgt_ok (Z.to_nat (d - 1 + 1)) k)). lia.
  Qed.
  Lemma maximal_found u d l r : maximal_block g m (u, d, l, r) -> found (d - 1) l r (d - u).
  Proof.
    intros (A & Ar & M). cbn [area] in Ar. pose proof A as A'. apply all_ones_C in A'. destruct A' as (B1 & B2 & B3 & B4 & B5).
    assert (u < d /\ l < r) as (Lu & Ll) by nia.
    assert (Hh : forall j, l <= j < r -> d - u <= hgt (Z.to_nat (d - 1 + 1)) j).
    { intros j Hj. apply hgt_max; [lia|]. intros t T. apply B5; lia. }
    assert (No : forall u' d' l' r', all_ones g m (u', d', l', r') -> u' <= u /\ d <= d' /\ l' <= l /\ r <= r' -> u' = u /\ d' = d /\ l' = l /\ r' = r).
    { intros u' d' l' r' A' Q. specialize (M (u', d', l', r') A' Q). injection M. auto. }
    split; [lia|]. split; [lia|]. split; [lia|]. split; [auto|]. split.
    { destruct (Z.eq_dec l 0); [auto|]. right. destruct (Z.lt_ge_cases (hgt (Z.to_nat (d - 1 + 1)) (l - 1)) (d - u)) as [|G]; [auto|]. exfalso.
      destruct (No u d (l - 1) r) as (_ & _ & Q & _); [|lia|lia]. apply all_ones_C. split; [lia|]. split; [lia|]. split; [lia|]. split; [lia|].
      intros i j Hi Hj. destruct (Z.eq_dec j (l - 1)) as [->|]; [|apply B5; lia]. apply (proj2 (hgt_ok (Z.to_nat (d - 1 + 1)) (l - 1))). lia. }
    split.
    { assert (X : forall k, (exists j, l <= j < l + Z.of_nat k /\ hgt (Z.to_nat (d - 1 + 1)) j <= d - u) \/ (forall j, l <= j < l + Z.of_nat k -> d - u < hgt (Z.to_nat (d - 1 + 1)) j)).
      { induction k as [|k [(j & J & E)|IH]]; [right; intros; lia|left; exists j; split; [lia|auto]|].
        destruct (Z.le_gt_cases (hgt (Z.to_nat (d - 1 + 1)) (l + Z.of_nat k)) (d - u)); [left; eexists; split; [|eassumption]; lia|].
        right. intros j J. destruct (Z.eq_dec j (l + Z.of_nat k)) as [->|]; [lia|apply IH; lia]. }
      destruct (X (Z.to_nat (r - l))) as [(j & J & E)|G]; [exists j; split; [lia|]; specialize (Hh j ltac:(lia)); lia|]. exfalso.
      destruct (No (u - 1) d l r) as (Q & _); [|lia|lia]. pose proof (G l ltac:(lia)) as G0. pose proof (proj1 (hgt_ok (Z.to_nat (d - 1 + 1)) l)).
      apply all_ones_C. split; [lia|]. split; [lia|]. split; [lia|]. split; [lia|].
      intros i j Hi Hj. specialize (G j ltac:(lia)). apply (proj2 (hgt_ok (Z.to_nat (d - 1 + 1)) j)). lia. }
    split.
    { destruct (Z.eq_dec r m); [auto|]. right. destruct (Z.le_gt_cases (hgt (Z.to_nat (d - 1 + 1)) r) (d - u)) as [|G]; [auto|]. exfalso.
      destruct (No u d l (r + 1)) as (_ & _ & _ & Q); [|lia|lia]. apply all_ones_C. split; [lia|]. split; [lia|]. split; [lia|]. split; [lia|].
      intros i j Hi Hj. destruct (Z.eq_dec j r) as [->|]; [|apply B5; lia]. apply (proj2 (hgt_ok (Z.to_nat (d - 1 + 1)) r)). lia. }
    assert (X : forall k, (exists j, l <= j < l + Z.of_nat k /\ zz (d - 1) j = 1) \/ (forall j, l <= j < l + Z.of_nat k -> zz (d - 1) j = 0)).
    { induction k as [|k [(j & J & E)|IH]]; [right; intros; lia|left; exists j; split; [lia|auto]|].
      pose proof (zz_range (d - 1) (l + Z.of_nat k)). destruct (Z.eq_dec (zz (d - 1) (l + Z.of_nat k)) 1); [left; eexists; split; [|eassumption]; lia|].
      right. intros j J. destruct (Z.eq_dec j (l + Z.of_nat k)) as [->|]; [lia|apply IH; lia]. }
    destruct (X (Z.to_nat (r - l))) as [(j & J & E)|G]; [exists j; split; [lia|auto]|]. exfalso.
    assert (Dn : d <> n). { intros ->. specialize (G l ltac:(lia)). unfold zz in G. replace (n - 1 + 1 =? n) with true in G by lia. lia. }
    destruct (No u (d + 1) l r) as (_ & Q & _); [|lia|lia]. apply all_ones_C. split; [lia|]. split; [lia|]. split; [lia|]. split; [lia|].
    intros i j Hi Hj. destruct (Z.eq_dec i d) as [->|]; [|apply B5; lia]. specialize (G j ltac:(lia)). unfold zz in G.
    replace (d - 1 + 1) with d in G by lia. destruct (Z.eqb_spec d n); [lia|]. destruct (C d j); [auto|lia].
  Qed.

  (* ---- every block of ones lies in a maximal one ---- *)
  Lemma bounded_dec (Q : Z -> Prop) : (forall i, Q i \/ ~ Q i) -> forall k a, (forall i, a <= i < a + Z.of_nat k -> Q i) \/ ~ (forall i, a <= i < a + Z.of_nat k -> Q i).
  Proof.
    intros D. induction k as [|k IH]; intro a; [left; intros; lia|]. destruct (IH a) as [A|A].
    - destruct (D (a + Z.of_nat k)) as [B|B].
      + left. intros i Hi. destruct (Z.eq_dec i (a + Z.of_nat k)) as [->|]; [auto|apply A; lia].
      + right. intro G. apply B, G. lia.
    - right. intro G. apply A. intros i Hi. apply G. lia.
  Qed.
  Lemma all_ones_dec b : all_ones g m b \/ ~ all_ones g m b.
  Proof.
    destruct b as (((u, d), l), r). rewrite all_ones_C.
    assert (D : (forall i j, u <= i < d -> l <= j < r -> C i j = true) \/ ~ (forall i j, u <= i < d -> l <= j < r -> C i j = true)).
    { destruct (bounded_dec (fun i => forall j, l <= j < l + Z.of_nat (Z.to_nat (r - l)) -> C i j = true)) with (k := Z.to_nat (d - u)) (a := u) as [A|A].
      - intro i. apply bounded_dec. intro j. destruct (C i j); auto.
      - left. intros i j Hi Hj. apply A; lia.
      - right. intro G. apply A. intros i Hi j Hj. apply G; lia. }
    destruct (Z.le_gt_cases 0 u); [|right; lia]. destruct (Z.le_gt_cases u d); [|right; lia]. destruct (Z.le_gt_cases d n); [|right; lia].
    destruct (Z.le_gt_cases 0 l); [|right; lia]. destruct (Z.le_gt_cases l r); [|right; lia]. destruct (Z.le_gt_cases r m); [|right; lia].
    destruct D as [D|D]; [left|right; tauto]. auto 10.
  Qed.
  Lemma sub_ones u d l r u' d' l' r' : all_ones g m (u, d, l, r) -> u <= u' <= d' -> d' <= d -> l <= l' <= r' -> r' <= r -> all_ones g m (u', d', l', r').
  Proof.
    rewrite !all_ones_C. intros (A1 & A2 & A3 & A4 & A5) H1 H2 H3 H4. split; [lia|]. split; [lia|]. split; [lia|]. split; [lia|].
    intros i j Hi Hj. apply A5; lia.
  Qed.
  Lemma in_maximal k : forall b, all_ones g m b -> 0 < area b -> (let '(u, d, l, r) := b in u + (n - d) + l + (m - r) <= Z.of_nat k) ->
    exists c, maximal_block g m c /\ contains c b.
  Proof.
    induction k as [|k IH]; intros (((u, d), l), r) A Ar Me; cbn [area] in Ar; pose proof A as A'; apply all_ones_C in A'; destruct A' as (B1 & B2 & B3 & B4 & _); assert (u < d /\ l < r) as (Lu & Ll) by nia.
    - exists (u, d, l, r). split; [|cbn; lia]. split; [auto|]. split; [cbn; nia|]. intros (((u', d'), l'), r') A' Q. cbn [contains] in Q. apply all_ones_C in A'.
      assert (u' = u /\ d' = d /\ l' = l /\ r' = r) as (-> & -> & -> & ->) by lia. auto.
    - assert (St : forall u' d' l' r', all_ones g m (u', d', l', r') -> u' <= u /\ d <= d' /\ l' <= l /\ r <= r' -> u' + (n - d') + l' + (m - r') <= Z.of_nat k ->
        exists c, maximal_block g m c /\ contains c (u, d, l, r)).
      { intros u' d' l' r' A' Q M'. destruct (IH (u', d', l', r') A') as ((((u2, d2), l2), r2) & Mb & Co); [cbn [area]; nia|auto|].
        exists (u2, d2, l2, r2). split; [auto|]. cbn [contains] in *. lia. }
      destruct (all_ones_dec (u - 1, d, l, r)) as [E1|E1]; [apply (St _ _ _ _ E1); lia|].
      destruct (all_ones_dec (u, d + 1, l, r)) as [E2|E2]; [apply (St _ _ _ _ E2); lia|].
      destruct (all_ones_dec (u, d, l - 1, r)) as [E3|E3]; [apply (St _ _ _ _ E3); lia|].
      destruct (all_ones_dec (u, d, l, r + 1)) as [E4|E4]; [apply (St _ _ _ _ E4); lia|].
      exists (u, d, l, r). split; [|cbn; lia]. split; [auto|]. split; [cbn; nia|]. intros (((u', d'), l'), r') A' Q. cbn [contains] in Q.
      assert (u' = u). { destruct (Z.eq_dec u' u); [auto|]. exfalso. apply E1. apply (sub_ones u' d' l' r'); auto; lia. }
      assert (d' = d). { destruct (Z.eq_dec d' d); [auto|]. exfalso. apply E2. apply (sub_ones u' d' l' r'); auto; lia. }
      assert (l' = l). { destruct (Z.eq_dec l' l); [auto|]. exfalso. apply E3. apply (sub_ones u' d' l' r'); auto; lia. }
      assert (r' = r). { destruct (Z.eq_dec r' r); [auto|]. exfalso. apply E4. apply (sub_ones u' d' l' r'); auto; lia. }
      congruence.
  Qed.

  Definition better (st : Z * block) (c : block) : Z * block :=
    let '(u, d, l, r) := c in let area := (d - u) * (r - l) in if fst st <? area then (area, c) else st.
  Lemma better_ok calls : forall st, fst st = area (snd st) ->
    let st' := fold_left better calls st in
    fst st' = area (snd st') /\ (snd st' = snd st \/ In (snd st') calls) /\ fst st <= fst st' /\ forall c, In c calls -> area c <= fst st'.
  Proof.
    induction calls as [|(((u, d), l), r) calls IH]; intros (a, b) E; cbn [fold_left fst snd In] in *.
    - split; [auto|]. split; [auto|]. split; [lia|]. intros c [].
    - assert (EB : better (a, b) (u, d, l, r) = if a <? (d - u) * (r - l) then ((d - u) * (r - l), (u, d, l, r)) else (a, b)) by reflexivity.
      rewrite EB. clear EB.
      destruct (Z.ltb_spec a ((d - u) * (r - l))) as [L|L].
      + destruct (IH ((d - u) * (r - l), (u, d, l, r)) eq_refl) as (I1 & I2 & I3 & I4). cbn [fst snd] in *.
        split; [exact I1|]. split; [destruct I2; auto|]. split; [lia|]. intros c [<-|I]; [exact I3|auto].
      + destruct (IH (a, b) E) as (I1 & I2 & I3 & I4). cbn [fst snd] in *.
        split; [exact I1|]. split; [destruct I2; auto|]. split; [lia|]. intros c [<-|I]; [cbn [area]; lia|auto].
  Qed.
  Lemma rectangle_ok : exists a b, maximum_rectngle g = Ok (a, b) /\ a = area b /\ all_ones g m b /\ forall c, all_ones g m c -> area c <= a.
  Proof.
    unfold maximum_rectngle. destruct rects_ok as (out & -> & I). cbn [bind].
    pose proof (better_ok out (0, (0, 0, 0, 0)) eq_refl) as B. cbv zeta in B. change (fold_left _ out (0, (0, 0, 0, 0))) with (fold_left better out (0, (0, 0, 0, 0))).
    destruct (fold_left better out (0, (0, 0, 0, 0))) as (a, b). cbn [fst snd] in B. destruct B as (B1 & B2 & B3 & B4).
    exists a, b. split; [auto|]. split; [auto|]. split.
    - destruct B2 as [->|B2].
      + apply all_ones_C. split; [lia|]. split; [apply zlen_nonneg|]. split; [lia|]. split; [lia|]. intros; lia.
      + destruct b as (((u, d), l), r). apply I in B2. destruct B2 as (x & -> & F). now apply found_ones.
    - intros c Ac. destruct (Z.le_gt_cases (area c) 0) as [L|L]; [lia|]. 
      destruct (in_maximal (Z.to_nat (let '(u, d, l, r) := c in u + (n - d) + l + (m - r))) c Ac L) as ((((u, d), l), r) & M & Co).
      { destruct c as (((u, d), l), r). apply all_ones_C in Ac. lia. }
      specialize (B4 (u, d, l, r)). assert (area c <= area (u, d, l, r)).
      { destruct c as (((u', d'), l'), r'). apply all_ones_C in Ac. destruct M as (Am & _). apply all_ones_C in Am. cbn [contains area] in *. nia. }
      assert (area (u, d, l, r) <= a); [|lia]. apply B4. apply I. exists (d - u). split; [lia|]. now apply maximal_found.
  Qed.
End Grid.
