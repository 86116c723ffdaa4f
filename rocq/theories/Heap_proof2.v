(* IntervalHeap: node k is the pair of cells 2k (lower end) and 2k+1 (upper end); the
   last node may have its lower cell only. *)
From Verif Require Import Base BaseLemmas ListZ Seq Hist Heap_model Heap_spec Heap_proof.
From Coq Require Import Permutation.

Definition edge (p c : Z) : Prop := 0 <= p /\ (c = 2 * p + 1 \/ c = 2 * p + 2).
Definition swapped (g g' : Z -> Z) (a b : Z) : Prop := forall i, g' i = if i =? b then g a else if i =? a then g b else g i.

Section Pure.
  Variable n : Z.
  Variable g : Z -> Z.
  (* the constraints *)
  Definition cA k := 0 <= k -> 2 * k + 1 < n -> g (2 * k) <= g (2 * k + 1).
  Definition cB p c := edge p c -> 2 * c < n -> g (2 * p) <= g (2 * c).
  Definition cC p c := edge p c -> 2 * c + 1 < n -> g (2 * c + 1) <= g (2 * p + 1).
  Definition cD p c := edge p c -> 2 * c + 1 = n -> g (2 * c) <= g (2 * p + 1).
  Definition IH : Prop := (forall k, cA k) /\ (forall p c, cB p c) /\ (forall p c, cC p c) /\ (forall p c, cD p c).
  Definition Lo (k : Z) : Prop :=
    (forall k, cA k) /\ (forall p c, c <> k -> cB p c) /\ (forall p c, cC p c) /\ (forall p c, cD p c) /\
    (forall p, edge p k -> 2 * k + 1 < n -> g (2 * p) <= g (2 * k + 1)) /\
    (forall p c, edge p k -> edge k c -> 2 * c < n -> g (2 * p) <= g (2 * c)).
  Definition Up (k : Z) : Prop :=
    (forall k, cA k) /\ (forall p c, cB p c) /\ (forall p c, c <> k -> cC p c) /\ (forall p c, c <> k -> cD p c) /\
    (forall p, edge p k -> 2 * k + 1 < n -> g (2 * k) <= g (2 * p + 1)) /\
    (forall p c, edge p k -> edge k c -> 2 * c + 1 < n -> g (2 * c + 1) <= g (2 * p + 1)) /\
    (forall p c, edge p k -> edge k c -> 2 * c + 1 = n -> g (2 * c) <= g (2 * p + 1)).
  (* everything but node k, which is a leaf *)
  Definition Fx (k : Z) : Prop :=
    (forall j, j <> k -> cA j) /\ (forall p c, c <> k -> cB p c) /\ (forall p c, c <> k -> cC p c) /\ (forall p c, c <> k -> cD p c) /\
    n <= 4 * k + 2 /\
    (forall p, edge p k -> 2 * k + 1 < n -> g (2 * p) <= g (2 * k) <= g (2 * p + 1) \/ g (2 * p) <= g (2 * k + 1) <= g (2 * p + 1)).
  Definition Dmin (k : Z) : Prop :=
    (forall j, j <> k -> cA j) /\ (forall p c, p <> k -> cB p c) /\ (forall p c, cC p c) /\ (forall p c, c <> k -> cD p c) /\
    (forall p, edge p k -> 2 * k + 1 < n -> g (2 * p) <= g (2 * k + 1)) /\
    (forall p c, edge p k -> edge k c -> 2 * c < n -> g (2 * p) <= g (2 * c)).
  Definition Dmax (k : Z) : Prop :=
    (forall j, j <> k -> cA j) /\ (forall p c, c <> k \/ 2 * k + 1 < n -> cB p c) /\ (forall p c, p <> k -> cC p c) /\ (forall p c, p <> k -> cD p c) /\
    (forall p, edge p k -> 2 * k + 1 < n -> g (2 * k) <= g (2 * p + 1)) /\
    (forall p c, edge p k -> edge k c -> 2 * c + 1 < n -> g (2 * c + 1) <= g (2 * p + 1)) /\
    (forall p c, edge p k -> edge k c -> 2 * c + 1 = n -> g (2 * c) <= g (2 * p + 1)).
End Pure.

Ltac ev := repeat match goal with |- context [?a =? ?b] =>
  first [replace (a =? b) with true by lia | replace (a =? b) with false by lia] end.
Ltac uc := unfold cA, cB, cC, cD in *.
(* use the facts whose premises hold, drop the others *)
Ltac dis := repeat match goal with H : ?P -> ?Q |- _ =>
  match type of P with Prop => idtac end;
  first [specialize (H ltac:(first [assumption | unfold edge; lia])) | clear H] end.
Ltac fin := ev; uc; dis; lia.

Lemma edge_fun p p' c : edge p c -> edge p' c -> p = p'.
Proof. unfold edge. lia. Qed.
Lemma edge_par k : 1 <= k -> edge ((k - 1) / 2) k.
Proof. unfold edge. lia. Qed.

Lemma IH_Lo n g k : IH n g -> Lo n g k.
Proof.
  intros (A & B & C & D). repeat split; auto.
  - intros p E L; pose proof E as Ei; unfold edge in Ei. specialize (A k). specialize (B p k). fin.
  - intros p c E E' L; pose proof E as Ei; unfold edge in Ei; pose proof E' as Ei'; unfold edge in Ei'. pose proof (B p k). specialize (B k c). fin.
Qed.
Lemma IH_Up n g k : IH n g -> Up n g k.
Proof.
  intros (A & B & C & D). repeat split; auto.
  - intros p E L; pose proof E as Ei; unfold edge in Ei. specialize (A k). specialize (C p k). fin.
  - intros p c E E' L; pose proof E as Ei; unfold edge in Ei; pose proof E' as Ei'; unfold edge in Ei'. pose proof (C p k). specialize (C k c). fin.
  - intros p c E E' L; pose proof E as Ei; unfold edge in Ei; pose proof E' as Ei'; unfold edge in Ei'. pose proof (C p k). specialize (D k c). fin.
Qed.
Lemma Lo_step n g g' k p : Lo n g k -> edge p k -> 2 * k < n -> g (2 * k) < g (2 * p) -> swapped g g' (2 * k) (2 * p) -> Lo n g' p.
Proof.
  intros (A & B & C & D & E1 & E2) Ep Lk Lt Sw. pose proof Ep as Ep'. unfold edge in Ep'.
  repeat split.
  - intros j Hj L. rewrite !Sw. pose proof (A j). pose proof (A p). pose proof (A k). pose proof (E1 p Ep).
    destruct (Z.eq_dec j p) as [->|]; [fin|]. destruct (Z.eq_dec j k) as [->|]; fin.
  - intros q c N E L; pose proof E as Ei; unfold edge in Ei. rewrite !Sw. pose proof (B q c). pose proof (B p c). pose proof (E2 p c Ep).
    destruct (Z.eq_dec q p) as [->|]; [destruct (Z.eq_dec c k) as [->|]; fin|].
    destruct (Z.eq_dec q k) as [->|]; [|destruct (Z.eq_dec c k) as [->|]; fin]. fin.
  - intros q c E L; pose proof E as Ei; unfold edge in Ei. rewrite !Sw. pose proof (C q c). fin.
  - intros q c E L; pose proof E as Ei; unfold edge in Ei. rewrite !Sw. pose proof (D q c). pose proof (A p).
    destruct (Z.eq_dec c k) as [->|]; [replace q with p in * by lia; fin|].
    destruct (Z.eq_dec c p) as [->|]; [lia|]. fin.
  - intros q E L; pose proof E as Ei; unfold edge in Ei. rewrite !Sw. pose proof (B q p). pose proof (A p). fin.
  - intros q c E E' L; pose proof E as Ei; unfold edge in Ei; pose proof E' as Ei'; unfold edge in Ei'. rewrite !Sw. pose proof (B q p). pose proof (B p c).
    destruct (Z.eq_dec c k) as [->|]; fin.
Qed.
Lemma Lo_done n g k : Lo n g k -> (forall p, edge p k -> 2 * k < n -> g (2 * p) <= g (2 * k)) -> IH n g.
Proof.
  intros (A & B & C & D & _) H. repeat split; auto. intros p c E L; pose proof E as Ei; unfold edge in Ei. destruct (Z.eq_dec c k) as [->|N]; [now apply H|now apply B].
Qed.
Definition hidx (n k : Z) : Z := if 2 * k + 1 <? n then 2 * k + 1 else 2 * k.
Lemma Up_step n g g' k p : Up n g k -> edge p k -> 2 * k < n -> g (2 * p + 1) < g (hidx n k) -> swapped g g' (hidx n k) (2 * p + 1) -> Up n g' p.
Proof.
  intros (A & B & C & D & E1 & E2 & E3) Ep Lk Lt Sw. pose proof Ep as Ep'. unfold edge in Ep'. unfold hidx in *.
  destruct (2 * k + 1 <? n) eqn:Ek.
  - repeat split.
    + intros j Hj L. rewrite !Sw. pose proof (A j). pose proof (A p). pose proof (A k). pose proof (E1 p Ep).
      destruct (Z.eq_dec j p) as [->|]; [fin|]. destruct (Z.eq_dec j k) as [->|]; fin.
    + intros q c E L; pose proof E as Ei; unfold edge in Ei. rewrite !Sw. pose proof (B q c). fin.
    + intros q c N E L; pose proof E as Ei; unfold edge in Ei. rewrite !Sw. pose proof (C q c). pose proof (C p c). pose proof (E2 p c Ep).
      destruct (Z.eq_dec q p) as [->|]; [destruct (Z.eq_dec c k) as [->|]; fin|].
      destruct (Z.eq_dec q k) as [->|]; [|destruct (Z.eq_dec c k) as [->|]; fin]. fin.
    + intros q c N E L; pose proof E as Ei; unfold edge in Ei. rewrite !Sw. pose proof (D q c). pose proof (E3 p c Ep).
      destruct (Z.eq_dec q p) as [->|]; [fin|]. destruct (Z.eq_dec q k) as [->|]; fin.
    + intros q E L; pose proof E as Ei; unfold edge in Ei. rewrite !Sw. pose proof (C q p). pose proof (A p). fin.
    + intros q c E E' L; pose proof E as Ei; unfold edge in Ei; pose proof E' as Ei'; unfold edge in Ei'. rewrite !Sw. pose proof (C q p). pose proof (C p c).
      destruct (Z.eq_dec c k) as [->|]; fin.
    + intros q c E E' L; pose proof E as Ei; unfold edge in Ei; pose proof E' as Ei'; unfold edge in Ei'. rewrite !Sw. pose proof (C q p). pose proof (D p c). fin.
  - repeat split.
    + intros j Hj L. rewrite !Sw. pose proof (A j). pose proof (A p). destruct (Z.eq_dec j p) as [->|]; fin.
    + intros q c E L; pose proof E as Ei; unfold edge in Ei. rewrite !Sw. pose proof (B q c). pose proof (B p k). pose proof (A p).
      destruct (Z.eq_dec c k) as [->|]; [replace q with p in * by lia; fin|]. fin.
    + intros q c N E L; pose proof E as Ei; unfold edge in Ei. rewrite !Sw. pose proof (C q c). destruct (Z.eq_dec q p) as [->|]; fin.
    + intros q c N E L; pose proof E as Ei; unfold edge in Ei. replace c with k in * by lia. replace q with p in * by (eapply edge_fun; eauto). rewrite !Sw. fin.
    + intros q E L; pose proof E as Ei; unfold edge in Ei. rewrite !Sw. pose proof (C q p). pose proof (A p). fin.
    + intros q c E E' L; pose proof E as Ei; unfold edge in Ei; pose proof E' as Ei'; unfold edge in Ei'. rewrite !Sw. pose proof (C q p). pose proof (C p c). fin.
    + intros q c E E' L; pose proof E as Ei; unfold edge in Ei; pose proof E' as Ei'; unfold edge in Ei'. rewrite !Sw. pose proof (C q p). replace c with k in * by lia. fin.
Qed.
Lemma Up_done n g k : 2 * k < n -> Up n g k -> (forall p, edge p k -> g (hidx n k) <= g (2 * p + 1)) -> IH n g.
Proof.
  intros Lk (A & B & C & D & _) H. unfold hidx in H.
  split; [exact A|]. split; [exact B|]. split; intros p c E L.
  - destruct (Z.eq_dec c k) as [->|N]; [|now apply C]. specialize (H p E). replace (2 * k + 1 <? n) with true in H by lia. exact H.
  - destruct (Z.eq_dec c k) as [->|N]; [|now apply D]. specialize (H p E). replace (2 * k + 1 <? n) with false in H by lia. exact H.
Qed.

(* a leaf *)
Lemma Fx_Lo n g k : Fx n g k -> 2 * k + 1 < n -> g (2 * k) <= g (2 * k + 1) ->
  (forall p, edge p k -> g (2 * p) <= g (2 * k + 1) <= g (2 * p + 1)) -> Lo n g k.
Proof.
  intros (A & B & C & D & Lf & _) L O H. repeat split.
  - intros j Hj Lj. destruct (Z.eq_dec j k) as [->|N]; auto. now apply A.
  - exact B.
  - intros p c E Lc. destruct (Z.eq_dec c k) as [->|N]; [now apply H|now apply C].
  - intros p c E Lc. apply D; auto. lia.
  - intros p E _. now apply H.
  - intros p c _ E Lc. unfold edge in E. lia.
Qed.
Lemma Fx_Up n g k : Fx n g k -> 2 * k + 1 < n -> g (2 * k) <= g (2 * k + 1) ->
  (forall p, edge p k -> g (2 * p) <= g (2 * k) <= g (2 * p + 1)) -> Up n g k.
Proof.
  intros (A & B & C & D & Lf & _) L O H. repeat split.
  - intros j Hj Lj. destruct (Z.eq_dec j k) as [->|N]; auto. now apply A.
  - intros p c E Lc. destruct (Z.eq_dec c k) as [->|N]; [now apply H|now apply B].
  - exact C.
  - exact D.
  - intros p E _. now apply H.
  - intros p c _ E Lc. unfold edge in E. lia.
  - intros p c _ E Lc. unfold edge in E. lia.
Qed.
Lemma Fx_Lo1 n g k : Fx n g k -> 2 * k + 1 = n -> (forall p, edge p k -> g (2 * k) <= g (2 * p + 1)) -> Lo n g k.
Proof.
  intros (A & B & C & D & Lf & _) L H. repeat split.
  - intros j Hj Lj. apply A; auto. lia.
  - exact B.
  - intros p c E Lc. apply C; auto; lia.
  - intros p c E Lc. replace c with k in * by lia. auto.
  - intros p E L'. lia.
  - intros p c _ E Lc. unfold edge in E. lia.
Qed.
Lemma Fx_Up1 n g k : Fx n g k -> 2 * k + 1 = n -> (forall p, edge p k -> g (2 * p) <= g (2 * k)) -> Up n g k.
Proof.
  intros (A & B & C & D & Lf & _) L H. repeat split.
  - intros j Hj Lj. apply A; auto. lia.
  - intros p c E Lc. destruct (Z.eq_dec c k) as [->|N]; [now apply H|now apply B].
  - exact C.
  - exact D.
  - intros p E L'. lia.
  - intros p c _ E Lc. unfold edge in E. lia.
  - intros p c _ E Lc. unfold edge in E. lia.
Qed.
Lemma Fx_swap n g g' k : Fx n g k -> 2 * k + 1 < n -> 0 <= k -> swapped g g' (2 * k) (2 * k + 1) -> Fx n g' k.
Proof.
  intros (A & B & C & D & Lf & X) L K Sw. repeat split; auto.
  - intros j N Hj Lj. rewrite !Sw. pose proof (A j). fin.
  - intros p c N E Lc; pose proof E as Ei; unfold edge in Ei. rewrite !Sw. pose proof (B p c). fin.
  - intros p c N E Lc; pose proof E as Ei; unfold edge in Ei. rewrite !Sw. pose proof (C p c). fin.
  - intros p c N E Lc; pose proof E as Ei; unfold edge in Ei. rewrite !Sw. pose proof (D p c). fin.
  - intros p E Lc; pose proof E as Ei; unfold edge in Ei. rewrite !Sw. specialize (X p E Lc). ev. lia.
Qed.
(* sinking the lower end *)
Lemma Dmin_step n g g' k c : Dmin n g k -> edge k c -> 2 * c < n -> g (2 * c) < g (2 * k) ->
  (forall d, edge k d -> 2 * d < n -> g (2 * c) <= g (2 * d)) -> swapped g g' (2 * k) (2 * c) -> Dmin n g' c.
Proof.
  intros (A & B & C & D & E1 & E2) Ek Lc Lt Mn Sw. pose proof Ek as Ek'. unfold edge in Ek'. repeat split.
  - intros j N Hj L. rewrite !Sw. destruct (Z.eq_dec j k) as [->|].
    + pose proof (A c). pose proof (C k c). pose proof (D k c). destruct (Z.eq_dec (2 * c + 1) n); fin.
    + pose proof (A j). fin.
  - intros p d N E L; pose proof E as Ei; unfold edge in Ei. rewrite !Sw. destruct (Z.eq_dec p k) as [->|].
    + pose proof (Mn d). destruct (Z.eq_dec d c) as [->|]; fin.
    + destruct (Z.eq_dec d k) as [->|]; [pose proof (E2 p c)|pose proof (B p d)]; fin.
  - intros p d E L; pose proof E as Ei; unfold edge in Ei. rewrite !Sw. pose proof (C p d). fin.
  - intros p d N E L; pose proof E as Ei; unfold edge in Ei. rewrite !Sw. pose proof (D p d). fin.
  - intros p E L; pose proof E as Ei; unfold edge in Ei. replace p with k in * by lia. rewrite !Sw. pose proof (A c). fin.
  - intros p d E E' L; pose proof E as Ei; unfold edge in Ei; pose proof E' as Ei'; unfold edge in Ei'.
    replace p with k in * by lia. rewrite !Sw. pose proof (B c d). fin.
Qed.
Lemma Dmin_done n g k c : Dmin n g k -> edge k c -> 2 * c < n -> g (2 * k) <= g (2 * c) ->
  (forall d, edge k d -> 2 * d < n -> g (2 * c) <= g (2 * d)) -> IH n g.
Proof.
  intros (A & B & C & D & E1 & E2) Ek Lc Lt Mn. pose proof Ek as Ek'. unfold edge in Ek'. repeat split.
  - intros j Hj L. destruct (Z.eq_dec j k) as [->|]; [|now apply A].
    pose proof (A c). pose proof (C k c). pose proof (D k c). destruct (Z.eq_dec (2 * c + 1) n); fin.
  - intros p d E L. destruct (Z.eq_dec p k) as [->|]; [|now apply B]. specialize (Mn d E L). lia.
  - exact C.
  - intros p d E L. apply D; auto. lia.
Qed.
Lemma Dmin_leaf n g k : Dmin n g k -> n <= 4 * k + 2 -> Fx n g k.
Proof.
  intros (A & B & C & D & E1 & E2) L. split; [exact A|]. split; [|split; [auto|split; [auto|split; [auto|]]]].
  - intros p c N E Lc. apply B; auto. unfold edge in E. lia.
  - intros p E Lk. right. specialize (E1 p E Lk). specialize (C p k E Lk). lia.
Qed.
(* sinking the upper end *)
Lemma Dmax_step n g g' k c : Dmax n g k -> edge k c -> 2 * c < n -> g (2 * k + 1) < g (hidx n c) ->
  (forall d, edge k d -> 2 * d < n -> g (hidx n d) <= g (hidx n c)) -> swapped g g' (2 * k + 1) (hidx n c) -> Dmax n g' c.
Proof.
  intros (A & B & C & D & E1 & E2 & E3) Ek Lc Lt Mx Sw. pose proof Ek as Ek'. unfold edge in Ek'.
  assert (MC : forall d, edge k d -> 2 * d + 1 < n -> g (2 * d + 1) <= g (hidx n c)).
  { intros d E L. specialize (Mx d E ltac:(lia)). unfold hidx at 1 in Mx. replace (2 * d + 1 <? n) with true in Mx by lia. auto. }
  assert (MD : forall d, edge k d -> 2 * d + 1 = n -> g (2 * d) <= g (hidx n c)).
  { intros d E L. specialize (Mx d E ltac:(lia)). unfold hidx at 1 in Mx. replace (2 * d + 1 <? n) with false in Mx by lia. auto. }
  clear Mx. unfold hidx in *. destruct (2 * c + 1 <? n) eqn:Ec.
  - repeat split.
    + intros j N Hj L. rewrite !Sw. destruct (Z.eq_dec j k) as [->|].
      * pose proof (A c). pose proof (B k c). fin.
      * pose proof (A j). fin.
    + intros p d _ E L; pose proof E as Ei; unfold edge in Ei. rewrite !Sw. pose proof (B p d). fin.
    + intros p d N E L; pose proof E as Ei; unfold edge in Ei. rewrite !Sw. destruct (Z.eq_dec p k) as [->|].
      * pose proof (MC d). destruct (Z.eq_dec d c) as [->|]; fin.
      * destruct (Z.eq_dec d k) as [->|]; [pose proof (E2 p c)|pose proof (C p d)]; fin.
    + intros p d N E L; pose proof E as Ei; unfold edge in Ei. rewrite !Sw. destruct (Z.eq_dec p k) as [->|].
      * pose proof (MD d). fin.
      * pose proof (D p d). fin.
    + intros p E L; pose proof E as Ei; unfold edge in Ei. replace p with k in * by lia. rewrite !Sw. pose proof (A c). fin.
    + intros p d E E' L; pose proof E as Ei; unfold edge in Ei; pose proof E' as Ei'; unfold edge in Ei'.
      replace p with k in * by lia. rewrite !Sw. pose proof (C c d). fin.
    + intros p d E E' L; pose proof E as Ei; unfold edge in Ei; pose proof E' as Ei'; unfold edge in Ei'.
      replace p with k in * by lia. rewrite !Sw. pose proof (D c d). fin.
  - repeat split.
    + intros j N Hj L. rewrite !Sw. destruct (Z.eq_dec j k) as [->|].
      * pose proof (B k c). fin.
      * pose proof (A j). fin.
    + intros p d N E L; pose proof E as Ei; unfold edge in Ei. rewrite !Sw. pose proof (B p d). fin.
    + intros p d N E L; pose proof E as Ei; unfold edge in Ei. rewrite !Sw. destruct (Z.eq_dec p k) as [->|].
      * pose proof (MC d). fin.
      * destruct (Z.eq_dec d k) as [->|]; [pose proof (E3 p c)|pose proof (C p d)]; fin.
    + intros p d N E L; pose proof E as Ei; unfold edge in Ei. replace d with c in * by lia. replace p with k in * by lia. rewrite !Sw. fin.
    + intros p E L. lia.
    + intros p d E E' L. unfold edge in *. lia.
    + intros p d E E' L. unfold edge in *. lia.
Qed.
Lemma Dmax_done n g k c : Dmax n g k -> edge k c -> 2 * c < n -> g (hidx n c) <= g (2 * k + 1) ->
  (forall d, edge k d -> 2 * d < n -> g (hidx n d) <= g (hidx n c)) -> IH n g.
Proof.
  intros (A & B & C & D & E1 & E2 & E3) Ek Lc Lt Mx. pose proof Ek as Ek'. unfold edge in Ek'. repeat split.
  - intros j Hj L. destruct (Z.eq_dec j k) as [->|]; [|now apply A].
    pose proof (A c). pose proof (B k c). unfold hidx in Lt. destruct (2 * c + 1 <? n) eqn:Ec; fin.
  - intros p d E L. apply B; auto. lia.
  - intros p d E L. destruct (Z.eq_dec p k) as [->|]; [|now apply C]. specialize (Mx d E ltac:(lia)).
    unfold hidx at 1 in Mx. replace (2 * d + 1 <? n) with true in Mx by lia. lia.
  - intros p d E L. destruct (Z.eq_dec p k) as [->|]; [|now apply D]. specialize (Mx d E ltac:(lia)).
    unfold hidx at 1 in Mx. replace (2 * d + 1 <? n) with false in Mx by lia. lia.
Qed.
Lemma Dmax_leaf n g k : Dmax n g k -> n <= 4 * k + 2 -> Fx n g k.
Proof.
  intros (A & B & C & D & E1 & E2 & E3) L. split; [exact A|]. split; [auto|]. split; [|split; [|split; [auto|]]].
  - intros p c N E Lc. apply C; auto. unfold edge in E. lia.
  - intros p c N E Lc. apply D; auto. unfold edge in E. lia.
  - intros p E Lk. left. specialize (E1 p E Lk). specialize (B p k ltac:(auto) E ltac:(lia)). lia.
Qed.
