(* Proofs about Mo_model. *)
From Verif Require Import Base BaseLemmas ListZ Seq Cartesian_spec Mo_model.
From Coq Require Import Permutation.

Lemma mo_less_sw b : strict_weak (mo_less b).
Proof.
  split.
  - intros (l, r). unfold mo_less. rewrite !Z.eqb_refl. cbn [negb]. lia.
  - intros (l1, r1) (l2, r2) (l3, r3). unfold mo_less. set (a := Z.quot l1 b). set (c := Z.quot l2 b). set (d := Z.quot l3 b). clearbody a c d.
    repeat match goal with |- context [?x =? ?y] => destruct (Z.eqb_spec x y) end; cbn [negb]; intros; subst; try lia.
  - intros (l1, r1) (l2, r2) (l3, r3). unfold mo_less. set (a := Z.quot l1 b). set (c := Z.quot l2 b). set (d := Z.quot l3 b). clearbody a c d.
    repeat match goal with |- context [?x =? ?y] => destruct (Z.eqb_spec x y) end; cbn [negb]; intros; subst; try lia.
Qed.

Section P.
  Context {S T : Type}.
  Variable eval : S -> res T.
  Variables add_l del_l add_r del_r : Z -> S -> res S.
  Variable n : Z.
  (* D l r s : the user's structure s represents the interval [l, r) *)
  Variable D : Z -> Z -> S -> Prop.
  Variable ans : Z -> Z -> T.
  Hypothesis Heval : forall l r s, 0 <= l <= r -> r <= n -> D l r s -> eval s = Ok (ans l r).
  Hypothesis Hal : forall l r s, 0 <= l < r -> r <= n -> D (l + 1) r s -> exists s', add_l l s = Ok s' /\ D l r s'.
  Hypothesis Hdl : forall l r s, 0 <= l < r -> r <= n -> D l r s -> exists s', del_l l s = Ok s' /\ D (l + 1) r s'.
  Hypothesis Har : forall l r s, 0 <= l <= r -> r < n -> D l r s -> exists s', add_r r s = Ok s' /\ D l (r + 1) s'.
  Hypothesis Hdr : forall l r s, 0 <= l <= r -> r < n -> D l (r + 1) s -> exists s', del_r r s = Ok s' /\ D l r s'.
  Lemma for_none {A} lo hi body (s : A) : hi <= lo -> for_ lo hi body s = Ok s.
  Proof. intro H. apply for_empty. lia. Qed.
  Lemma ford_none {A} hi lo body (s : A) : hi <= lo -> ford_ hi lo body s = Ok s.
  Proof. intro H. unfold ford_. replace (Z.to_nat (hi - lo)) with 0%nat by lia. reflexivity. Qed.
  Lemma move_ok l r nl nr s : 0 <= l <= r -> r <= n -> 0 <= nl <= nr -> nr <= n -> D l r s ->
    exists s1 s2 s3 s4, for_ r nr add_r s = Ok s1 /\ ford_ l nl (fun i => add_l (i - 1)) s1 = Ok s2 /\ ford_ (Z.max r nr) nr (fun i => del_r (i - 1)) s2 = Ok s3 /\ for_ (Z.min l nl) nl del_l s3 = Ok s4 /\ D nl nr s4.
  Proof.
    intros Hl Hr Hnl Hnr H.
    assert (A1 : exists s1, for_ r nr add_r s = Ok s1 /\ D l (Z.max r nr) s1).
    { destruct (Z.le_gt_cases nr r) as [Q|Q]; [rewrite for_none by lia; exists s; rewrite Z.max_l by lia; auto|]. rewrite Z.max_r by lia. apply (for_inv (fun k s => D l k s) r nr); [lia|auto|]. intros i u Hi Du. apply Har; auto; lia. }
    destruct A1 as (s1 & X1 & D1). set (R := Z.max r nr) in *. assert (HR : R <= n /\ nr <= R /\ r <= R) by lia.
    assert (A2 : exists s2, ford_ l nl (fun i => add_l (i - 1)) s1 = Ok s2 /\ D (Z.min l nl) R s2).
    { destruct (Z.le_gt_cases l nl) as [Q|Q]; [rewrite ford_none by lia; exists s1; rewrite Z.min_l by lia; auto|]. rewrite Z.min_r by lia. apply (ford_inv (fun k s => D k R s) l nl); [lia|auto|]. intros i u Hi Du. apply Hal; [lia|lia|]. replace (i - 1 + 1) with i by lia. auto. }
    destruct A2 as (s2 & X2 & D2). set (L := Z.min l nl) in *. assert (HL : 0 <= L <= nl /\ L <= l) by lia.
    assert (A3 : exists s3, ford_ R nr (fun i => del_r (i - 1)) s2 = Ok s3 /\ D L nr s3).
    { apply (ford_inv (fun k s => D L k s) R nr); [lia|auto|]. intros i u Hi Du. apply Hdr; [lia|lia|]. replace (i - 1 + 1) with i by lia. auto. }
    destruct A3 as (s3 & X3 & D3).
    assert (A4 : exists s4, for_ L nl del_l s3 = Ok s4 /\ D nl nr s4).
    { apply (for_inv (fun k s => D k nr s) L nl); [lia|auto|]. intros i u Hi Du. apply Hdl; [lia|lia|auto]. }
    destruct A4 as (s4 & X4 & D4). exists s1, s2, s3, s4. auto.
  Qed.
  Lemma solve_ok qs ord s : Permutation ord (zrange (zlen qs)) -> (forall l r, In (l, r) qs -> 0 <= l <= r /\ r <= n) -> 0 <= n -> D 0 0 s ->
    mo_solve eval add_l del_l add_r del_r qs ord s = Ok (map (fun q => Some (ans (fst q) (snd q))) qs).
  Proof.
    intros PO HQ Hn H0. unfold mo_solve. set (q := zlen qs).
    assert (Q0 : 0 <= q) by apply zlen_nonneg.
    destruct (for_each_inv (fun done st => let '(l, r, s, out) := st in 0 <= l <= r /\ r <= n /\ D l r s /\ zlen out = q /\ forall i l r, In i done -> vget qs i = Ok (l, r) -> vget out i = Ok (Some (ans l r))) ord (mo_query eval add_l del_l add_r del_r qs) (0, 0, s, vrep q None)) as ((((l, r), s'), out) & X & _ & _ & _ & Lo & K).
    - split; [lia|]. split; [lia|]. split; [auto|]. split; [apply zlen_vrep; auto|]. intros i l r [].
    - intros done qi todo (((l, r), u), out) Eq (Hl & Hr & Du & Lo & K). assert (Hq : 0 <= qi < q). { apply In_zrange. apply (Permutation_in _ PO). rewrite Eq. apply in_or_app. right. left. auto. }
      unfold mo_query. destruct (vget_Ok qs qi Hq) as ((nl, nr) & Y). rewrite Y. cbn [bind]. destruct (HQ nl nr (vget_In _ _ _ Y)) as (Hnl & Hnr). destruct (move_ok l r nl nr u Hl Hr Hnl Hnr Du) as (s1 & s2 & s3 & s4 & X1 & X2 & X3 & X4 & D4). rewrite X1. cbn [bind]. cbv zeta. rewrite X2. cbn [bind]. rewrite X3. cbn [bind]. rewrite X4. cbn [bind]. rewrite (Heval nl nr s4) by auto. cbn [bind]. rewrite vset_ok by lia. cbn [bind]. eexists. split; [reflexivity|]. split; [lia|]. split; [lia|]. split; [auto|]. split; [rewrite zlen_zupd; auto|].
      intros i l0 r0 I Yi. rewrite vget_zupd by lia. destruct (Z.eqb_spec qi i) as [->|N]; [congruence|]. apply in_app_or in I. destruct I as [I|[I|[]]]; [apply K; auto|congruence].
    - fold q. rewrite X. cbn [bind]. f_equal. apply vget_ext; [rewrite zlen_map; auto|]. intros i Hi. rewrite Lo in Hi. destruct (vget_Ok qs i Hi) as ((l1, r1) & Y). rewrite (K i l1 r1); [|apply (Permutation_in _ (Permutation_sym PO)); apply In_zrange; auto|auto]. symmetry. rewrite vget_map, Y. reflexivity.
  Qed.
End P.
