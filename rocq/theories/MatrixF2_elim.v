(* the elimination loops over rows of any kind *)
From Verif Require Import Base BaseLemmas ListZ MatrixF2_model.

Definition row {R} (d : R) (a : list R) (i : Z) : R := nth (Z.to_nat i) a d.
Lemma vget_row {R} (d : R) a i : 0 <= i < zlen a -> vget a i = Ok (row d a i).
Proof. apply vget_nth. Qed.
Lemma row_zupd {R} (d : R) a i x k : 0 <= i < zlen a -> 0 <= k < zlen a -> row d (zupd a i x) k = if i =? k then x else row d a k.
Proof.
  intros. assert (E : vget (zupd a i x) k = Ok (row d (zupd a i x) k)) by (apply vget_row; rewrite zlen_zupd; lia).
  rewrite vget_zupd in E by auto. destruct (i =? k); [congruence|]. rewrite (vget_row d) in E by auto. congruence.
Qed.
Definition mat {R} (d : R) (wf : R -> Prop) (n : Z) (a : list R) : Prop := zlen a = n /\ forall i, 0 <= i < n -> wf (row d a i).
Lemma mat_zupd {R} (d : R) (wf : R -> Prop) n a i x : mat d wf n a -> wf x -> 0 <= i < n -> mat d wf n (zupd a i x).
Proof.
  intros [Z1 W] Wx Hi. split; [now rewrite zlen_zupd|]. intros k Hk. rewrite row_zupd by lia. destruct (i =? k); auto.
Qed.
Lemma row_swap {R} (d : R) n a i j k : zlen a = n -> 0 <= i < n -> 0 <= j < n -> 0 <= k < n ->
  row d (zupd (zupd a i (row d a j)) j (row d a i)) k = if j =? k then row d a i else if i =? k then row d a j else row d a k.
Proof. intros. rewrite row_zupd by (rewrite ?zlen_zupd; lia). rewrite row_zupd by lia. reflexivity. Qed.

Section Elim.
  Context {R : Type} (d : R) (test : Z -> R -> res bool) (add : R -> R -> res R).
  Variables (wf : R -> Prop) (w : Z) (tb : Z -> R -> bool) (ad : R -> R -> R).
  Hypothesis test_ok : forall r j, wf r -> 0 <= j < w -> test j r = Ok (tb j r).
  Hypothesis add_ok : forall r s, wf r -> wf s -> add r s = Ok (ad r s).
  Hypothesis add_wf : forall r s, wf r -> wf s -> wf (ad r s).
  Hypothesis add_tb : forall r s j, wf r -> wf s -> 0 <= j < w -> tb j (ad r s) = xorb (tb j r) (tb j s).

  Notation row := (row d).
  Notation mat := (mat d wf).
  Definition linear (phi : R -> bool) : Prop := forall r s, wf r -> wf s -> phi (ad r s) = xorb (phi r) (phi s).
  Definition vanish (n : Z) (phi : R -> bool) (a : list R) : Prop := forall i, 0 <= i < n -> phi (row a i) = false.
  Definition equiv (n : Z) (a a' : list R) : Prop := forall phi, linear phi -> (vanish n phi a <-> vanish n phi a').
  Lemma equiv_refl n a : equiv n a a. Proof. intros phi _. reflexivity. Qed.
  Lemma equiv_trans n a b c : equiv n a b -> equiv n b c -> equiv n a c.
  Proof. intros A B phi L. rewrite (A phi L); exact (B phi L). Qed.

  Lemma at_ok n a i j : mat n a -> 0 <= i < n -> 0 <= j < w -> at_ test a i j = Ok (tb j (row a i)).
  Proof. intros [Z1 W] Hi Hj. unfold at_. rewrite (vget_row d) by lia. cbn [bind]. now apply test_ok; auto. Qed.
  Lemma add_row_ok n a i r : mat n a -> 0 <= i < n -> 0 <= r < n -> add_row add a i r = Ok (zupd a i (ad (row a i) (row a r))).
  Proof.
    intros [Z1 W] Hi Hr. unfold add_row. rewrite !(vget_row d) by lia. cbn [bind]. rewrite add_ok by auto. cbn [bind]. apply vset_ok. lia.
  Qed.
  Lemma swap_rows_ok n a i j : mat n a -> 0 <= i < n -> 0 <= j < n -> swap_rows a i j = Ok (zupd (zupd a i (row a j)) j (row a i)).
  Proof.
    intros [Z1 W] Hi Hr. unfold swap_rows. rewrite !(vget_row d) by lia. cbn [bind]. rewrite vset_ok by lia. cbn [bind].
    apply vset_ok. rewrite zlen_zupd. lia.
  Qed.
  (* row i becomes itself plus row r *)
  Lemma equiv_add n a i r : mat n a -> 0 <= i < n -> 0 <= r < n -> i <> r -> equiv n a (zupd a i (ad (row a i) (row a r))).
  Proof.
    intros [Z1 W] Hi Hr Ne phi L. split; intros V k Hk.
    - rewrite row_zupd by lia. destruct (Z.eqb_spec i k) as [->|N]; auto. rewrite L by auto. now rewrite !V.
    - destruct (Z.eq_dec i k) as [<-|N].
      + pose proof (V i Hi) as A. pose proof (V r Hr) as B. rewrite row_zupd in A, B by lia. rewrite Z.eqb_refl in A.
        destruct (Z.eqb_spec i r); [lia|]. rewrite L, B in A by auto. now rewrite xorb_false_r in A.
      + specialize (V k Hk). rewrite row_zupd in V by lia. destruct (Z.eqb_spec i k); [lia|auto].
  Qed.
  Lemma equiv_swap n a i j : mat n a -> 0 <= i < n -> 0 <= j < n -> equiv n a (zupd (zupd a i (row a j)) j (row a i)).
  Proof.
    intros [Z1 W] Hi Hj phi L. split; intros V k Hk.
    - rewrite (row_swap d n) by auto. destruct (j =? k), (i =? k); auto.
    - pose proof (V i Hi) as A. pose proof (V j Hj) as B. pose proof (V k Hk) as C.
      rewrite (row_swap d n) in A, B, C by auto. rewrite Z.eqb_refl in A, B.
      destruct (Z.eqb_spec j k) as [<-|N]; [|destruct (Z.eqb_spec i k) as [<-|N2]; auto].
      destruct (Z.eqb_spec j i) as [->|N]; auto.
  Qed.

  Lemma clear_below_ok n a r j : mat n a -> 0 <= r < n -> 0 <= j < w ->
    exists a', clear_below test add n a r j = Ok a' /\ mat n a' /\ equiv n a a' /\
      (forall i, 0 <= i < r -> row a' i = row a i) /\
      (forall i, r < i < n -> tb j (row a' i) = false) /\
      (forall c, 0 <= c < w -> (forall i, r <= i < n -> tb c (row a i) = false) -> forall i, r <= i < n -> tb c (row a' i) = false).
  Proof.
    intros M Hr Hj. unfold clear_below.
    refine (for_inv (fun i a' => mat n a' /\ equiv n a a' /\ (forall i, 0 <= i < r -> row a' i = row a i) /\
      (forall k, r < k < i -> tb j (row a' k) = false) /\
      (forall c, 0 <= c < w -> (forall i, r <= i < n -> tb c (row a i) = false) -> forall i, r <= i < n -> tb c (row a' i) = false))
      (r + 1) n _ a _ _ _); [lia| |].
    - split; auto. split; [apply equiv_refl|]. split; auto. split; auto. intros. lia.
    - intros i a1 Hi (M1 & E1 & L1 & B1 & C1). rewrite (at_ok n) by (auto; lia). cbn [bind].
      pose proof M1 as [Z1 W1].
      destruct (tb j (row a1 i)) eqn:T.
      + rewrite (swap_rows_ok n) by (auto; lia). cbn [bind]. set (a2 := zupd (zupd a1 r (row a1 i)) i (row a1 r)).
        assert (M2 : mat n a2).
        { apply mat_zupd; [apply mat_zupd; auto; try (apply W1); lia|apply W1; lia|lia]. }
        assert (E2 : equiv n a a2) by (eapply equiv_trans; [exact E1|apply equiv_swap; auto; lia]).
        assert (Rw : forall k, 0 <= k < n -> row a2 k = if i =? k then row a1 r else if r =? k then row a1 i else row a1 k)
          by (intros; apply (row_swap d n); auto; lia).
        rewrite (at_ok n) by (auto; lia). cbn [bind]. rewrite (Rw i) by lia. rewrite Z.eqb_refl.
        destruct (tb j (row a1 r)) eqn:T2.
        * rewrite (add_row_ok n) by (auto; lia). rewrite (Rw i), (Rw r) by lia. rewrite !Z.eqb_refl.
          destruct (Z.eqb_spec i r); [lia|]. set (z := ad (row a1 r) (row a1 i)).
          assert (Wz : wf z) by (apply add_wf; apply W1; lia).
          eexists. split; [reflexivity|]. split; [now apply mat_zupd; auto; lia|]. split.
          { eapply equiv_trans; [exact E2|]. pose proof (equiv_add n a2 i r M2 ltac:(lia) ltac:(lia) ltac:(lia)) as Q.
            rewrite (Rw i), (Rw r) in Q by lia. rewrite !Z.eqb_refl in Q. destruct (Z.eqb_spec i r); [lia|exact Q]. }
          destruct M2 as [Z2 W2].
          assert (Rw3 : forall k, 0 <= k < n -> row (zupd a2 i z) k = if i =? k then z else if r =? k then row a1 i else row a1 k).
          { intros k Hk. rewrite row_zupd by lia. destruct (Z.eqb_spec i k) as [->|Ne]; auto. rewrite Rw by lia.
            destruct (Z.eqb_spec i k); [lia|auto]. }
          split; [|split].
          -- intros k Hk. rewrite Rw3 by lia. destruct (Z.eqb_spec i k); [lia|]. destruct (Z.eqb_spec r k); [lia|]. auto.
          -- intros k Hk. rewrite Rw3 by lia. destruct (Z.eqb_spec i k) as [->|Ne].
             ++ unfold z. rewrite add_tb by (auto; try (apply W1; lia)). rewrite T, T2. reflexivity.
             ++ destruct (Z.eqb_spec r k); [lia|]. apply B1. lia.
          -- intros c Hc Z0 k Hk. specialize (C1 c Hc Z0). rewrite Rw3 by lia. destruct (Z.eqb_spec i k) as [->|Ne].
             ++ unfold z. rewrite add_tb by (auto; try (apply W1; lia)). rewrite !C1 by lia. reflexivity.
             ++ destruct (Z.eqb_spec r k); apply C1; lia.
        * exists a2. split; [reflexivity|]. split; auto. split; auto. split; [|split].
          -- intros k Hk. rewrite Rw by lia. destruct (Z.eqb_spec i k); [lia|]. destruct (Z.eqb_spec r k); [lia|]. auto.
          -- intros k Hk. rewrite Rw by lia. destruct (Z.eqb_spec i k) as [->|Ne]; auto.
             destruct (Z.eqb_spec r k); [lia|]. apply B1. lia.
          -- intros c Hc Z0 k Hk. specialize (C1 c Hc Z0). rewrite Rw by lia. destruct (Z.eqb_spec i k) as [->|Ne]; [apply C1; lia|].
             destruct (Z.eqb_spec r k); apply C1; lia.
      + exists a1. split; auto. split; auto. split; auto. split; auto. split; auto.
        intros k Hk. destruct (Z.eq_dec k i) as [->|]; auto. apply B1. lia.
  Qed.

  Lemma clear_above_ok n a r j : mat n a -> 0 <= r < n -> 0 <= j < w -> tb j (row a r) = true ->
    exists a', clear_above test add a r j = Ok a' /\ mat n a' /\ equiv n a a' /\
      (forall i, r <= i < n -> row a' i = row a i) /\
      (forall i, 0 <= i < r -> tb j (row a' i) = false) /\
      (forall c i, 0 <= c < w -> 0 <= i < n -> tb c (row a r) = false -> tb c (row a' i) = tb c (row a i)).
  Proof.
    intros M Hr Hj T. unfold clear_above.
    refine (for_inv (fun i a' => mat n a' /\ equiv n a a' /\ (forall k, i <= k < n -> row a' k = row a k) /\
      (forall k, 0 <= k < i -> tb j (row a' k) = false) /\
      (forall c i, 0 <= c < w -> 0 <= i < n -> tb c (row a r) = false -> tb c (row a' i) = tb c (row a i)))
      0 r _ a _ _ _); [lia| |].
    - split; auto. split; [apply equiv_refl|]. split; auto. split; auto. intros. lia.
    - intros i a1 Hi (M1 & E1 & L1 & B1 & C1). pose proof M1 as [Z1 W1]. rewrite (at_ok n) by (auto; lia). cbn [bind].
      destruct (tb j (row a1 i)) eqn:T1.
      + rewrite (add_row_ok n) by (auto; lia). eexists. split; [reflexivity|].
        assert (Wz : wf (ad (row a1 i) (row a1 r))) by (apply add_wf; apply W1; lia).
        split; [now apply mat_zupd; auto; lia|]. split; [eapply equiv_trans; [exact E1|apply equiv_add; auto; lia]|].
        assert (Er : row a1 r = row a r) by (apply L1; lia).
        split; [|split].
        * intros k Hk. rewrite row_zupd by lia. destruct (Z.eqb_spec i k); [lia|]. apply L1. lia.
        * intros k Hk. rewrite row_zupd by lia. destruct (Z.eqb_spec i k) as [->|Ne].
          -- rewrite add_tb by (auto; apply W1; lia). now rewrite T1, Er, T.
          -- apply B1. lia.
        * intros c k Hc Hk Z0. rewrite row_zupd by lia. destruct (Z.eqb_spec i k) as [->|Ne]; [|auto].
          rewrite add_tb by (auto; apply W1; lia). rewrite Er, Z0, xorb_false_r. auto.
      + exists a1. split; auto. split; auto. split; auto. split; [intros; apply L1; lia|]. split; auto.
        intros k Hk. destruct (Z.eq_dec k i) as [->|]; auto. apply B1. lia.
  Qed.

  (* diagonal columns *)
  Lemma triangulate_ok n a : mat n a -> 0 <= n <= w ->
    exists oa, triangulate test add n a = Ok oa /\
      match oa with
      | Some a' => mat n a' /\ equiv n a a' /\ forall i, 0 <= i < n -> tb i (row a' i) = true /\ forall k, i < k < n -> tb i (row a' k) = false
      | None => exists a' i, mat n a' /\ equiv n a a' /\ 0 <= i < n /\
          (forall c, 0 <= c < i -> tb c (row a' c) = true /\ forall k, c < k < n -> tb c (row a' k) = false) /\
          (forall k, i <= k < n -> tb i (row a' k) = false)
      end.
  Proof.
    intros M Hn. unfold triangulate.
    refine (for_inv (fun i oa => match oa with
      | Some a' => mat n a' /\ equiv n a a' /\ forall c, 0 <= c < i -> tb c (row a' c) = true /\ forall k, c < k < n -> tb c (row a' k) = false
      | None => exists a' i, mat n a' /\ equiv n a a' /\ 0 <= i < n /\
          (forall c, 0 <= c < i -> tb c (row a' c) = true /\ forall k, c < k < n -> tb c (row a' k) = false) /\
          (forall k, i <= k < n -> tb i (row a' k) = false)
      end) 0 n _ (Some a) _ _ _); [lia| |].
    - split; auto. split; [apply equiv_refl|]. intros. lia.
    - intros i [a1|] Hi I; [|eauto]. destruct I as (M1 & E1 & T1).
      destruct (clear_below_ok n a1 i i M1 ltac:(lia) ltac:(lia)) as (a2 & E & M2 & E2 & L2 & B2 & C2). rewrite E. cbn [bind].
      rewrite (at_ok n) by (auto; lia). cbn [bind]. eexists. split; [reflexivity|].
      assert (T2 : forall c, 0 <= c < i -> tb c (row a2 c) = true /\ forall k, c < k < n -> tb c (row a2 k) = false).
      { intros c Hc. destruct (T1 c Hc) as [D Z0]. split; [rewrite L2 by lia; auto|]. intros k Hk.
        destruct (Z_lt_le_dec k i); [rewrite L2 by lia; apply Z0; lia|]. apply (C2 c); [lia| |lia]. intros x Hx. apply Z0. lia. }
      pose proof (equiv_trans _ _ _ _ E1 E2) as E3.
      destruct (tb i (row a2 i)) eqn:D.
      + split; auto. split; auto. intros c Hc. destruct (Z.eq_dec c i) as [->|]; [|apply T2; lia]. split; auto.
      + exists a2, i. split; auto. split; auto. split; [lia|]. split; auto. intros k Hk.
        destruct (Z.eq_dec k i) as [->|]; auto. apply B2. lia.
  Qed.
End Elim.
