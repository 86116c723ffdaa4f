From Verif Require Import Base BaseLemmas ListZ Trn_spec Trn_model.
Section P.
  Context {T : Type}.
  Variable d : T.
  Lemma rect_row N M (A : list (list T)) i : rectangular N M A -> 0 <= i < N -> exists row, vget A i = Ok row /\ zlen row = M.
  Proof. intros [L H] Hi. destruct (vget_Ok A i ltac:(lia)) as [row E]. exists row. split; auto. apply H. now apply vget_In in E. Qed.
  Lemma cell_Ok N M (A : list (list T)) i j : rectangular N M A -> 0 <= i < N -> 0 <= j < M -> exists x, cell A i j = Ok x.
  Proof. intros R Hi Hj. destruct (rect_row N M A i R Hi) as (row & E & L). unfold cell. rewrite E. cbn [bind]. destruct (vget_Ok row j ltac:(lia)) as [x Ex]. eauto. Qed.
  Lemma set2_ok N M (B : list (list T)) j i x : rectangular M N B -> 0 <= j < M -> 0 <= i < N ->
    exists B', set2 B j i x = Ok B' /\ rectangular M N B' /\ cell B' j i = Ok x /\ forall j' i', 0 <= j' -> 0 <= i' -> (j' <> j \/ i' <> i) -> cell B' j' i' = cell B j' i'.
  Proof.
    intros R Hj Hi. destruct (rect_row M N B j R Hj) as (row & E & L). unfold set2. rewrite E. cbn [bind]. rewrite vset_ok by lia. cbn [bind]. destruct R as [LB HB].
    rewrite vset_ok by lia. eexists; split; [reflexivity|]. split; [|split].
    - split; [now rewrite zlen_zupd|]. intros r Hr. apply In_vget in Hr as (q & Hq & Eq). rewrite zlen_zupd in Hq. rewrite vget_zupd in Eq by lia. destruct (j =? q); [|apply HB; now apply vget_In in Eq].
      injection Eq as <-. now rewrite zlen_zupd.
    - unfold cell. rewrite vget_zupd_same by lia. cbn [bind]. apply vget_zupd_same. lia.
    - intros j' i' Hj' Hi' Hn. unfold cell. destruct (Z.eq_dec j' j) as [->|Nj].
      + rewrite vget_zupd_same by lia. rewrite E. cbn [bind]. apply vget_zupd_diff; lia.
      + rewrite vget_zupd_diff by lia. reflexivity.
  Qed.
  (* the common loop: cell (j, i) of the result is cell (i, c j) of the argument *)
  Lemma fill_ok N M (A : list (list T)) (c : Z -> Z) : 0 <= N -> 0 <= M -> rectangular N M A -> (forall j, 0 <= j < M -> 0 <= c j < M) ->
    exists B, for_ 0 N (fun i B => for_ 0 M (fun j B => let* row := vget A i in let* x := vget row (c j) in set2 B j i x) B) (vrep M (vrep N d)) = Ok B /\
      rectangular M N B /\ forall i j, 0 <= i < N -> 0 <= j < M -> cell B j i = cell A i (c j).
  Proof.
    intros HN HM RA Hc.
    match goal with |- context [for_ 0 N ?b ?s] =>
      destruct (for_inv (fun i B => rectangular M N B /\ forall i' j, 0 <= i' < i -> 0 <= j < M -> cell B j i' = cell A i' (c j)) 0 N b s) as (B & E & RB & CB) end; [lia| | |].
    - split; [|intros; lia]. split; [apply zlen_vrep; lia|]. intros row Hr. apply repeat_spec in Hr. subst row. apply zlen_vrep. lia.
    - intros i B Hi [RB CB].
      match goal with |- context [for_ 0 M ?b ?s] =>
        destruct (for_inv (fun j B => rectangular M N B /\ (forall i' j', 0 <= i' < i -> 0 <= j' < M -> cell B j' i' = cell A i' (c j')) /\ forall j', 0 <= j' < j -> cell B j' i = cell A i (c j')) 0 M b s) as (B' & E & RB' & C1 & C2) end; [lia| | |].
      + split; auto. split; auto. intros; lia.
      + intros j B1 Hj (R1 & C1 & C2). destruct (cell_Ok N M A i (c j) RA Hi (Hc j Hj)) as [x Ex]. pose proof Ex as Ex'. unfold cell in Ex'.
        destruct (vget A i) as [row| | |]; try discriminate. cbn [bind] in Ex' |- *. rewrite Ex'. cbn [bind].
        destruct (set2_ok N M B1 j i x R1 Hj Hi) as (B2 & E2 & R2 & S2 & O2). exists B2. split; auto. split; auto. split.
        * intros i' j' Hi' Hj'. rewrite O2 by lia. auto.
        * intros j' Hj'. destruct (Z.eq_dec j' j) as [->|]; [congruence|]. rewrite O2 by lia. apply C2. lia.
      + exists B'. split; auto. split; auto. intros i' j Hi' Hj. destruct (Z.eq_dec i' i) as [->|]; auto. apply C1; auto. lia.
    - exists B. auto.
  Qed.
  Lemma nonempty N M (A : list (list T)) : rectangular N M A -> 0 < N -> exists a0, vget A 0 = Ok a0 /\ zlen a0 = M /\ (zlen A =? 0) = false /\ zlen A = N /\ 0 <= M.
  Proof. intros R H. destruct (rect_row N M A 0 R ltac:(lia)) as (a0 & E & L). exists a0. split; auto. split; auto. destruct R as [LA _]. split; [apply Z.eqb_neq; lia|]. split; auto. rewrite <- L. apply zlen_nonneg. Qed.
  Lemma transpose_ok N M (A : list (list T)) : rectangular N M A -> 0 < N ->
    exists B, transpose d A = Ok B /\ rectangular M N B /\ forall i j, 0 <= i < N -> 0 <= j < M -> cell B j i = cell A i j.
  Proof. intros R H. destruct (nonempty N M A R H) as (a0 & E & L & Z0 & LA & HM). unfold transpose. rewrite Z0, E. cbn [bind]. cbv zeta. rewrite L, LA. apply (fill_ok N M A (fun j => j)); auto; lia. Qed.
  Lemma rot90_ok N M (A : list (list T)) : rectangular N M A -> 0 < N ->
    exists B, rot90 d A = Ok B /\ rectangular M N B /\ forall i j, 0 <= i < N -> 0 <= j < M -> cell B (M - 1 - j) i = cell A i j.
  Proof.
    intros R H. destruct (nonempty N M A R H) as (a0 & E & L & Z0 & LA & HM). unfold rot90. rewrite Z0, E. cbn [bind]. cbv zeta. rewrite L, LA.
    destruct (fill_ok N M A (fun j => M - j - 1)) as (B & EB & RB & CB); auto; try lia. exists B. split; auto. split; auto. intros i j Hi Hj. rewrite CB by lia. f_equal. lia.
  Qed.
  Lemma cells_eq N M (A B : list (list T)) : rectangular N M A -> rectangular N M B -> (forall i j, 0 <= i < N -> 0 <= j < M -> cell A i j = cell B i j) -> A = B.
  Proof.
    intros RA RB H. pose proof (proj1 RA) as LA. pose proof (proj1 RB) as LB. apply vget_ext; [lia|]. intros i Hi.
    destruct (rect_row N M A i RA ltac:(lia)) as (a & Ea & La). destruct (rect_row N M B i RB ltac:(lia)) as (b & Eb & Lb). rewrite Ea, Eb. f_equal.
    apply vget_ext; [lia|]. intros j Hj. specialize (H i j ltac:(lia) ltac:(lia)). unfold cell in H. rewrite Ea, Eb in H. exact H.
  Qed.
  Lemma transpose2 N M (A : list (list T)) : rectangular N M A -> 0 < N -> 0 < M -> (let* B := transpose d A in transpose d B) = Ok A.
  Proof.
    intros R HN HM. destruct (transpose_ok N M A R HN) as (B & E & RB & CB). rewrite E. cbn [bind]. destruct (transpose_ok M N B RB HM) as (C & E' & RC & CC). rewrite E'. f_equal.
    apply (cells_eq N M); auto. intros i j Hi Hj. rewrite CC by lia. auto.
  Qed.
  Lemma rot4 N M (A : list (list T)) : rectangular N M A -> 0 < N -> 0 < M ->
    (let* B := rot90 d A in let* C := rot90 d B in let* D := rot90 d C in rot90 d D) = Ok A.
  Proof.
    intros R HN HM. destruct (rot90_ok N M A R HN) as (B & E & RB & CB). rewrite E. cbn [bind]. destruct (rot90_ok M N B RB HM) as (C & E1 & RC & CC). rewrite E1. cbn [bind].
    destruct (rot90_ok N M C RC HN) as (D & E2 & RD & CD). rewrite E2. cbn [bind]. destruct (rot90_ok M N D RD HM) as (F & E3 & RF & CF). rewrite E3. f_equal.
    apply (cells_eq N M); auto. intros i j Hi Hj. rewrite <- CB, <- CC, <- CD, <- CF by lia. f_equal; lia.
  Qed.
End P.
