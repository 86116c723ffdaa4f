(* Facts about the vocabulary of Base.v; no model and no property here. *)
From Verif Require Export Base.
From Coq Require Import Permutation.

Ltac ok_inv H := repeat match type of H with
  | Ok _ = Ok _ => injection H as H; subst
  end.

Lemma bind_Ok {A B} (m : res A) (f : A -> res B) b :
  bind m f = Ok b -> exists a, m = Ok a /\ f a = Ok b.
Proof. destruct m; simpl; intro H; try discriminate; eauto. Qed.

(* ---- zlen ---- *)
Lemma zlen_nonneg {A} (v : list A) : 0 <= zlen v.
Proof. unfold zlen; lia. Qed.
Lemma zlen_nil {A} : zlen (@nil A) = 0. Proof. reflexivity. Qed.
Lemma zlen_cons {A} (a : A) v : zlen (a :: v) = zlen v + 1.
Proof. unfold zlen; simpl length; lia. Qed.
Lemma zlen_app {A} (v w : list A) : zlen (v ++ w) = zlen v + zlen w.
Proof. unfold zlen; rewrite app_length; lia. Qed.
Lemma zlen_map {A B} (f : A -> B) v : zlen (map f v) = zlen v.
Proof. unfold zlen; now rewrite map_length. Qed.
Lemma zlen_vrep {A} n (a : A) : 0 <= n -> zlen (vrep n a) = n.
Proof. unfold zlen, vrep; rewrite repeat_length; lia. Qed.
Lemma zlen_rev {A} (v : list A) : zlen (rev v) = zlen v.
Proof. unfold zlen; now rewrite rev_length. Qed.
Lemma upd_length {A} (v : list A) n a : length (upd v n a) = length v.
Proof. revert n; induction v as [|x v IH]; intros [|n]; simpl; auto. Qed.
Lemma zlen_zupd {A} (v : list A) i a : zlen (zupd v i a) = zlen v.
Proof. unfold zlen, zupd; now rewrite upd_length. Qed.
Lemma zlen_0_nil {A} (v : list A) : zlen v = 0 -> v = [].
Proof. destruct v; auto; rewrite zlen_cons; pose proof (zlen_nonneg v); lia. Qed.

(* ---- upd ---- *)
Lemma nth_error_upd_same {A} (v : list A) n a :
  (n < length v)%nat -> nth_error (upd v n a) n = Some a.
Proof. revert n; induction v as [|x v IH]; intros [|n] H; simpl in *; auto; try lia; apply IH; lia. Qed.
Lemma nth_error_upd_diff {A} (v : list A) n m a :
  n <> m -> nth_error (upd v n a) m = nth_error v m.
Proof. revert n m; induction v as [|x v IH]; intros [|n] [|m] H; simpl in *; auto; try lia; apply IH; lia. Qed.
Lemma upd_split {A} (v : list A) n x a :
  nth_error v n = Some x -> exists l r, v = l ++ x :: r /\ length l = n /\ upd v n a = l ++ a :: r.
Proof.
  revert n; induction v as [|y v IH]; intros [|n] H; simpl in *; try discriminate.
  - injection H as ->. exists [], v; auto.
  - destruct (IH _ H) as (l & r & -> & L & U). exists (y :: l), r; simpl; rewrite U, L; auto.
Qed.
Lemma upd_upd_same {A} (v : list A) n a b : upd (upd v n a) n b = upd v n b.
Proof. revert n; induction v as [|x v IH]; intros [|n]; simpl; auto. now rewrite IH. Qed.
Lemma upd_id {A} (v : list A) n a : nth_error v n = Some a -> upd v n a = v.
Proof. revert n; induction v as [|x v IH]; intros [|n] H; simpl in *; try congruence. now rewrite IH. Qed.
Lemma upd_comm {A} (v : list A) n m a b : n <> m -> upd (upd v n a) m b = upd (upd v m b) n a.
Proof. revert n m; induction v as [|x v IH]; intros [|n] [|m] H; simpl; auto; try lia. now rewrite IH by lia. Qed.

(* ---- vget / vset ---- *)
Lemma vget_Ok {A} (v : list A) i : 0 <= i < zlen v -> exists a, vget v i = Ok a.
Proof.
  unfold vget, zlen; intros H. destruct (i <? 0) eqn:E; [lia|].
  destruct (nth_error v (Z.to_nat i)) eqn:F; eauto.
  apply nth_error_None in F; lia.
Qed.
Lemma vget_range {A} (v : list A) i a : vget v i = Ok a -> 0 <= i < zlen v.
Proof.
  unfold vget, zlen; intros H. destruct (i <? 0) eqn:E; [discriminate|].
  destruct (nth_error v (Z.to_nat i)) eqn:F; [|discriminate].
  assert (nth_error v (Z.to_nat i) <> None) as G by congruence.
  apply nth_error_Some in G; lia.
Qed.
Lemma vget_nth {A} (d : A) (v : list A) i : 0 <= i < zlen v -> vget v i = Ok (nth (Z.to_nat i) v d).
Proof.
  unfold vget, zlen; intros H. destruct (i <? 0) eqn:E; [lia|].
  rewrite (nth_error_nth' v d) by lia. reflexivity.
Qed.
Lemma vget_nth_error {A} (v : list A) i a : vget v i = Ok a -> nth_error v (Z.to_nat i) = Some a.
Proof.
  unfold vget; destruct (i <? 0); [discriminate|].
  destruct (nth_error v (Z.to_nat i)); congruence.
Qed.
Lemma vget_of_nat {A} (v : list A) n a : nth_error v n = Some a -> vget v (Z.of_nat n) = Ok a.
Proof.
  unfold vget; intros H. destruct (Z.of_nat n <? 0) eqn:E; [lia|].
  rewrite Nat2Z.id, H; auto.
Qed.
Lemma vget_In {A} (v : list A) i a : vget v i = Ok a -> In a v.
Proof. intro H; apply vget_nth_error in H; eapply nth_error_In; eauto. Qed.
Lemma In_vget {A} (v : list A) a : In a v -> exists i, 0 <= i < zlen v /\ vget v i = Ok a.
Proof.
  intros H. apply In_nth_error in H. destruct H as [n Hn].
  exists (Z.of_nat n). pose proof (vget_of_nat _ _ _ Hn) as G. split; auto. eapply vget_range; eauto.
Qed.
Lemma vset_ok {A} (v : list A) i a : 0 <= i < zlen v -> vset v i a = Ok (zupd v i a).
Proof. unfold vset; intros H. destruct ((0 <=? i) && (i <? zlen v)) eqn:E; auto; lia. Qed.
Lemma vset_inv {A} (v w : list A) i a : vset v i a = Ok w -> 0 <= i < zlen v /\ w = zupd v i a.
Proof. unfold vset. destruct ((0 <=? i) && (i <? zlen v)) eqn:E; intro H; [injection H as <-; split; auto; lia|discriminate]. Qed.
Lemma vget_zupd_same {A} (v : list A) i a : 0 <= i < zlen v -> vget (zupd v i a) i = Ok a.
Proof.
  unfold vget, zupd, zlen; intros H. destruct (i <? 0) eqn:E; [lia|].
  rewrite nth_error_upd_same by lia; auto.
Qed.
Lemma vget_zupd_diff {A} (v : list A) i j a : 0 <= i -> i <> j -> vget (zupd v i a) j = vget v j.
Proof.
  unfold vget, zupd; intros H N. destruct (j <? 0) eqn:E; [auto|].
  rewrite nth_error_upd_diff by lia; auto.
Qed.
Lemma vget_zupd {A} (v : list A) i j a : 0 <= i < zlen v ->
  vget (zupd v i a) j = if i =? j then Ok a else vget v j.
Proof.
  intros H. destruct (i =? j) eqn:E.
  - assert (i = j) by lia; subst; apply vget_zupd_same; auto.
  - apply vget_zupd_diff; lia.
Qed.
Lemma zupd_id {A} (v : list A) i a : vget v i = Ok a -> zupd v i a = v.
Proof. intro H; apply vget_nth_error in H; now apply upd_id. Qed.
Lemma zupd_zupd_same {A} (v : list A) i a b : zupd (zupd v i a) i b = zupd v i b.
Proof. apply upd_upd_same. Qed.
Lemma vget_vrep {A} n (a : A) i : 0 <= i < n -> vget (vrep n a) i = Ok a.
Proof.
  intros H. unfold vrep. rewrite (vget_nth a).
  - now rewrite nth_repeat.
  - unfold zlen; rewrite repeat_length; lia.
Qed.
Lemma vget_app1 {A} (v w : list A) i : i < zlen v -> vget (v ++ w) i = vget v i.
Proof.
  unfold vget, zlen; intros H. destruct (i <? 0) eqn:E; auto.
  rewrite nth_error_app1 by lia; auto.
Qed.
Lemma vget_app2 {A} (v w : list A) i : zlen v <= i -> vget (v ++ w) i = vget w (i - zlen v).
Proof.
  unfold vget, zlen; intros H. destruct (i <? 0) eqn:E; [lia|].
  destruct (i - Z.of_nat (length v) <? 0) eqn:F; [lia|].
  rewrite nth_error_app2 by lia. f_equal. replace (Z.to_nat i - length v)%nat with (Z.to_nat (i - Z.of_nat (length v))) by lia. auto.
Qed.
Lemma vget_map {A B} (f : A -> B) v i : vget (map f v) i = let* a := vget v i in Ok (f a).
Proof.
  unfold vget. destruct (i <? 0); auto. rewrite nth_error_map. destruct (nth_error v (Z.to_nat i)); auto.
Qed.
Lemma vget_cons0 {A} (a : A) v : vget (a :: v) 0 = Ok a.
Proof. reflexivity. Qed.
Lemma vget_consS {A} (a : A) v i : 0 < i -> vget (a :: v) i = vget v (i - 1).
Proof.
  intros H. change (a :: v) with ([a] ++ v). rewrite vget_app2 by (unfold zlen; simpl; lia). reflexivity.
Qed.
Lemma nth_error_ext' {A} (v w : list A) : (forall n, nth_error v n = nth_error w n) -> v = w.
Proof.
  revert w; induction v as [|x v IH]; intros [|y w] H; auto.
  - specialize (H O); discriminate.
  - specialize (H O); discriminate.
  - pose proof (H O) as H0; injection H0 as ->. f_equal. apply IH. intro n. exact (H (S n)).
Qed.
Lemma vget_ext {A} (v w : list A) :
  zlen v = zlen w -> (forall i, 0 <= i < zlen v -> vget v i = vget w i) -> v = w.
Proof.
  intros L H. apply nth_error_ext'. intro n.
  destruct (Nat.lt_ge_cases n (length v)) as [Hn|Hn].
  - specialize (H (Z.of_nat n)). unfold zlen in *. specialize (H ltac:(lia)).
    unfold vget in H. destruct (Z.of_nat n <? 0) eqn:E; [lia|]. rewrite Nat2Z.id in H.
    destruct (nth_error v n) eqn:F, (nth_error w n) eqn:G; congruence.
  - unfold zlen in L. rewrite (proj2 (nth_error_None v n)), (proj2 (nth_error_None w n)) by lia. auto.
Qed.

(* ---- loops ---- *)
Lemma for_up_inv {S} (P : Z -> S -> Prop) body k lo s :
  P lo s ->
  (forall i s, lo <= i < lo + Z.of_nat k -> P i s -> exists s', body i s = Ok s' /\ P (i + 1) s') ->
  exists s', for_up k lo body s = Ok s' /\ P (lo + Z.of_nat k) s'.
Proof.
  revert lo s; induction k as [|k IH]; intros lo s H0 H; cbn [for_up].
  - exists s; split; auto. now replace (lo + Z.of_nat 0) with lo by lia.
  - destruct (H lo s ltac:(lia) H0) as (s' & E & H1). rewrite E; cbn [bind].
    destruct (IH (lo + 1) s' H1) as (s'' & E' & H2).
    + intros i t Hi; apply H; lia.
    + exists s''; split; auto. now replace (lo + Z.of_nat (Datatypes.S k)) with (lo + 1 + Z.of_nat k) by lia.
Qed.
Lemma for_inv {S} (P : Z -> S -> Prop) lo hi body s :
  lo <= hi -> P lo s ->
  (forall i s, lo <= i < hi -> P i s -> exists s', body i s = Ok s' /\ P (i + 1) s') ->
  exists s', for_ lo hi body s = Ok s' /\ P hi s'.
Proof.
  intros L H0 H. unfold for_.
  destruct (for_up_inv P body (Z.to_nat (hi - lo)) lo s H0) as (s' & E & H1).
  - intros i t Hi; apply H; lia.
  - exists s'; split; auto. now replace (lo + Z.of_nat (Z.to_nat (hi - lo))) with hi in H1 by lia.
Qed.
Lemma for_empty {S} lo hi (body : Z -> S -> res S) s : hi <= lo -> for_ lo hi body s = Ok s.
Proof. intro H. unfold for_. replace (Z.to_nat (hi - lo)) with O by lia. auto. Qed.
Lemma for_dn_inv {S} (P : Z -> S -> Prop) body k hi s :
  P hi s ->
  (forall i s, hi - Z.of_nat k < i <= hi -> P i s -> exists s', body i s = Ok s' /\ P (i - 1) s') ->
  exists s', for_dn k hi body s = Ok s' /\ P (hi - Z.of_nat k) s'.
Proof.
  revert hi s; induction k as [|k IH]; intros hi s H0 H; cbn [for_dn].
  - exists s; split; auto. now replace (hi - Z.of_nat 0) with hi by lia.
  - destruct (H hi s ltac:(lia) H0) as (s' & E & H1). rewrite E; cbn [bind].
    destruct (IH (hi - 1) s' H1) as (s'' & E' & H2).
    + intros i t Hi; apply H; lia.
    + exists s''; split; auto. now replace (hi - Z.of_nat (Datatypes.S k)) with (hi - 1 - Z.of_nat k) by lia.
Qed.
Lemma ford_inv {S} (P : Z -> S -> Prop) hi lo body s :
  lo <= hi -> P hi s ->
  (forall i s, lo < i <= hi -> P i s -> exists s', body i s = Ok s' /\ P (i - 1) s') ->
  exists s', ford_ hi lo body s = Ok s' /\ P lo s'.
Proof.
  intros L H0 H. unfold ford_.
  destruct (for_dn_inv P body (Z.to_nat (hi - lo)) hi s H0) as (s' & E & H1).
  - intros i t Hi; apply H; lia.
  - exists s'; split; auto. now replace (hi - Z.of_nat (Z.to_nat (hi - lo))) with lo in H1 by lia.
Qed.
Lemma for_each_inv {X S} (P : list X -> S -> Prop) (l : list X) body s :
  P [] s ->
  (forall done x todo s, l = done ++ x :: todo -> P done s -> exists s', body x s = Ok s' /\ P (done ++ [x]) s') ->
  exists s', for_each l body s = Ok s' /\ P l s'.
Proof.
  intros H0 H.
  assert (G : forall todo done s, l = done ++ todo -> P done s ->
     exists s', for_each todo body s = Ok s' /\ P l s').
  { induction todo as [|x todo IH]; intros done t E Pd; cbn [for_each].
    - rewrite app_nil_r in E; subst; eauto.
    - destruct (H done x todo t E Pd) as (t' & Et & Pt). rewrite Et; cbn [bind].
      apply (IH (done ++ [x])); auto. rewrite <- app_assoc; auto. }
  apply (G l [] s); auto.
Qed.
Lemma for_each_app {X S} (l1 l2 : list X) (body : X -> S -> res S) s :
  for_each (l1 ++ l2) body s = let* s' := for_each l1 body s in for_each l2 body s'.
Proof.
  revert s; induction l1 as [|x l1 IH]; intro s; cbn [for_each app]; auto.
  destruct (body x s) as [s'| | |]; cbn [bind]; auto.
Qed.
Lemma loop_inv {S R} (P : S -> Prop) (m : S -> nat) (Q : R -> Prop) body fuel s :
  P s -> (m s < fuel)%nat ->
  (forall s, P s -> exists x, body s = Ok x /\
     match x with inl s' => P s' /\ (m s' < m s)%nat | inr r => Q r end) ->
  exists r, loop fuel body s = Ok r /\ Q r.
Proof.
  revert s; induction fuel as [|k IH]; intros s H0 M H; [lia|]. cbn [loop].
  destruct (H s H0) as ([s'|r] & E & G); rewrite E; cbn [bind].
  - destruct G as [G1 G2]. apply IH; auto. lia.
  - eauto.
Qed.

(* ---- zrange ---- *)
Lemma In_zrange n x : In x (zrange n) <-> 0 <= x < n.
Proof.
  unfold zrange. rewrite in_map_iff. split.
  - intros (k & <- & H). apply in_seq in H. lia.
  - intros H. exists (Z.to_nat x). split; [lia|]. apply in_seq. lia.
Qed.
Lemma NoDup_zrange n : NoDup (zrange n).
Proof.
  unfold zrange. apply FinFun.Injective_map_NoDup.
  - intros a b; lia.
  - apply seq_NoDup.
Qed.
Lemma zlen_zrange n : 0 <= n -> zlen (zrange n) = n.
Proof. intro H. unfold zrange. rewrite zlen_map. unfold zlen. rewrite seq_length. lia. Qed.
Lemma vget_zrange n i : 0 <= i < n -> vget (zrange n) i = Ok i.
Proof.
  intros H. unfold zrange. rewrite vget_map, (vget_nth O) by (unfold zlen; rewrite seq_length; lia).
  cbn [bind]. rewrite seq_nth by lia. f_equal. lia.
Qed.
Lemma zrange_S n : 0 <= n -> zrange (n + 1) = zrange n ++ [n].
Proof.
  intros H. unfold zrange. replace (Z.to_nat (n + 1)) with (Z.to_nat n + 1)%nat by lia.
  rewrite seq_app, map_app. simpl. f_equal. f_equal. lia.
Qed.
Lemma NoDup_range_length (l : list Z) n :
  NoDup l -> (forall x, In x l -> 0 <= x < n) -> zlen l <= Z.max 0 n.
Proof.
  intros ND H. unfold zlen.
  assert (length l <= length (zrange n))%nat.
  { apply NoDup_incl_length; auto. intros x Hx. apply In_zrange; auto. }
  unfold zrange in H0. rewrite map_length, seq_length in H0. lia.
Qed.
