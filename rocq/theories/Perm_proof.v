(* Permutation *)
From Verif Require Import Base BaseLemmas ListZ ListMore BFS_proof Perm_spec Perm_model.
From Coq Require Import Permutation Factorial.

Lemma for_up_snoc {S} (body : Z -> S -> res S) k : forall i s, for_up (k + 1) i body s = let* s' := for_up k i body s in body (i + Z.of_nat k) s'.
Proof.
  induction k as [|k IH]; intros i s; cbn [Nat.add for_up].
  - cbn [bind]. rewrite Z.add_0_r. destruct (body i s); reflexivity.
  - destruct (body i s) as [s'| | |]; cbn [bind]; auto. rewrite IH. replace (i + 1 + Z.of_nat k) with (i + Z.of_nat (Datatypes.S k)) by lia. reflexivity.
Qed.

(* p and q are inverse permutations of 0 .. n-1, on their first n elements *)
Definition pq (n : Z) (p q : list Z) : Prop :=
  forall j, 0 <= j < n -> 0 <= dv p j < n /\ dv q (dv p j) = j /\ 0 <= dv q j < n /\ dv p (dv q j) = j.
Definition inj (p : list Z) : Prop := (forall i, 0 <= i < zlen p -> 0 <= dv p i < zlen p) /\ forall i j, 0 <= i < zlen p -> 0 <= j < zlen p -> dv p i = dv p j -> i = j.
Lemma NoDup_dv (l : list Z) : NoDup l <-> forall i j, 0 <= i < zlen l -> 0 <= j < zlen l -> dv l i = dv l j -> i = j.
Proof.
  rewrite (NoDup_nth l (-1)). unfold dv, zlen. split; intros H.
  - intros i j Hi Hj E. apply H in E; lia.
  - intros i j Hi Hj E. specialize (H (Z.of_nat i) (Z.of_nat j)). rewrite !Nat2Z.id in H. specialize (H ltac:(lia) ltac:(lia) E). lia.
Qed.
Lemma In_dv (l : list Z) x : In x l <-> exists i, 0 <= i < zlen l /\ dv l i = x.
Proof.
  split.
  - intros H. apply In_vget in H as (i & R & E). exists i. split; auto. rewrite vget_dv in E by auto. congruence.
  - intros (i & Hi & <-). eapply vget_In. apply vget_dv; eauto.
Qed.
Lemma perm_inj p : is_perm p <-> inj p.
Proof.
  unfold is_perm, inj. split.
  - intros P. split.
    + intros i Hi. apply In_zrange. eapply Permutation_in; [exact P|]. apply In_dv. eauto.
    + apply NoDup_dv. eapply Permutation_NoDup; [apply Permutation_sym; exact P|apply NoDup_zrange].
  - intros (R & I). apply NoDup_dv in I. apply NoDup_Permutation_bis; auto.
    + unfold zrange. rewrite map_length, seq_length. unfold zlen. lia.
    + intros x Hx. apply In_dv in Hx as (i & Hi & <-). apply In_zrange. auto.
Qed.
Lemma perm_surj p y : is_perm p -> 0 <= y < zlen p -> exists i, 0 <= i < zlen p /\ dv p i = y.
Proof. intros P Hy. apply In_dv. eapply Permutation_in; [apply Permutation_sym; exact P|]. now apply In_zrange. Qed.
Lemma pq_perm n p q : zlen p = n -> pq n p q -> is_perm p.
Proof.
  intros Zp H. subst n. apply perm_inj. split; [intros i Hi; now apply H|]. intros i j Hi Hj E. destruct (H i Hi) as (_ & A & _). destruct (H j Hj) as (_ & B & _). congruence.
Qed.
Lemma pq_perm2 n p q : zlen q = n -> pq n p q -> is_perm q.
Proof.
  intros Zp H. subst n. apply perm_inj. split; [intros i Hi; now apply H|]. intros i j Hi Hj E. destruct (H i Hi) as (_ & _ & _ & A). destruct (H j Hj) as (_ & _ & _ & B). congruence.
Qed.

(* permute, inv_permute *)
Lemma permute_ok {A} (d : A) p a : is_perm p -> zlen a = zlen p ->
  exists b, perm_permute d p a = Ok b /\ zlen b = zlen p /\ forall i, 0 <= i < zlen p -> vget b i = (let* j := vget p i in vget a j).
Proof.
  intros P Za. apply perm_inj in P as (R & _). unfold perm_permute. rewrite Za. pose proof (zlen_nonneg p) as N0.
  destruct (for_inv (fun i r => zlen r = zlen p /\ forall j, 0 <= j < i -> vget r j = (let* j := vget p j in vget a j)) 0 (zlen p) (fun i r => let* j := vget p i in let* x := vget a j in vset r i x) (vrep (zlen p) d)) as (b & E & Zb & Hb); [auto|split; [now apply zlen_vrep|lia]| |exists b; auto].
  intros i r Hi (Zr & Hr). rewrite vget_dv by auto. cbn [bind]. destruct (vget_Ok a (dv p i)) as (x & Ex); [rewrite Za; auto|]. rewrite Ex. cbn [bind]. rewrite vset_ok by lia. eexists. split; [reflexivity|]. split; [now rewrite zlen_zupd|].
  intros j Hj. rewrite vget_zupd by lia. destruct (Z.eqb_spec i j) as [<-|]; [|apply Hr; lia]. rewrite vget_dv by auto. cbn [bind]. auto.
Qed.
Lemma inv_permute_ok {A} (d : A) p a : is_perm p -> zlen a = zlen p ->
  exists b, perm_inv_permute d p a = Ok b /\ zlen b = zlen p /\ forall i, 0 <= i < zlen p -> (let* j := vget p i in vget b j) = vget a i.
Proof.
  intros P Za. apply perm_inj in P as (R & I). unfold perm_inv_permute. rewrite Za. pose proof (zlen_nonneg p) as N0.
  destruct (for_inv (fun i r => zlen r = zlen p /\ forall j, 0 <= j < i -> (let* j := vget p j in vget r j) = vget a j) 0 (zlen p) (fun i r => let* j := vget p i in let* x := vget a i in vset r j x) (vrep (zlen p) d)) as (b & E & Zb & Hb); [auto|split; [now apply zlen_vrep|lia]| |exists b; auto].
  intros i r Hi (Zr & Hr). rewrite vget_dv by auto. cbn [bind]. destruct (vget_Ok a i) as (x & Ex); [lia|]. rewrite Ex. cbn [bind]. pose proof (R i Hi) as Ri. rewrite vset_ok by lia. eexists. split; [reflexivity|]. split; [now rewrite zlen_zupd|].
  intros j Hj. rewrite vget_dv by lia. cbn [bind]. pose proof (R j ltac:(lia)). rewrite vget_zupd by lia. destruct (Z.eqb_spec (dv p i) (dv p j)) as [E|N].
  - apply I in E; [|lia|lia]. subst j. congruence.
  - assert (i <> j) by congruence. specialize (Hr j ltac:(lia)). rewrite vget_dv in Hr by lia. cbn [bind] in Hr. exact Hr.
Qed.
Lemma inv_pq p : is_perm p -> exists q, perm_inv p = Ok q /\ zlen q = zlen p /\ pq (zlen p) p q.
Proof.
  intros P. pose proof P as P0. apply perm_inj in P as (R & I). unfold perm_inv, perm_id. pose proof (zlen_nonneg p) as N0.
  destruct (for_inv (fun i r => zlen r = zlen p /\ forall j, 0 <= j < i -> dv r (dv p j) = j) 0 (zlen p) (fun i r => let* j := vget p i in vset r j i) (zrange (zlen p))) as (q & E & Zq & Hq); [auto|split; [now apply zlen_zrange|lia]| |].
  - intros i r Hi (Zr & Hr). rewrite vget_dv by auto. cbn [bind]. pose proof (R i Hi). rewrite vset_ok by lia. eexists. split; [reflexivity|]. split; [now rewrite zlen_zupd|]. intros j Hj. pose proof (R j ltac:(lia)). rewrite dv_zupd by lia.
    destruct (Z.eqb_spec (dv p i) (dv p j)) as [E|N]; [apply I in E; lia|]. apply Hr. assert (i <> j) by congruence. lia.
  - exists q. split; auto. split; auto. intros j Hj. split; auto. split; auto. destruct (perm_surj p j P0 Hj) as (i & Hi & <-). rewrite Hq by auto. auto.
Qed.

(* k steps *)
Definition it (p : list Z) (k : nat) (i : Z) : Z := Nat.iter k (dv p) i.
Lemma it_S p k i : it p (S k) i = dv p (it p k i). Proof. reflexivity. Qed.
Lemma it_add p a b i : it p (a + b) i = it p a (it p b i).
Proof. induction a as [|a IH]; auto. cbn [Nat.add]. now rewrite !it_S, IH. Qed.
Lemma it_range p k i : inj p -> 0 <= i < zlen p -> 0 <= it p k i < zlen p.
Proof. intros (R & _) Hi. induction k as [|k IH]; auto. rewrite it_S. auto. Qed.
Lemma jump_it p k : inj p -> forall i, 0 <= i < zlen p -> jump p k i = Ok (it p k i).
Proof.
  intros I. induction k as [|k IH]; intros i Hi; cbn [jump]; auto. rewrite vget_dv by auto. cbn [bind]. rewrite IH by (apply I; auto). f_equal.
  replace (S k) with (k + 1)%nat by lia. rewrite it_add. reflexivity.
Qed.
Lemma cycle_ok p s : inj p -> 0 <= s < zlen p -> exists c, perm_cycle p s = Ok c /\ 1 <= zlen c /\ zlen c <= zlen p /\ (forall j, 0 <= j < zlen c -> vget c j = Ok (it p (Z.to_nat j) s)) /\ it p (Z.to_nat (zlen c)) s = s.
Proof.
  intros I Hs. unfold perm_cycle. rewrite vget_dv by auto. cbn [bind].
  pose (C := fun st : Z * list Z => 1 <= zlen (snd st) /\ fst st = it p (length (snd st)) s /\ NoDup (snd st) /\ (forall x, In x (snd st) -> 0 <= x < zlen p) /\ forall j, 0 <= j < zlen (snd st) -> vget (snd st) j = Ok (it p (Z.to_nat j) s)).
  destruct (loop_inv C (fun st => length p - length (snd st))%nat (fun c => 1 <= zlen c /\ zlen c <= zlen p /\ (forall j, 0 <= j < zlen c -> vget c j = Ok (it p (Z.to_nat j) s)) /\ it p (Z.to_nat (zlen c)) s = s)
    (fun st => let '(v, cycle) := st in if v =? s then Ok (inr cycle) else let* w := vget p v in Ok (inl (w, cycle ++ [v]))) (length p + 1) (dv p s, [s])) as (c & E & H); [| | |eauto].
  - unfold C. cbn [fst snd]. rewrite zlen_one. split; [lia|]. split; [reflexivity|]. split; [constructor; [intros []|constructor]|]. split; [intros x [<-|[]]; auto|]. intros j Hj. replace j with 0 by lia. reflexivity.
  - cbn [snd length]. lia.
  - intros (v, c) (L & Ev & Nd & Rg & Hc). cbn [fst snd] in *. pose proof (NoDup_range_length _ _ Nd Rg) as Len. pose proof (zlen_nonneg p). destruct (Z.eqb_spec v s) as [->|Nv].
    + eexists. split; [reflexivity|]. cbv beta iota. unfold zlen in *. rewrite Nat2Z.id. repeat split; auto; lia.
    + pose proof (it_range p (length c) s I Hs) as Rv. rewrite <- Ev in Rv. rewrite vget_dv by auto. cbn [bind]. eexists. split; [reflexivity|]. cbv beta iota. cbn [fst snd].
      assert (Nin : ~ In v c).
      { intros A. apply In_vget in A as (j & Rj & Ej). rewrite Hc in Ej by auto. assert (Ej' : it p (Z.to_nat j) s = v) by congruence. destruct (Z.eq_dec j 0) as [->|Nj]; [now apply Nv|].
        destruct (length c) as [|m] eqn:Lc; [unfold zlen in L; lia|]. replace (Z.to_nat j) with (S (Z.to_nat (j - 1))) in Ej' by lia. rewrite Ev, !it_S in Ej'. apply I in Ej'; try (now apply it_range).
        assert (Em : vget c (Z.of_nat m) = vget c (j - 1)) by (rewrite !Hc by (unfold zlen in *; lia); rewrite Nat2Z.id; congruence).
        rewrite !vget_dv in Em by (unfold zlen in *; lia). assert (Em' : dv c (Z.of_nat m) = dv c (j - 1)) by congruence. apply (proj1 (NoDup_dv c) Nd) in Em'; unfold zlen in *; lia. }
      assert (ND' : NoDup (c ++ [v])) by (now apply NoDup_app_snoc). assert (Rg' : forall x, In x (c ++ [v]) -> 0 <= x < zlen p) by (intros x Hx; apply in_app_iff in Hx as [Hx|[<-|[]]]; auto).
      pose proof (NoDup_range_length _ _ ND' Rg') as Len'. rewrite app_length in *. cbn [length] in *. split; [|unfold zlen in *; rewrite ?app_length in *; cbn [length] in *; lia].
      unfold C. cbn [fst snd]. split; [rewrite zlen_app, zlen_one; lia|]. split; [cbn [snd]; rewrite app_length; cbn [length fst]; rewrite Nat.add_1_r, it_S, <- Ev; reflexivity|]. cbn [snd]. split; auto. split; auto.
      intros j Hj. rewrite zlen_app, zlen_one in Hj. destruct (Z.eq_dec j (zlen c)) as [->|]; [rewrite vget_mid by auto; rewrite Ev; unfold zlen; now rewrite Nat2Z.id|]. rewrite vget_app1 by lia. apply Hc. lia.
Qed.
Lemma it_period p l s : it p l s = s -> forall k, it p (k * l) s = s.
Proof. intros H. induction k as [|k IH]; auto. cbn [Nat.mul]. now rewrite it_add, IH. Qed.
Lemma it_mod p l s k : (0 < l)%nat -> it p l s = s -> it p k s = it p (k mod l) s.
Proof. intros L H. rewrite (Nat.div_mod k l) at 1 by lia. rewrite Nat.add_comm, Nat.mul_comm, it_add, it_period; auto. Qed.
Lemma pow_ok p k : is_perm p -> 0 <= k -> k + zlen p <= 2 ^ 63 ->
  exists r, perm_pow p k = Ok r /\ zlen r = zlen p /\ forall i, 0 <= i < zlen p -> vget r i = jump p (Z.to_nat k) i.
Proof.
  intros P Hk Hov. apply perm_inj in P as I. pose proof (zlen_nonneg p) as N0. unfold perm_pow. rewrite (proj2 (Z.leb_le 0 k)) by auto. cbn [assert_ bind].
  match goal with |- exists r, (let* (_, _) := for_ 0 ?n ?b ?s0 in _) = _ /\ _ =>
    destruct (for_inv (fun i st => zlen (fst st) = zlen p /\ zlen (snd st) = zlen p /\ (forall j, 0 <= j < i -> vget (fst st) j = Ok true) /\ forall j, 0 <= j < zlen p -> vget (fst st) j = Ok true -> vget (snd st) j = Ok (it p (Z.to_nat k) j)) 0 n b s0) as ((seen & r) & E & Zs & Zr & Hs & Hr) end.
  - auto.
  - cbn [fst snd]. unfold perm_id. rewrite zlen_vrep, zlen_zrange by auto. repeat split; try lia. intros j Hj. rewrite vget_vrep by auto. discriminate.
  - intros i (seen, r) Hi (Zs & Zr & Hs & Hr). cbn [fst snd] in *. destruct (vget_Ok seen i) as (b & Eb); [lia|]. rewrite Eb. cbn [bind]. destruct b.
    + eexists. split; [reflexivity|]. cbn [fst snd]. repeat split; auto. intros j Hj. destruct (Z.eq_dec j i) as [->|]; auto. apply Hs. lia.
    + destruct (cycle_ok p i I Hi) as (c & Ec & L1 & L2 & Hc & Per). rewrite Ec. cbn [bind]. cbv zeta.
      match goal with |- exists s', for_ 0 _ ?b _ = _ /\ _ =>
        destruct (for_inv (fun j st => zlen (fst st) = zlen p /\ zlen (snd st) = zlen p /\ (forall x, vget seen x = Ok true -> vget (fst st) x = Ok true) /\ (0 < j -> vget (fst st) i = Ok true) /\
          forall x, 0 <= x < zlen p -> vget (fst st) x = Ok true -> vget (snd st) x = Ok (it p (Z.to_nat k) x)) 0 (zlen c) b (seen, r)) as ((seen' & r') & E & Zs' & Zr' & Mn & Hi' & Hr') end.
      * lia.
      * cbn [fst snd]. repeat split; auto. lia.
      * intros j (sn, rr) Hj (Z1 & Z2 & H1 & H2 & H3). cbn [fst snd] in *. rewrite Hc by auto. cbn [bind]. pose proof (it_range p (Z.to_nat j) i I Hi) as Rj. rewrite vset_ok by lia. cbn [bind]. rewrite (proj2 (Z.ltb_lt (j + k) (2 ^ 63))) by lia. cbn [bind].
        pose proof (Z.mod_pos_bound (j + k) (zlen c) ltac:(lia)) as Mb. rewrite Hc by auto. cbn [bind]. rewrite vset_ok by lia. cbn [bind]. eexists. split; [reflexivity|]. cbn [fst snd]. rewrite !zlen_zupd. split; auto. split; auto. split; [|split].
        -- intros x Hx. pose proof (vget_range _ _ _ Hx). rewrite vget_zupd by lia. destruct (_ =? _); auto.
        -- intros _. rewrite vget_zupd by lia. destruct (Z.eqb_spec (it p (Z.to_nat j) i) i); auto. apply H2. destruct (Z.eq_dec j 0) as [->|]; [exfalso; auto|lia].
        -- intros x Hx Ex. rewrite vget_zupd in Ex by lia. rewrite vget_zupd by lia. destruct (Z.eqb_spec (it p (Z.to_nat j) i) x) as [<-|]; [|auto]. f_equal. rewrite <- it_add.
           assert (Lp : (0 < Z.to_nat (zlen c))%nat) by lia. rewrite (it_mod p (Z.to_nat (zlen c)) i (Z.to_nat k + Z.to_nat j)) by auto. f_equal. rewrite Z2Nat.inj_mod by lia. f_equal. lia.
      * rewrite E. eexists. split; [reflexivity|]. cbn [fst snd] in *. repeat split; auto. intros j Hj. destruct (Z.eq_dec j i) as [->|]; [apply Hi'; lia|]. apply Mn, Hs. lia.
  - rewrite E. cbn [bind]. cbn [fst snd] in *. exists r. split; auto. split; auto. intros i Hi. rewrite jump_it by auto. apply Hr; auto.
Qed.
