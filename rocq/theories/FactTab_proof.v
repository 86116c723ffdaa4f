(* Proofs about FactTab_model. *)
From Coq Require Import Znumtheory.
From Verif Require Import Base BaseLemmas ListZ NumTheory FactTab_model FactTab_spec Hist Heap_spec Heap_proof.

(* ---- arithmetic ---- *)
Lemma fact_pos n : 0 < fact n. Proof. induction n; cbn [fact]; nia. Qed.
Lemma bin_0 n : bin n 0 = 1. Proof. destruct n; auto. Qed.
Lemma bin_big n : forall r, (n < r)%nat -> bin n r = 0.
Proof. induction n as [|n IH]; intros [|r] H; cbn [bin]; try lia. rewrite !IH by lia. lia. Qed.
Lemma bin_fact n : forall r, (r <= n)%nat -> bin n r * fact r * fact (n - r) = fact n.
Proof.
  induction n as [|n IH]; intros r H; [destruct r; [reflexivity|lia]|]. destruct r as [|r].
  - cbn [bin fact Nat.sub]. lia.
  - cbn [bin]. destruct (Nat.eq_dec r n) as [->|Nq].
    + rewrite (bin_big n (S n)) by lia. pose proof (IH n ltac:(lia)) as E. rewrite Nat.sub_diag in *. cbn [fact] in *. nia.
    + pose proof (IH r ltac:(lia)) as E1. pose proof (IH (S r) ltac:(lia)) as E2.
      replace (S n - S r)%nat with (n - r)%nat by lia. replace (n - r)%nat with (S (n - S r)) in * by lia. set (k := (n - S r)%nat) in *.
      assert (Nk : Z.of_nat n = Z.of_nat k + Z.of_nat r + 1) by lia. clearbody k. cbn [fact] in *. rewrite !Nat2Z.inj_succ in *.
      set (A := bin n r) in *. set (B := bin n (S r)) in *. set (F := fact r) in *. set (G := fact k) in *. set (N := fact n) in *.
      replace ((A + B) * (Z.succ (Z.of_nat r) * F) * (Z.succ (Z.of_nat k) * G)) with
        (Z.succ (Z.of_nat r) * (A * F * (Z.succ (Z.of_nat k) * G)) + Z.succ (Z.of_nat k) * (B * (Z.succ (Z.of_nat r) * F) * G)) by ring.
      rewrite E1, E2. rewrite Nk. ring.
Qed.
Lemma falling_fact r : forall n, (r <= n)%nat -> falling (Z.of_nat n) r * fact (n - r) = fact n.
Proof.
  induction r as [|r IH]; intros n H; cbn [falling]; [rewrite Nat.sub_0_r; lia|]. destruct n as [|n]; [lia|].
  replace (Z.of_nat (S n) - 1) with (Z.of_nat n) by lia. replace (S n - S r)%nat with (n - r)%nat by lia. cbn [fact]. rewrite <- (IH n) by lia. ring.
Qed.

Section P.
  Variable p : Z.
  Hypothesis Hp : prime p.
  Lemma p1 : 1 < p. Proof. exact (prime_gt1 p Hp). Qed.
  Lemma cancel a b u x : a mod p = (b * u) mod p -> (x * u) mod p = 1 -> (a * x) mod p = b mod p.
  Proof.
    pose proof p1. intros Ha Hx. rewrite Z.mul_mod by lia. rewrite Ha, <- Z.mul_mod by lia. replace (b * u * x) with (b * (x * u)) by ring.
    rewrite Z.mul_mod by lia. rewrite Hx, Z.mul_1_r. apply Z.mod_mod. lia.
  Qed.
  Lemma fact_div n : (p | fact n) <-> p <= Z.of_nat n.
  Proof.
    pose proof p1. induction n as [|n IH].
    - cbn [fact]. split; [intro D; apply Z.divide_1_r_nonneg in D; lia|lia].
    - cbn [fact]. split.
      + intro D. apply prime_mult in D; auto. destruct D as [D|D]; [apply Z.divide_pos_le in D; lia|apply IH in D; lia].
      + intro L. destruct (Z.eq_dec p (Z.of_nat (S n))) as [<-|]; [apply Z.divide_factor_l|]. apply Z.divide_mul_r. apply IH. lia.
  Qed.
  Lemma mrec_ok x : 0 < x < p -> exists y, mrec p x = Ok y /\ 0 <= y < p /\ (y * x) mod p = 1.
  Proof.
    pose proof p1. intro Hx. unfold mrec. destruct (Z.eqb_spec x 0); [lia|]. cbn [negb assert_ bind]. eexists. split; [reflexivity|]. split; [apply Z.mod_pos_bound; lia|].
    rewrite Z.mul_mod_idemp_l by lia.
    replace (x ^ (p - 2) * x) with (x ^ (p - 1)). { apply fermat; auto. intro D. apply Z.divide_pos_le in D; lia. }
    replace (p - 1) with (Z.succ (p - 2)) by lia. rewrite Z.pow_succ_r by lia. ring.
  Qed.
  Definition isinv (j y : Z) : Prop := 0 <= y < p /\ (y * fact (Z.to_nat j)) mod p = 1.
  Definition facs (k : Z) (f : list Z) : Prop := forall j, 0 <= j < k -> vget f j = Ok (fact (Z.to_nat j) mod p).
  Definition tinv (t : ftab) (c : Z) : Prop :=
    zlen (fst t) = c /\ zlen (snd t) = c /\ 1 <= c <= p /\ facs c (fst t) /\ forall j, 0 <= j < c -> exists y, vget (snd t) j = Ok y /\ isinv j y.
  Lemma tinv_new : tinv (ft_new p) 1.
  Proof.
    pose proof p1. split; [auto|]. split; [auto|]. split; [lia|]. split.
    - intros j Hj. assert (j = 0) as -> by lia. reflexivity.
    - intros j Hj. assert (j = 0) as -> by lia. exists (1 mod p). split; [reflexivity|]. rewrite Z.mod_1_l by lia. split; [lia|]. cbn. rewrite Z.mod_1_l; lia.
  Qed.
  Lemma fact_pred i : 0 < i -> fact (Z.to_nat i) = i * fact (Z.to_nat (i - 1)).
  Proof. intro H. replace (Z.to_nat i) with (S (Z.to_nat (i - 1))) by lia. cbn [fact]. rewrite Nat2Z.inj_succ, Z2Nat.id by lia. replace (Z.succ (i - 1)) with i by lia. auto. Qed.
  Lemma ensure_ok t c n : tinv t c -> (grow c n <= p -> exists t', ft_ensure p n t = Ok t' /\ tinv t' (grow c n)) /\ (p < grow c n -> ft_ensure p n t = Abort).
  Proof.
    pose proof p1 as P1. destruct t as (f, g). intros (Lf & Lg & Hc & F & G). cbn [fst snd] in *. unfold ft_ensure. rewrite Lf, Lg. unfold grow.
    destruct (Z.ltb_spec n c) as [L|L]; destruct (Z.leb_spec (n + 1) c); try lia.
    { split; [|lia]. intros _. exists (f, g). split; [auto|]. split; [auto|]. split; [auto|]. auto. }
    set (new := Z.max (n + 1) (c * 2)). assert (Hnew : c < new) by lia. clearbody new.
    assert (Lr : zlen (vrep (new - c) 0) = new - c) by (apply zlen_vrep; lia).
    destruct (for_inv (fun i f => zlen f = new /\ facs i f) c new (ft_up p) (f ++ vrep (new - c) 0)) as (f' & -> & Lf' & F').
    { lia. }
    { split; [rewrite zlen_app; lia|]. intros j Hj. rewrite vget_app1 by lia. auto. }
    { intros i v Hi (Lv & Fv). unfold ft_up. rewrite Fv by lia. cbn [bind]. rewrite vset_ok by lia. eexists. split; [reflexivity|].
      split; [rewrite zlen_zupd; auto|]. intros j Hj. rewrite vget_zupd by lia. destruct (Z.eqb_spec i j) as [<-|]; [|apply Fv; lia].
      unfold mm. rewrite Z.mul_mod_idemp_l by lia. rewrite (fact_pred i) by lia. f_equal. f_equal. ring. }
    cbn [bind]. pose proof (F' (new - 1) ltac:(lia)) as EF. rewrite EF. cbn [bind]. split.
    - intro B. destruct (mrec_ok (fact (Z.to_nat (new - 1)) mod p)) as (y & -> & Ry & Ey).
      { pose proof (Z.mod_pos_bound (fact (Z.to_nat (new - 1))) p ltac:(lia)). destruct (Z.eq_dec (fact (Z.to_nat (new - 1)) mod p) 0) as [Q|]; [|lia].
        apply Zmod_divide in Q; [|lia]. apply fact_div in Q. lia. }
      cbn [bind]. rewrite vset_ok by (rewrite zlen_app; lia). cbn [bind].
      destruct (ford_inv (fun i g => zlen g = new /\ (forall j, i <= j < new -> exists y, vget g j = Ok y /\ isinv j y) /\ (forall j, 0 <= j < c -> exists y, vget g j = Ok y /\ isinv j y))
        (new - 1) c (ft_down p) (zupd (g ++ vrep (new - c) 0) (new - 1) y)) as (g' & -> & Lg' & G1 & G2).
      { lia. }
      { split; [rewrite zlen_zupd, zlen_app; lia|]. split.
        - intros j Hj. assert (j = new - 1) as -> by lia. rewrite vget_zupd by (rewrite zlen_app; lia). rewrite Z.eqb_refl. exists y. split; [auto|]. split; [auto|].
          rewrite Z.mul_mod_idemp_r in Ey by lia. auto.
        - intros j Hj. rewrite vget_zupd by (rewrite zlen_app; lia). destruct (Z.eqb_spec (new - 1) j); [lia|]. rewrite vget_app1 by lia. apply G. auto. }
      { intros i v Hi (Lv & G1 & G2). unfold ft_down. destruct (G1 i ltac:(lia)) as (z & -> & Rz & Ez). cbn [bind]. rewrite vset_ok by lia. eexists. split; [reflexivity|].
        split; [rewrite zlen_zupd; auto|]. split.
        - intros j Hj. rewrite vget_zupd by lia. destruct (Z.eqb_spec (i - 1) j) as [<-|]; [|apply G1; lia]. eexists. split; [reflexivity|].
          split; [apply Z.mod_pos_bound; lia|]. unfold mm. rewrite Z.mul_mod_idemp_l by lia. rewrite fact_pred in Ez by lia. etransitivity; [|exact Ez]. f_equal. ring.
        - intros j Hj. rewrite vget_zupd by lia. destruct (Z.eqb_spec (i - 1) j) as [<-|]; [lia|apply G2; auto]. }
      cbn [bind]. exists (f', g'). split; [auto|]. split; [auto|]. split; [auto|]. split; [lia|]. split; [auto|]. cbn [snd].
      intros j Hj. destruct (Z.lt_ge_cases j c); [apply G2; lia|apply G1; lia].
    - intro B. assert (fact (Z.to_nat (new - 1)) mod p = 0) as ->. { apply Zdivide_mod, fact_div. lia. } reflexivity.
  Qed.

  Lemma inv_get t c j : tinv t c -> 0 <= j < c -> exists y, vget (snd t) j = Ok y /\ 0 <= y < p /\ (y * fact (Z.to_nat j)) mod p = 1.
  Proof. intros (_ & _ & _ & _ & G) Hj. destruct (G j Hj) as (y & E & R & Q). eauto. Qed.
  Lemma mm_range a b : 0 <= mm p a b < p.
  Proof. pose proof p1. apply Z.mod_pos_bound. lia. Qed.
  (* prod of the first groups chosen so far *)
  Lemma poly_ok t c n : tinv t c -> 0 <= n < c -> forall ds sumd r m,
    0 <= r < p -> 0 <= sumd -> r = m mod p ->
    exists x, ft_poly p (snd t) n ds sumd r = Ok x /\
    match x with
    | None => forallb (fun d => 0 <=? d) ds && (sumd + zsum ds <=? n) = false
    | Some (s, r') => forallb (fun d => 0 <=? d) ds = true /\ s = sumd + zsum ds /\ 0 <= r' < p /\
        (r' * fold_right (fun d q => fact (Z.to_nat d) * q) 1 ds) mod p = m mod p
    end.
  Proof.
    pose proof p1. intros T Hn. induction ds as [|d ds IH]; intros sumd r m Rr Sr Er; cbn [ft_poly forallb zsum fold_right].
    - eexists. split; [reflexivity|]. cbv iota beta. split; [auto|]. split; [lia|]. split; [auto|]. rewrite Z.mul_1_r, Er. apply Z.mod_mod. lia.
    - fold (zsum ds). destruct (Z.ltb_spec d 0); [|destruct (Z.ltb_spec n d)]; cbn [orb].
      + eexists. split; [reflexivity|]. cbv iota beta. destruct (Z.leb_spec 0 d); [lia|auto].
      + eexists. split; [reflexivity|]. cbv iota beta.
        assert (forall l, forallb (fun d => 0 <=? d) l = true -> 0 <= zsum l) as Zs.
        { clear. induction l as [|x l IH]; cbn; [lia|]. intro E. apply andb_prop in E. destruct E as (E1 & E2). specialize (IH E2). fold (zsum l). lia. }
        destruct (forallb (fun d => 0 <=? d) ds) eqn:E; [specialize (Zs _ E)|rewrite andb_false_r; auto]. lia.
      + destruct (inv_get t c d T ltac:(lia)) as (y & -> & Ry & Ey). cbn [bind].
        destruct (IH (sumd + d) (mm p r y) (r * y)) as (x & -> & X); [apply mm_range|lia|reflexivity|]. eexists. split; [reflexivity|]. destruct x as [(s, r')|]; cbv iota beta.
        * destruct X as (X1 & X2 & X3 & X4). destruct (Z.leb_spec 0 d); [|lia]. rewrite X1. split; [auto|]. split; [lia|]. split; [auto|].
          set (Q := fold_right _ 1 ds) in *. replace (r' * (fact (Z.to_nat d) * Q)) with (r' * Q * fact (Z.to_nat d)) by ring.
          rewrite Z.mul_mod by lia. rewrite X4, <- Z.mul_mod by lia. replace (r * y * fact (Z.to_nat d)) with (r * (y * fact (Z.to_nat d))) by ring.
          rewrite Z.mul_mod by lia. rewrite Ey, Z.mul_1_r, Z.mod_mod by lia. rewrite Er. apply Z.mod_mod. lia.
        * destruct (Z.leb_spec 0 d); [|lia]. cbn [andb]. replace (sumd + (d + zsum ds)) with (sumd + d + zsum ds) by lia. auto.
  Qed.
  Lemma zsum_nonneg l : forallb (fun d => 0 <=? d) l = true -> 0 <= zsum l.
  Proof. induction l as [|x l IH]; cbn; [lia|]. intro E. apply andb_prop in E. destruct E as (E1 & E2). specialize (IH E2). fold (zsum l). lia. Qed.
  Lemma multi_fact ds : forall n, forallb (fun d => 0 <=? d) ds = true -> zsum ds <= n ->
    multi (Z.to_nat n) (map Z.to_nat ds) * fold_right (fun d q => fact (Z.to_nat d) * q) 1 ds * fact (Z.to_nat (n - zsum ds)) = fact (Z.to_nat n).
  Proof.
    induction ds as [|d ds IH]; intros n E L; cbn [forallb zsum fold_right map multi] in *; [rewrite Z.sub_0_r; lia|]. fold (zsum ds) in *.
    apply andb_prop in E. destruct E as (E1 & E2). pose proof (zsum_nonneg ds E2). specialize (IH (n - d) E2 ltac:(lia)).
    replace (Z.to_nat n - Z.to_nat d)%nat with (Z.to_nat (n - d)) by lia. replace (n - (d + zsum ds)) with (n - d - zsum ds) by lia.
    rewrite <- (bin_fact (Z.to_nat n) (Z.to_nat d)) by lia. replace (Z.to_nat n - Z.to_nat d)%nat with (Z.to_nat (n - d)) by lia. rewrite <- IH. ring.
  Qed.

  Lemma ft_sim t c o : tinv t c ->
    match ft_step p t o with
    | Ok (r, t') => exists c', ft_spec p c o (Ok (r, c')) /\ tinv t' c'
    | Abort => ft_spec p c o Abort
    | UB => ft_spec p c o UB
    | OutOfFuel => False
    end.
  Proof.
    pose proof p1. intro T. pose proof T as (_ & _ & Hc & _).
    assert (Ens : forall n, (grow c n <= p /\ exists t', ft_ensure p n t = Ok t' /\ tinv t' (grow c n)) \/ (p < grow c n /\ ft_ensure p n t = Abort)).
    { intro n. destruct (ensure_ok t c n T) as (E1 & E2). destruct (Z.le_gt_cases (grow c n) p); [left|right]; auto. }
    assert (Gr : forall n, n < grow c n) by (intro n; unfold grow; destruct (Z.ltb_spec n c); lia).
    assert (Facr : forall k, 0 <= fact k mod p < p) by (intro; apply Z.mod_pos_bound; lia).
    destruct o as [i|i|n r|n r|n ds]; cbn [ft_step].
    - destruct (Ens i) as [(B & t' & -> & T')|(B & ->)]; cbn [bind]; [|exact B]. specialize (Gr i).
      destruct (Z.lt_ge_cases i 0) as [L|L].
      + unfold vget. replace (i <? 0) with true by lia. cbn [bind]. exact L.
      + pose proof T' as (_ & _ & _ & F & _). rewrite F by lia. cbn [bind]. eexists. split; [|exact T']. split; [reflexivity|]. split; [exact B|]. split; [auto|reflexivity].
    - destruct (Ens i) as [(B & t' & -> & T')|(B & ->)]; cbn [bind]; [|exact B]. specialize (Gr i).
      destruct (Z.lt_ge_cases i 0) as [L|L].
      + unfold vget. replace (i <? 0) with true by lia. cbn [bind]. exact L.
      + destruct (inv_get t' _ i T' ltac:(lia)) as (y & -> & Ry & Ey). cbn [bind]. eexists. split; [|exact T']. split; [reflexivity|]. split; [exact B|]. split; auto.
    - destruct ((n <? 0) || (r <? 0) || (n <? r)) eqn:E.
      + exists c. split; [|exact T]. assert (E' : (0 <=? r) && (r <=? n) = false) by lia. split; [cbn [findex]; rewrite E'; unfold grow; destruct (Z.ltb_spec (-1) c); lia|].
        split; [lia|]. split; [lia|]. rewrite E'. auto.
      + assert (E' : (0 <=? r) && (r <=? n) = true) by lia. unfold ft_spec. cbn [findex]. rewrite E'.
        destruct (Ens n) as [(B & t' & -> & T')|(B & ->)]; cbn [bind]; [|exact B]. specialize (Gr n).
        pose proof T' as (_ & _ & _ & F & _). rewrite F by lia. cbn [bind].
        destruct (inv_get t' _ r T' ltac:(lia)) as (y & -> & Ry & Ey). cbn [bind]. destruct (inv_get t' _ (n - r) T' ltac:(lia)) as (z & -> & Rz & Ez). cbn [bind].
        eexists. split; [|exact T']. split; [reflexivity|]. split; [exact B|]. split; [apply mm_range|]. rewrite E'. unfold mm.
        apply (cancel _ _ (fact (Z.to_nat (n - r)))); [|exact Ez]. rewrite Z.mod_mod by lia.
        apply (cancel _ _ (fact (Z.to_nat r))); [|exact Ey]. rewrite Z.mod_mod by lia.
        rewrite <- (bin_fact (Z.to_nat n) (Z.to_nat r)) by lia. replace (Z.to_nat n - Z.to_nat r)%nat with (Z.to_nat (n - r)) by lia. f_equal. ring.
    - destruct ((n <? 0) || (r <? 0) || (n <? r)) eqn:E.
      + exists c. split; [|exact T]. assert (E' : (0 <=? r) && (r <=? n) = false) by lia. split; [cbn [findex]; rewrite E'; unfold grow; destruct (Z.ltb_spec (-1) c); lia|].
        split; [lia|]. split; [lia|]. rewrite E'. auto.
      + assert (E' : (0 <=? r) && (r <=? n) = true) by lia. unfold ft_spec. cbn [findex]. rewrite E'.
        destruct (Ens n) as [(B & t' & -> & T')|(B & ->)]; cbn [bind]; [|exact B]. specialize (Gr n).
        pose proof T' as (_ & _ & _ & F & _). rewrite F by lia. cbn [bind].
        destruct (inv_get t' _ (n - r) T' ltac:(lia)) as (z & -> & Rz & Ez). cbn [bind].
        eexists. split; [|exact T']. split; [reflexivity|]. split; [exact B|]. split; [apply mm_range|]. rewrite E'. unfold mm.
        apply (cancel _ _ (fact (Z.to_nat (n - r)))); [|exact Ez]. rewrite Z.mod_mod by lia.
        rewrite <- (falling_fact (Z.to_nat r) (Z.to_nat n)) by lia. replace (Z.to_nat n - Z.to_nat r)%nat with (Z.to_nat (n - r)) by lia. rewrite Z2Nat.id by lia. reflexivity.
    - destruct (Z.ltb_spec n 0) as [L|L].
      + exists c. split; [|exact T]. split; [cbn [findex]; unfold grow; destruct (Z.ltb_spec n c); lia|]. split; [lia|]. split; [lia|].
        replace (0 <=? n) with false by lia. rewrite andb_false_r. reflexivity.
      + unfold ft_spec. cbn [findex]. destruct (Ens n) as [(B & t' & -> & T')|(B & ->)]; cbn [bind]; [|exact B]. specialize (Gr n).
        pose proof T' as (_ & _ & _ & F & _). rewrite F by lia. cbn [bind].
        destruct (poly_ok t' _ n T' ltac:(lia) ds 0 (fact (Z.to_nat n) mod p) (fact (Z.to_nat n)) (Facr _) ltac:(lia) eq_refl) as (x & -> & X). cbn [bind].
        replace (0 <=? n) with true in * by lia. destruct x as [(s, r')|].
        * destruct X as (X1 & -> & X3 & X4). destruct (Z.ltb_spec n (0 + zsum ds)) as [L2|L2].
          -- eexists. split; [|exact T']. split; [reflexivity|]. split; [exact B|]. split; [lia|]. replace (zsum ds <=? n) with false by lia. rewrite andb_false_r. auto.
          -- pose proof (zsum_nonneg ds X1). destruct (inv_get t' _ (n - (0 + zsum ds)) T' ltac:(lia)) as (z & -> & Rz & Ez). cbn [bind].
             eexists. split; [|exact T']. split; [reflexivity|]. split; [exact B|]. split; [apply mm_range|]. rewrite X1. replace (zsum ds <=? n) with true by lia. replace (0 <=? n) with true by lia. cbn [andb]. unfold mm.
             set (Q := fold_right _ 1 ds) in *. set (M := multi _ _).
             (* r' Q = n!, z (n - s)! = 1, M Q (n - s)! = n! *)
             pose proof (multi_fact ds n X1 ltac:(lia)) as MF. fold Q M in MF. replace (0 + zsum ds) with (zsum ds) in Ez by lia.
             set (W := fact (Z.to_nat (n - zsum ds))) in *.
             assert (NQ : ~ (p | Q)).
             { intro D. assert (D' : (p | fact (Z.to_nat n))). { rewrite <- MF. apply Z.divide_mul_l, Z.divide_mul_r. auto. } apply fact_div in D'. lia. }
             assert (DQ : (p | (r' * z - M) * Q)).
             { apply Zmod_divide; [lia|]. replace ((r' * z - M) * Q) with (r' * Q * z - M * Q) by ring. rewrite Zminus_mod.
               rewrite Z.mul_mod by lia. rewrite X4, <- MF, <- Z.mul_mod by lia. replace (M * Q * W * z) with (M * Q * (z * W)) by ring.
               rewrite (Z.mul_mod (M * Q)) by lia. rewrite Ez, Z.mul_1_r, Z.mod_mod by lia. rewrite Z.sub_diag. apply Zmod_0_l. }
             apply prime_mult in DQ; auto. destruct DQ as [DQ|DQ]; [|contradiction]. 
             destruct DQ as (k & K). replace (r' * z) with (M + k * p) by lia. apply Z_mod_plus_full.
        * eexists. split; [|exact T']. split; [reflexivity|]. split; [exact B|]. split; [lia|]. rewrite Z.add_0_l in X.
          destruct (forallb (fun d => 0 <=? d) ds); cbn [andb] in *; [rewrite X, andb_false_r|]; auto.
  Qed.
  Lemma ft_history ops : answers (ft_spec p) 1 ops (run (ft_step p) (ft_new p) ops).
  Proof. apply answers_run with (Inv := tinv); [intros; now apply ft_sim|apply tinv_new]. Qed.
End P.
