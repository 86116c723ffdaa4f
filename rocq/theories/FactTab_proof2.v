(* Proofs about FactTab_model: inverse and power tables. *)
From Coq Require Import Znumtheory.
From Verif Require Import Base BaseLemmas ListZ NumTheory FactTab_model FactTab_spec Hist Heap_spec Heap_proof FactTab_proof.

Section Inv.
  Variable p : Z.
  Hypothesis Hp : prime p.
  Definition good (j x : Z) : Prop := (1 <= j < p /\ inverse p j x) \/ ((j = 0 \/ p <= j) /\ x = 0).
  Definition iinv (v : list Z) : Prop := forall j, 0 <= j < zlen v -> exists x, vget v j = Ok x /\ good j x.
  Lemma good_next i x : 2 <= i -> good (p mod i) x -> good i (mm p ((p - p / i) mod p) x).
  Proof.
    pose proof (prime_gt1 p Hp) as P1. intros Hi G. pose proof (Z.mod_pos_bound p i ltac:(lia)) as R.
    destruct (Z.lt_ge_cases i p) as [L|L].
    - left. split; [lia|]. split; [apply Z.mod_pos_bound; lia|]. destruct G as [(Rr & Rx & Ex)|(Z0 & _)].
      + unfold mm. rewrite Z.mul_mod_idemp_l by lia. rewrite <- Z.mul_assoc. rewrite Z.mul_mod_idemp_l by lia. etransitivity; [|exact Ex].
        pose proof (Z.div_mod p i ltac:(lia)) as E. set (q := p / i) in *. set (r := p mod i) in *.
        replace ((p - q) * (x * i)) with (x * r + (x * (i - 1)) * p) by (replace r with (p - i * q) by lia; ring). apply Z_mod_plus_full.
      + destruct Z0 as [Z0|Z0]; [|lia]. apply Zmod_divide in Z0; [|lia]. apply prime_divisors in Z0; auto. lia.
    - right. split; [auto|]. destruct G as [(Rr & _)|(_ & ->)].
      + destruct (Z.eq_dec i p) as [->|]; [rewrite Z_mod_same_full in Rr; lia|]. rewrite Z.mod_small in Rr by lia. lia.
      + unfold mm. rewrite Z.mul_0_r. apply Zmod_0_l.
  Qed.
  Lemma ensure_im n v : iinv v -> exists v', im_ensure p n v = Ok v' /\ iinv v' /\ n < zlen v'.
  Proof.
    pose proof (prime_gt1 p Hp) as P1. intro I. unfold im_ensure.
    assert (I2 : exists w, (if zlen v <? 2 then [0; 1 mod p] else v) = w /\ iinv w /\ 2 <= zlen w).
    { destruct (Z.ltb_spec (zlen v) 2); [|eauto]. eexists. split; [reflexivity|]. rewrite Z.mod_1_l by lia. split; [|reflexivity || (unfold zlen; cbn; lia)].
      intros j Hj. change (zlen [0; 1]) with 2 in Hj. destruct (Z.eq_dec j 0) as [->|]; [exists 0; split; [reflexivity|right; auto]|].
      assert (j = 1) as -> by lia. exists 1. split; [reflexivity|]. left. split; [lia|]. split; [lia|]. apply Z.mod_1_l; lia. }
    destruct I2 as (w & -> & I2 & L2). cbn zeta. destruct (Z.ltb_spec (zlen w) (n + 1)) as [L|L]; [|exists w; split; [auto|]; split; [auto|lia]].
    destruct (for_inv (fun i v => zlen v = n + 1 /\ forall j, 0 <= j < i -> exists x, vget v j = Ok x /\ good j x) (zlen w) (n + 1) (im_body p) (w ++ vrep (n + 1 - zlen w) 0)) as (v' & -> & L' & G').
    { lia. }
    { split; [rewrite zlen_app, zlen_vrep; lia|]. intros j Hj. rewrite vget_app1 by lia. auto. }
    { intros i s Hi (Ls & G). unfold im_body. pose proof (Z.mod_pos_bound p i ltac:(lia)). destruct (G (p mod i) ltac:(lia)) as (x & -> & Gx). cbn [bind]. rewrite vset_ok by lia.
      eexists. split; [reflexivity|]. split; [rewrite zlen_zupd; auto|]. intros j Hj. rewrite vget_zupd by lia. destruct (Z.eqb_spec i j) as [<-|]; [|apply G; lia].
      eexists. split; [reflexivity|]. apply good_next; auto; lia. }
    exists v'. split; [auto|]. split; [|lia]. intros j Hj. apply G'. lia.
  Qed.
  Lemma im_history ops : answers (im_spec p) tt ops (run (im_step p) [] ops).
  Proof.
    apply answers_run with (Inv := fun v _ => iinv v); [|intros j Hj; change (zlen (@nil Z)) with 0 in Hj; lia].
    intros v [] i I. unfold im_step. destruct (ensure_im i v I) as (v' & -> & I' & L). cbn [bind]. destruct (Z.lt_ge_cases i 0) as [N|N].
    - unfold vget. replace (i <? 0) with true by lia. exact N.
    - destruct (I' i ltac:(lia)) as (x & -> & G). cbn [bind]. exists tt. split; [exact G|exact I'].
  Qed.

  Definition sufp (vs : list Z) (i : Z) : Z := fold_right Z.mul 1 (skipn (Z.to_nat i) vs).
  Lemma sufp_end vs : sufp vs (zlen vs) = 1.
  Proof. unfold sufp, zlen. rewrite Nat2Z.id, skipn_all. auto. Qed.
  Lemma sufp_step vs i v : vget vs i = Ok v -> sufp vs i = v * sufp vs (i + 1).
  Proof.
    intro E. destruct (vget_split vs i v E) as (a & b & -> & La). unfold sufp, zlen in *. assert (E1 : Z.to_nat i = length a) by lia. assert (E2 : Z.to_nat (i + 1) = S (length a)) by lia. rewrite E1, E2.
    rewrite skipn_app, skipn_all, Nat.sub_diag. replace (S (length a)) with (length a + 1)%nat by lia. rewrite (skipn_app (length a + 1)), (skipn_all2 a) by lia.
    replace (length a + 1 - length a)%nat with 1%nat by lia. reflexivity.
  Qed.
  Lemma prod_loop vs : forall q, 0 <= q < p ->
    match for_each vs (gi_prod p) q with
    | Ok r => ~ In 0 vs /\ r = (q * fold_right Z.mul 1 vs) mod p
    | Abort => In 0 vs
    | _ => False
    end.
  Proof.
    pose proof (prime_gt1 p Hp) as P1. induction vs as [|v vs IH]; intros q Hq; cbn [for_each fold_right].
    - split; [auto|]. rewrite Z.mul_1_r, Z.mod_small; auto.
    - unfold gi_prod at 1. destruct (Z.eqb_spec v 0) as [->|N]; cbn [negb assert_ bind]; [left; auto|].
      specialize (IH (mm p q v) ltac:(apply Z.mod_pos_bound; lia)). destruct (for_each vs (gi_prod p) (mm p q v)); [|auto|right; exact IH|auto].
      destruct IH as (I1 & ->). split; [intros [Z0|Z0]; [congruence|auto]|]. unfold mm. rewrite Z.mul_mod_idemp_l by lia. f_equal. ring.
  Qed.
  Lemma prod_nz vs : (forall v, In v vs -> 0 <= v < p) -> ~ In 0 vs -> ~ (p | fold_right Z.mul 1 vs).
  Proof.
    pose proof (prime_gt1 p Hp) as P1. induction vs as [|v vs IH]; intros R N D; cbn [fold_right] in D.
    - apply Z.divide_1_r_nonneg in D; lia.
    - apply prime_mult in D; auto. destruct D as [D|D].
      + pose proof (R v ltac:(left; auto)). assert (v <> 0) by (intros ->; apply N; left; auto). apply Z.divide_pos_le in D; lia.
      + apply IH; auto. intros; apply R; right; auto. intro; apply N; right; auto.
  Qed.
  Lemma get_invs_ok vs : (forall v, In v vs -> 0 <= v < p) ->
    match get_invs p vs with
    | Ok r => ~ In 0 vs /\ zlen r = zlen vs /\ forall i v, vget vs i = Ok v -> exists x, vget r i = Ok x /\ inverse p v x
    | Abort => In 0 vs
    | _ => False
    end.
  Proof.
    pose proof (prime_gt1 p Hp) as P1. pose proof (zlen_nonneg vs) as Ln. intro R. unfold get_invs. cbn zeta.
    pose proof (prod_loop vs (1 mod p) ltac:(apply Z.mod_pos_bound; lia)) as PL. destruct (for_each vs (gi_prod p) (1 mod p)) as [q| | |]; auto.
    destruct PL as (N & ->). cbn [bind]. rewrite Z.mod_1_l, Z.mul_1_l by lia. pose proof (prod_nz vs R N) as NZ. set (T := fold_right Z.mul 1 vs) in *.
    destruct (mrec_ok p Hp (T mod p)) as (ip & -> & Ri & Ei).
    { pose proof (Z.mod_pos_bound T p ltac:(lia)). destruct (Z.eq_dec (T mod p) 0) as [Q|]; [|lia]. apply Zmod_divide in Q; [contradiction|lia]. }
    rewrite Z.mul_mod_idemp_r in Ei by lia. cbn [bind]. rewrite vset_ok by (rewrite zlen_vrep; lia). cbn [bind]. set (n := zlen vs) in *.
    destruct (ford_inv (fun i rp => zlen rp = n + 1 /\ forall j, i <= j <= n -> vget rp j = Ok (sufp vs j mod p)) n 0 (gi_right p vs) (zupd (vrep (n + 1) 0) n 1)) as (rp & -> & Lr & Er).
    { lia. }
    { split; [rewrite zlen_zupd, zlen_vrep; lia|]. intros j Hj. assert (j = n) as -> by lia. rewrite vget_zupd by (rewrite zlen_vrep; lia). rewrite Z.eqb_refl.
      unfold n. rewrite sufp_end, Z.mod_1_l by lia. auto. }
    { intros i rp Hi (Lr & Er). unfold gi_right. rewrite Er by lia. cbn [bind]. destruct (vget_Ok vs (i - 1) ltac:(fold n; lia)) as (v & Ev). rewrite Ev. cbn [bind].
      rewrite vset_ok by lia. eexists. split; [reflexivity|]. split; [rewrite zlen_zupd; auto|]. intros j Hj. rewrite vget_zupd by lia.
      destruct (Z.eqb_spec (i - 1) j) as [<-|]; [|apply Er; lia]. rewrite (sufp_step vs (i - 1) v Ev). replace (i - 1 + 1) with i by lia. unfold mm.
      rewrite Z.mul_mod_idemp_l by lia. f_equal. f_equal. ring. }
    cbn [bind].
    destruct (for_inv (fun i (st : list Z * Z) => zlen (fst st) = n /\ (snd st * sufp vs i) mod p = 1 /\ forall j v, 0 <= j < i -> vget vs j = Ok v -> exists x, vget (fst st) j = Ok x /\ inverse p v x)
      0 n (gi_body p vs rp) (vrep n 0, ip)) as ((r, ip') & -> & L & _ & G).
    { lia. }
    { cbn [fst snd]. split; [rewrite zlen_vrep; lia|]. split; [exact Ei|]. intros; lia. }
    { intros i (r, q) Hi (L & E & G). cbn [fst snd] in *. unfold gi_body. rewrite Er by lia. cbn [bind]. rewrite vset_ok by lia. cbn [bind].
      destruct (vget_Ok vs i ltac:(fold n; lia)) as (v & Ev). rewrite Ev. cbn [bind]. eexists. split; [reflexivity|]. cbn [fst snd]. rewrite (sufp_step vs i v Ev) in E.
      split; [rewrite zlen_zupd; auto|]. split.
      - unfold mm. rewrite Z.mul_mod_idemp_l by lia. etransitivity; [|exact E]. f_equal. ring.
      - intros j w Hj Ew. rewrite vget_zupd by lia. destruct (Z.eqb_spec i j) as [<-|]; [|apply G; auto; lia].
        rewrite Ev in Ew. injection Ew as <-. eexists. split; [reflexivity|]. split; [apply Z.mod_pos_bound; lia|]. unfold mm.
        rewrite Z.mul_mod_idemp_l by lia. rewrite (Z.mul_comm q), <- Z.mul_assoc, Z.mul_mod_idemp_l by lia. etransitivity; [|exact E]. f_equal. ring. }
    cbn [bind fst snd] in *. split; [auto|]. split; [auto|]. intros i v Ev. apply G; auto. apply vget_range in Ev. fold n in Ev. lia.
  Qed.
End Inv.

Section Pow.
  Variables m base : Z.
  Hypothesis Hm : 0 < m.
  Lemma pw_history ops : answers (pw_spec m base) tt ops (run (pw_step m base) [1 mod m] ops).
  Proof.
    apply answers_run with (Inv := fun v _ => 1 <= zlen v /\ forall j, 0 <= j < zlen v -> vget v j = Ok (base ^ j mod m)).
    2:{ change (zlen [1 mod m]) with 1. split; [lia|]. intros j Hj. assert (j = 0) as -> by lia. reflexivity. }
    intros v [] i (L & I). unfold pw_step, pw_ensure. cbn zeta.
    assert (E : exists v', (if i <? zlen v then Ok v else for_ (zlen v) (i + 1) (pw_body m base) (v ++ vrep (i + 1 - zlen v) 0)) = Ok v' /\ i < zlen v' /\ 1 <= zlen v' /\
       forall j, 0 <= j < zlen v' -> vget v' j = Ok (base ^ j mod m)).
    { destruct (Z.ltb_spec i (zlen v)) as [B|B]; [exists v; auto|].
      destruct (for_inv (fun k v => zlen v = i + 1 /\ forall j, 0 <= j < k -> vget v j = Ok (base ^ j mod m)) (zlen v) (i + 1) (pw_body m base) (v ++ vrep (i + 1 - zlen v) 0)) as (v' & -> & L' & G').
      { lia. }
      { split; [rewrite zlen_app, zlen_vrep; lia|]. intros j Hj. rewrite vget_app1 by lia. auto. }
      { intros k s Hk (Ls & G). unfold pw_body. rewrite G by lia. cbn [bind]. rewrite vset_ok by lia. eexists. split; [reflexivity|]. split; [rewrite zlen_zupd; auto|].
        intros j Hj. rewrite vget_zupd by lia. destruct (Z.eqb_spec k j) as [<-|]; [|apply G; lia]. unfold mm. rewrite Z.mul_mod_idemp_r by lia. f_equal. f_equal.
        replace k with (Z.succ (k - 1)) at 2 by lia. rewrite Z.pow_succ_r by lia. auto. }
      exists v'. split; [auto|]. split; [lia|]. split; [lia|]. intros j Hj. apply G'. lia. }
    destruct E as (v' & -> & B & L' & I'). cbn [bind]. destruct (Z.lt_ge_cases i 0) as [N|N].
    - unfold vget. replace (i <? 0) with true by lia. exact N.
    - rewrite I' by lia. cbn [bind]. exists tt. split; [split; auto|auto].
  Qed.
End Pow.
