From Verif Require Import Base BaseLemmas ZMod Seq ListZ RingSum Smooth Transform_model Transform_spec Kron_proof Kron_alg.
From Coq Require Import Ring Znumtheory.

Definition ipf (p m : Z) : bool := if m =? 0 then true else rough p m.
Lemma mod0_mul p m : 1 <= p -> m mod p = 0 <-> exists q, m = p * q.
Proof. intro Hp. split. - intro H. exists (m / p). apply Z.div_exact; lia. - intros [q ->]. rewrite Z.mul_comm. apply Z.mod_mul. lia. Qed.
Lemma between_mod p q m : 1 <= p -> p * q < m < p * q + p -> m mod p <> 0.
Proof. intros Hp Hm E. apply mod0_mul in E; [|lia]. destruct E as [r ->]. assert (q < r) by (apply Z.mul_lt_mono_pos_l with p; lia). assert (r < q + 1) by (apply Z.mul_lt_mono_pos_l with p; lia). lia. Qed.
Lemma div_mul_l p q : 1 <= p -> p * q / p = q. Proof. intro. rewrite Z.mul_comm. apply Z.div_mul. lia. Qed.
Lemma ipf_mark p m : prime p -> 0 <= m -> ipf (p + 1) m = if (1 <=? m) && (m mod p =? 0) then false else ipf p m.
Proof.
  intros P Hm. pose proof (prime_ge_2 p P). unfold ipf. destruct (Z.eqb_spec m 0) as [->|N].
  - reflexivity.
  - rewrite (proj2 (Z.leb_le 1 m)) by lia. cbn [andb]. rewrite rough_succ by (auto; lia). destruct (m mod p =? 0); cbn [negb]; [apply Bool.andb_false_r|apply Bool.andb_true_r].
Qed.

Section Loops.
  Context {T : Type}.
  Variables (r0 : T) (add sub : T -> T -> T).
  Variables (N p : Z) (P : prime p) (Hp : p < N).
  Variables H H' : Z -> T.
  Hypothesis H0 : H' 0 = H 0.
  Lemma p2' : 2 <= p. Proof. now apply prime_ge_2. Qed.
  (* the flags: marking multiples of p upwards / downwards *)
  Lemma mark_up q ip : 1 <= q -> p * q < N -> rep ip N (fun m => if m <? p * q then ipf (p + 1) m else ipf p m) ->
    exists ip', vset ip (p * q) false = Ok ip' /\ rep ip' N (fun m => if m <? p * (q + 1) then ipf (p + 1) m else ipf p m).
  Proof.
    intros Hq Hl R. pose proof p2'. rewrite (rep_set _ _ _ _ _ R) by nia. eexists; split; [reflexivity|].
    eapply rep_ext; [apply rep_upd; [exact R|nia]|]. intros m Hm. unfold fupd. cbn beta. rewrite (ipf_mark p m P) by lia.
    destruct (Z.eqb_spec m (p * q)) as [->|Ne].
    - rewrite (proj2 (Z.ltb_lt (p * q) (p * (q + 1)))) by nia. rewrite (proj2 (Z.leb_le 1 (p * q))) by nia.
      rewrite (proj2 (Z.eqb_eq (p * q mod p) 0)); [reflexivity|]. apply mod0_mul; [lia|eauto].
    - destruct (Z.ltb_spec m (p * q)); destruct (Z.ltb_spec m (p * (q + 1))); try nia; auto.
      rewrite (proj2 (Z.eqb_neq (m mod p) 0)); [now rewrite Bool.andb_false_r|]. apply (between_mod p q); lia.
  Qed.
  Lemma mark_down q ip : 1 <= q -> p * q < N -> rep ip N (fun m => if p * q <? m then ipf (p + 1) m else ipf p m) ->
    exists ip', vset ip (p * q) false = Ok ip' /\ rep ip' N (fun m => if p * (q - 1) <? m then ipf (p + 1) m else ipf p m).
  Proof.
    intros Hq Hl R. pose proof p2'. rewrite (rep_set _ _ _ _ _ R) by nia. eexists; split; [reflexivity|].
    eapply rep_ext; [apply rep_upd; [exact R|nia]|]. intros m Hm. unfold fupd. cbn beta. rewrite (ipf_mark p m P) by lia.
    destruct (Z.eqb_spec m (p * q)) as [->|Ne].
    - rewrite (proj2 (Z.ltb_lt (p * (q - 1)) (p * q))) by nia. rewrite (proj2 (Z.leb_le 1 (p * q))) by nia.
      rewrite (proj2 (Z.eqb_eq (p * q mod p) 0)); [reflexivity|]. apply mod0_mul; [lia|eauto].
    - destruct (Z.ltb_spec (p * q) m); destruct (Z.ltb_spec (p * (q - 1)) m); try nia; auto.
      rewrite (proj2 (Z.eqb_neq (m mod p) 0)); [now rewrite Bool.andb_false_r|]. apply (between_mod p (q - 1)); lia.
  Qed.
  Definition goal (r : list T * list bool) : Prop := rep (fst r) N H' /\ rep (snd r) N (ipf (p + 1)).

  Lemma div_cum_ok f ip : rep f N H -> rep ip N (ipf p) ->
    (forall m, 1 <= m < N -> H' m = if m mod p =? 0 then add (H m) (H' (m / p)) else H m) ->
    exists r, div_cum add N p f ip = Ok r /\ goal r.
  Proof.
    intros Rf Ri HH. pose proof p2'. unfold div_cum.
    apply (loop_inv (fun '(q, pq, f, ip) => 1 <= q /\ pq = p * q /\ rep f N (fun m => if m <? p * q then H' m else H m) /\
             rep ip N (fun m => if m <? p * q then ipf (p + 1) m else ipf p m)) (fun '(q, pq, f, ip) => Z.to_nat (N - q)) goal).
    - split; [lia|]. split; [lia|]. split; [eapply rep_ext; [exact Rf|]|eapply rep_ext; [exact Ri|]]; intros m Hm; cbn beta; destruct (Z.ltb_spec m (p * 1)); auto.
      + destruct (Z.eq_dec m 0) as [->|]; auto. rewrite HH by lia. rewrite Z.mod_small by lia. now rewrite (proj2 (Z.eqb_neq m 0)).
      + rewrite (ipf_mark p m P) by lia. rewrite Z.mod_small by lia. destruct (Z.eqb_spec m 0); [subst; reflexivity|]. now rewrite Bool.andb_false_r.
    - lia.
    - intros (((q, pq), f'), ip') (Hq & -> & R1 & R2). destruct (Z.ltb_spec (p * q) N).
      + rewrite (rep_get _ _ _ _ R1) by nia. cbn [bind]. rewrite (rep_get _ _ _ _ R1) by nia. cbn [bind].
        rewrite (rep_set _ _ _ _ _ R1) by nia. cbn [bind]. destruct (mark_up q ip' Hq ltac:(assumption) R2) as (ip2 & E & R3). rewrite E. cbn [bind].
        eexists; split; [reflexivity|]. cbn beta iota. split; [|nia]. split; [lia|]. split; [lia|]. split; auto.
        eapply rep_ext; [apply rep_upd; [exact R1|nia]|]. intros m Hm. unfold fupd. cbn beta.
        rewrite (proj2 (Z.ltb_ge (p * q) (p * q))) by lia. rewrite (proj2 (Z.ltb_lt q (p * q))) by nia.
        destruct (Z.eqb_spec m (p * q)) as [->|Ne].
        * rewrite (proj2 (Z.ltb_lt (p * q) (p * (q + 1)))) by nia. rewrite (HH (p * q)) by nia. rewrite (proj2 (Z.eqb_eq (p * q mod p) 0)) by (apply mod0_mul; [lia|eauto]).
          now rewrite div_mul_l by lia.
        * destruct (Z.ltb_spec m (p * q)); destruct (Z.ltb_spec m (p * (q + 1))); try nia; auto.
          rewrite (HH m) by nia. rewrite (proj2 (Z.eqb_neq (m mod p) 0)); auto. apply (between_mod p q); lia.
      + eexists; split; [reflexivity|]. split; cbn [fst snd]; [eapply rep_ext; [exact R1|]|eapply rep_ext; [exact R2|]]; intros m Hm; cbn beta; rewrite (proj2 (Z.ltb_lt m (p * q))) by lia; auto.
  Qed.
  Lemma mul_diff_ok f ip : rep f N H -> rep ip N (ipf p) ->
    (forall m, 1 <= m < N -> H' m = if p * m <? N then sub (H m) (H (p * m)) else H m) ->
    exists r, mul_diff sub N p f ip = Ok r /\ goal r.
  Proof.
    intros Rf Ri HH. pose proof p2'. unfold mul_diff.
    apply (loop_inv (fun '(q, pq, f, ip) => 1 <= q /\ pq = p * q /\ rep f N (fun m => if m <? q then H' m else H m) /\
             rep ip N (fun m => if m <? p * q then ipf (p + 1) m else ipf p m)) (fun '(q, pq, f, ip) => Z.to_nat (N - q)) goal).
    - split; [lia|]. split; [lia|]. split; [eapply rep_ext; [exact Rf|]|eapply rep_ext; [exact Ri|]]; intros m Hm; cbn beta.
      + destruct (Z.ltb_spec m 1); auto. now replace m with 0 by lia.
      + destruct (Z.ltb_spec m (p * 1)); auto. rewrite (ipf_mark p m P) by lia. rewrite Z.mod_small by lia. destruct (Z.eqb_spec m 0); [subst; reflexivity|]. now rewrite Bool.andb_false_r.
    - lia.
    - intros (((q, pq), f'), ip') (Hq & -> & R1 & R2). destruct (Z.ltb_spec (p * q) N).
      + rewrite (rep_get _ _ _ _ R1) by nia. cbn [bind]. rewrite (rep_get _ _ _ _ R1) by nia. cbn [bind].
        rewrite (rep_set _ _ _ _ _ R1) by nia. cbn [bind]. destruct (mark_up q ip' Hq ltac:(assumption) R2) as (ip2 & E & R3). rewrite E. cbn [bind].
        eexists; split; [reflexivity|]. cbn beta iota. split; [|nia]. split; [lia|]. split; [lia|]. split; auto.
        eapply rep_ext; [apply rep_upd; [exact R1|nia]|]. intros m Hm. unfold fupd. cbn beta.
        rewrite (proj2 (Z.ltb_ge q q)) by lia. rewrite (proj2 (Z.ltb_ge (p * q) q)) by nia.
        destruct (Z.eqb_spec m q) as [->|Ne].
        * rewrite (proj2 (Z.ltb_lt q (q + 1))) by nia. rewrite (HH q) by nia. now rewrite (proj2 (Z.ltb_lt (p * q) N)) by lia.
        * destruct (Z.ltb_spec m q); destruct (Z.ltb_spec m (q + 1)); try lia; auto.
      + eexists; split; [reflexivity|]. split; cbn [fst snd]; [eapply rep_ext; [exact R1|]|eapply rep_ext; [exact R2|]]; intros m Hm; cbn beta.
        * destruct (Z.ltb_spec m q); auto. rewrite HH by nia. now rewrite (proj2 (Z.ltb_ge (p * m) N)) by nia.
        * rewrite (proj2 (Z.ltb_lt m (p * q))) by lia; auto.
  Qed.
  Lemma qmax : Z.quot (N - 1) p * p < N <= Z.quot (N - 1) p * p + p /\ 1 <= Z.quot (N - 1) p < N.
  Proof.
    pose proof p2'. rewrite Z.quot_div_nonneg by lia. pose proof (Z.div_mod (N - 1) p ltac:(lia)). pose proof (Z.mod_pos_bound (N - 1) p ltac:(lia)).
    set (q := (N - 1) / p) in *. nia.
  Qed.
  Lemma mark_down0 ip : rep ip N (ipf p) -> rep ip N (fun m => if p * Z.quot (N - 1) p <? m then ipf (p + 1) m else ipf p m).
  Proof.
    intro R. pose proof qmax. pose proof p2'. eapply rep_ext; [exact R|]. intros m Hm. cbn beta. destruct (Z.ltb_spec (p * Z.quot (N - 1) p) m); auto.
    rewrite (ipf_mark p m P) by lia. rewrite (proj2 (Z.eqb_neq (m mod p) 0)); [now rewrite Bool.andb_false_r|]. apply (between_mod p (Z.quot (N - 1) p)); lia.
  Qed.
  Lemma mark_down_end (ip : list bool) q : q <= 0 -> 0 <= q -> rep ip N (fun m => if p * q <? m then ipf (p + 1) m else ipf p m) -> rep ip N (ipf (p + 1)).
  Proof.
    intros Hq Hq' R. eapply rep_ext; [exact R|]. intros m Hm. cbn beta. replace q with 0 by lia. rewrite Z.mul_0_r. destruct (Z.ltb_spec 0 m); auto.
    replace m with 0 by lia. reflexivity.
  Qed.
  Lemma div_diff_ok f ip : rep f N H -> rep ip N (ipf p) ->
    (forall m, 1 <= m < N -> H' m = if m mod p =? 0 then sub (H m) (H (m / p)) else H m) ->
    exists r, div_diff sub N p f ip = Ok r /\ goal r.
  Proof.
    intros Rf Ri HH. pose proof p2' as Pp. pose proof qmax as Hqm. unfold div_diff. pose proof (mark_down0 ip Ri) as Rd. set (q0 := Z.quot (N - 1) p) in *. clearbody q0.
    apply (loop_inv (fun '(q, pq, f, ip) => 0 <= q /\ pq = p * q /\ p * q < N /\ rep f N (fun m => if p * q <? m then H' m else H m) /\
             rep ip N (fun m => if p * q <? m then ipf (p + 1) m else ipf p m)) (fun '(q, pq, f, ip) => Z.to_nat q) goal).
    - split; [lia|]. split; [lia|]. split; [lia|]. split; auto. eapply rep_ext; [exact Rf|]. intros m Hm. cbn beta.
      destruct (Z.ltb_spec (p * q0) m); auto. rewrite HH by nia. rewrite (proj2 (Z.eqb_neq (m mod p) 0)); auto. apply (between_mod p q0); lia.
    - lia.
    - intros (((q, pq), f'), ip') (Hq & -> & Hlt & R1 & R2). destruct (Z.leb_spec 1 q).
      + rewrite (rep_get _ _ _ _ R1) by nia. cbn [bind]. rewrite (rep_get _ _ _ _ R1) by nia. cbn [bind].
        rewrite (rep_set _ _ _ _ _ R1) by nia. cbn [bind]. destruct (mark_down q ip' ltac:(lia) Hlt R2) as (ip2 & E & R3). rewrite E. cbn [bind].
        eexists; split; [reflexivity|]. cbn beta iota. split; [|lia]. split; [lia|]. split; [lia|]. split; [nia|]. split; auto.
        eapply rep_ext; [apply rep_upd; [exact R1|nia]|]. intros m Hm. unfold fupd. cbn beta.
        rewrite (proj2 (Z.ltb_ge (p * q) (p * q))) by lia. rewrite (proj2 (Z.ltb_ge (p * q) q)) by nia.
        destruct (Z.eqb_spec m (p * q)) as [->|Ne].
        * rewrite (proj2 (Z.ltb_lt (p * (q - 1)) (p * q))) by nia. rewrite (HH (p * q)) by nia. rewrite (proj2 (Z.eqb_eq (p * q mod p) 0)) by (apply mod0_mul; [lia|eauto]).
          now rewrite div_mul_l by lia.
        * destruct (Z.ltb_spec (p * q) m); destruct (Z.ltb_spec (p * (q - 1)) m); try nia; auto.
          rewrite (HH m) by nia. rewrite (proj2 (Z.eqb_neq (m mod p) 0)); auto. apply (between_mod p (q - 1)); lia.
      + eexists; split; [reflexivity|]. split; cbn [fst snd]; [|eapply mark_down_end; [| |exact R2]; lia]. eapply rep_ext; [exact R1|]. intros m Hm. cbn beta.
        replace q with 0 by lia. rewrite Z.mul_0_r. destruct (Z.ltb_spec 0 m); auto. now replace m with 0 by lia.
  Qed.
  Lemma mul_cum_ok f ip : rep f N H -> rep ip N (ipf p) ->
    (forall m, 1 <= m < N -> H' m = if p * m <? N then add (H m) (H' (p * m)) else H m) ->
    exists r, mul_cum add N p f ip = Ok r /\ goal r.
  Proof.
    intros Rf Ri HH. pose proof p2' as Pp. pose proof qmax as Hqm. unfold mul_cum. pose proof (mark_down0 ip Ri) as Rd. set (q0 := Z.quot (N - 1) p) in *. clearbody q0.
    apply (loop_inv (fun '(q, pq, f, ip) => 0 <= q /\ pq = p * q /\ p * q < N /\ rep f N (fun m => if q <? m then H' m else H m) /\
             rep ip N (fun m => if p * q <? m then ipf (p + 1) m else ipf p m)) (fun '(q, pq, f, ip) => Z.to_nat q) goal).
    - split; [lia|]. split; [lia|]. split; [lia|]. split; auto. eapply rep_ext; [exact Rf|]. intros m Hm. cbn beta.
      destruct (Z.ltb_spec q0 m); auto. rewrite HH by nia. now rewrite (proj2 (Z.ltb_ge (p * m) N)) by nia.
    - lia.
    - intros (((q, pq), f'), ip') (Hq & -> & Hlt & R1 & R2). destruct (Z.leb_spec 1 q).
      + rewrite (rep_get _ _ _ _ R1) by nia. cbn [bind]. rewrite (rep_get _ _ _ _ R1) by nia. cbn [bind].
        rewrite (rep_set _ _ _ _ _ R1) by nia. cbn [bind]. destruct (mark_down q ip' ltac:(lia) Hlt R2) as (ip2 & E & R3). rewrite E. cbn [bind].
        eexists; split; [reflexivity|]. cbn beta iota. split; [|lia]. split; [lia|]. split; [lia|]. split; [nia|]. split; auto.
        eapply rep_ext; [apply rep_upd; [exact R1|nia]|]. intros m Hm. unfold fupd. cbn beta.
        rewrite (proj2 (Z.ltb_ge q q)) by lia. rewrite (proj2 (Z.ltb_lt q (p * q))) by nia.
        destruct (Z.eqb_spec m q) as [->|Ne].
        * rewrite (proj2 (Z.ltb_lt (q - 1) q)) by nia. rewrite (HH q) by nia. now rewrite (proj2 (Z.ltb_lt (p * q) N)) by lia.
        * destruct (Z.ltb_spec q m); destruct (Z.ltb_spec (q - 1) m); try lia; auto.
      + eexists; split; [reflexivity|]. split; cbn [fst snd]; [|eapply mark_down_end; [| |exact R2]; lia]. eapply rep_ext; [exact R1|]. intros m Hm. cbn beta.
        replace q with 0 by lia. destruct (Z.ltb_spec 0 m); auto. now replace m with 0 by lia.
  Qed.
End Loops.

Section Over.
  Context {T : Type}.
  Variables (N : Z) (step : Z -> list T -> list bool -> res (list T * list bool)) (H : Z -> Z -> T).
  Hypothesis Hstep : forall p f ip, prime p -> p < N -> rep f N (H p) -> rep ip N (ipf p) ->
    exists r, step p f ip = Ok r /\ goal N p (H (p + 1)) r.
  Hypothesis Hskip : forall p m, 2 <= p -> ~ prime p -> 0 <= m < N -> H (p + 1) m = H p m.
  Lemma over_ok f : 2 <= N -> rep f N (H 2) -> exists f', over_primes N step f = Ok f' /\ rep f' N (H N).
  Proof.
    intros HN Rf. unfold over_primes.
    destruct (for_inv (fun p s => rep (fst s) N (H p) /\ rep (snd s) N (ipf p)) 2 N
      (fun p '(f, is_prime) => let* b := vget is_prime p in if b : bool then step p f is_prime else Ok (f, is_prime)) (f, vrep N true)) as ((f', ip') & E & R1 & R2); auto.
    - split; auto. cbn [snd]. eapply rep_ext; [apply rep_vrep; lia|]. intros m Hm. cbn beta. unfold ipf. destruct (Z.eqb_spec m 0); auto. now rewrite rough_2 by lia.
    - intros p (f', ip') Hp [R1 R2]. cbn [fst snd] in *. rewrite (rep_get _ _ _ _ R2) by lia. cbn [bind]. unfold ipf at 1. rewrite (proj2 (Z.eqb_neq p 0)) by lia.
      rewrite rough_self by lia. destruct (primeb p) eqn:Ep.
      + apply primeb_spec in Ep. destruct (Hstep p f' ip' Ep ltac:(lia) R1 R2) as (r & E & G). exists r. split; auto.
      + apply primeb_false in Ep. eexists; split; [reflexivity|]. cbn [fst snd]. split; [eapply rep_ext; [exact R1|]|eapply rep_ext; [exact R2|]]; intros m Hm.
        * symmetry. apply Hskip; auto; lia.
        * unfold ipf. destruct (Z.eqb_spec m 0); auto. symmetry. apply (step_nonprime p m Ep). lia.
    - rewrite E. cbn [bind fst]. exists f'. auto.
  Qed.
End Over.

Section Sums.
  Context {T : Type}.
  Variables (r0 r1 : T) (add mul sub : T -> T -> T) (opp : T -> T).
  Hypothesis RT : ring_theory r0 r1 add mul sub opp (@eq T).
  Add Ring R2 : RT.
  Notation sum := (sum r0 add).
  Notation at_ := (at_ r0).
  Variables (N : Z) (f : Z -> T).
  Definition Dsum (P : Z -> bool) (n : Z) : T := if n =? 0 then f 0 else sum 1 N (fun d => if (n mod d =? 0) && P (n / d) then f d else r0).
  Definition Msum (P : Z -> bool) (n : Z) : T := if n =? 0 then f 0 else sum 1 N (fun m => if (m mod n =? 0) && P (m / n) then f m else r0).
  Definition splits p (P Q R : Z -> bool) := forall k, 1 <= k -> P k = Q k || ((k mod p =? 0) && R (k / p)) /\ ~ (Q k = true /\ k mod p = 0).
  Lemma Dsum_split p P Q R n : 2 <= p -> splits p P Q R -> 1 <= n < N -> Dsum P n = if n mod p =? 0 then add (Dsum Q n) (Dsum R (n / p)) else Dsum Q n.
  Proof.
    intros Hp HS Hn. unfold Dsum. rewrite (proj2 (Z.eqb_neq n 0)) by lia. destruct (Z.eqb_spec (n mod p) 0) as [D|D].
    - pose proof (div_exact_ p n ltac:(lia) D) as En. set (k := n / p) in *. assert (1 <= k) by nia. rewrite (proj2 (Z.eqb_neq k 0)) by lia.
      rewrite <- (sum_add _ _ _ _ _ _ RT). apply sum_ext. intros d Hd. destruct (Z.eqb_spec (n mod d) 0) as [E|E]; cbn [andb].
      + pose proof (div_exact_ d n ltac:(lia) E) as Ed. set (t := n / d) in *. assert (1 <= t) by nia. destruct (HS t H0) as (Et & Nt). rewrite Et.
        assert (X : (k mod d =? 0) && R (k / d) = (t mod p =? 0) && R (t / p)).
        { apply Bool.eq_true_iff_eq. rewrite !Bool.andb_true_iff, !Z.eqb_eq. split; intros (A & B).
          - pose proof (div_exact_ d k ltac:(lia) A) as Ek. set (u := k / d) in *. assert (t = p * u) by nia. split; [apply mod0_mul; [lia|eauto]|]. rewrite H1, div_mul_l by lia. exact B.
          - pose proof (div_exact_ p t ltac:(lia) A) as Ek. set (u := t / p) in *. assert (k = d * u) by nia. split; [apply mod0_mul; [lia|eauto]|]. rewrite H1, div_mul_l by lia. exact B. }
        rewrite X. destruct (Q t) eqn:Eq; cbn [orb]; [|destruct ((t mod p =? 0) && R (t / p)); ring].
        destruct (Z.eqb_spec (t mod p) 0); [exfalso; auto|]. cbn [andb]. ring.
      + destruct (Z.eqb_spec (k mod d) 0) as [E'|E']; cbn [andb]; [|ring]. exfalso. apply E. pose proof (div_exact_ d k ltac:(lia) E') as Ek. apply mod0_mul; [lia|]. exists (p * (k / d)). nia.
    - apply sum_ext. intros d Hd. destruct (Z.eqb_spec (n mod d) 0) as [E|E]; cbn [andb]; auto.
      pose proof (div_exact_ d n ltac:(lia) E) as Ed. set (t := n / d) in *. assert (1 <= t) by nia. destruct (HS t H) as (Et & _). rewrite Et.
      destruct (Z.eqb_spec (t mod p) 0) as [F|F]; [|now rewrite Bool.orb_false_r]. exfalso. apply D. pose proof (div_exact_ p t ltac:(lia) F). apply mod0_mul; [lia|]. exists (d * (t / p)). nia.
  Qed.
  Lemma Msum_split p P Q R n : 2 <= p -> splits p P Q R -> 1 <= n < N -> Msum P n = if p * n <? N then add (Msum Q n) (Msum R (p * n)) else Msum Q n.
  Proof.
    intros Hp HS Hn. unfold Msum. rewrite (proj2 (Z.eqb_neq n 0)) by lia. rewrite (proj2 (Z.eqb_neq (p * n) 0)) by nia.
    assert (X : forall m, 1 <= m < N -> m mod n = 0 -> (m mod (p * n) =? 0) && R (m / (p * n)) = (m / n mod p =? 0) && R (m / n / p)).
    { intros m Hm E. pose proof (div_exact_ n m ltac:(lia) E) as Em. set (t := m / n) in *. assert (1 <= t) by nia.
      apply Bool.eq_true_iff_eq. rewrite !Bool.andb_true_iff, !Z.eqb_eq. split; intros (A & B).
      - pose proof (div_exact_ (p * n) m ltac:(nia) A) as Ek. set (u := m / (p * n)) in *. assert (t = p * u) by nia. split; [apply mod0_mul; [lia|eauto]|]. rewrite H0, div_mul_l by lia. exact B.
      - pose proof (div_exact_ p t ltac:(lia) A) as Ek. set (u := t / p) in *. assert (m = (p * n) * u) by nia. split; [apply mod0_mul; [nia|eauto]|]. rewrite H0, div_mul_l by nia. exact B. }
    assert (Y : forall m, 1 <= m < N -> m mod n <> 0 -> m mod (p * n) <> 0).
    { intros m Hm E F. apply E. pose proof (div_exact_ (p * n) m ltac:(nia) F). apply mod0_mul; [lia|]. exists (p * (m / (p * n))). nia. }
    destruct (Z.ltb_spec (p * n) N) as [L|L].
    - rewrite <- (sum_add _ _ _ _ _ _ RT). apply sum_ext. intros m Hm. destruct (Z.eqb_spec (m mod n) 0) as [E|E]; cbn [andb].
      + pose proof (div_exact_ n m ltac:(lia) E) as Em. destruct (HS (m / n) ltac:(nia)) as (Et & Nt). rewrite Et, X by auto. set (t := m / n) in *.
        destruct (Q t) eqn:Eq; cbn [orb]; [|destruct ((t mod p =? 0) && R (t / p)); ring]. destruct (Z.eqb_spec (t mod p) 0); [exfalso; auto|]. cbn [andb]. ring.
      + rewrite (proj2 (Z.eqb_neq _ _) (Y m Hm E)). cbn [andb]. ring.
    - apply sum_ext. intros m Hm. destruct (Z.eqb_spec (m mod n) 0) as [E|E]; cbn [andb]; auto.
      pose proof (div_exact_ n m ltac:(lia) E) as Em. destruct (HS (m / n) ltac:(nia)) as (Et & Nt). rewrite Et, <- X by auto.
      destruct (Z.eqb_spec (m mod (p * n)) 0) as [F|F]; [|now rewrite Bool.orb_false_r]. exfalso. clear Em Et Nt. rewrite Z.mod_small in F by lia. lia.
  Qed.
  Lemma Dsum_ext P Q n : (forall k, 1 <= k < N -> P k = Q k) -> 0 <= n < N -> Dsum P n = Dsum Q n.
  Proof.
    intros HS Hn. unfold Dsum. destruct (Z.eqb_spec n 0); auto. apply sum_ext. intros d Hd. destruct (Z.eqb_spec (n mod d) 0) as [E|E]; cbn [andb]; auto.
    pose proof (div_exact_ d n ltac:(lia) E). rewrite HS by nia. reflexivity.
  Qed.
  Lemma Msum_ext P Q n : (forall k, 1 <= k < N -> P k = Q k) -> 0 <= n < N -> Msum P n = Msum Q n.
  Proof.
    intros HS Hn. unfold Msum. destruct (Z.eqb_spec n 0); auto. apply sum_ext. intros d Hd. destruct (Z.eqb_spec (d mod n) 0) as [E|E]; cbn [andb]; auto.
    pose proof (div_exact_ n d ltac:(lia) E). rewrite HS by nia. reflexivity.
  Qed.
  Lemma Dsum_one n : 0 <= n < N -> Dsum (fun k => k =? 1) n = f n.
  Proof.
    intros Hn. unfold Dsum. destruct (Z.eqb_spec n 0) as [->|]; auto. rewrite <- (sum_one _ _ _ _ _ _ RT 1 N n f) by lia. apply sum_ext. intros d Hd.
    destruct (Z.eqb_spec d n) as [->|Ne].
    - rewrite Z.mod_same, Z.div_same by lia. reflexivity.
    - destruct (Z.eqb_spec (n mod d) 0) as [E|E]; cbn [andb]; auto. pose proof (div_exact_ d n ltac:(lia) E). destruct (Z.eqb_spec (n / d) 1); auto. exfalso. nia.
  Qed.
  Lemma Msum_one n : 0 <= n < N -> Msum (fun k => k =? 1) n = f n.
  Proof.
    intros Hn. unfold Msum. destruct (Z.eqb_spec n 0) as [->|]; auto. rewrite <- (sum_one _ _ _ _ _ _ RT 1 N n f) by lia. apply sum_ext. intros d Hd.
    destruct (Z.eqb_spec d n) as [->|Ne].
    - rewrite Z.mod_same, Z.div_same by lia. reflexivity.
    - destruct (Z.eqb_spec (d mod n) 0) as [E|E]; cbn [andb]; auto. pose proof (div_exact_ n d ltac:(lia) E). destruct (Z.eqb_spec (d / n) 1); auto. exfalso. nia.
  Qed.
  Definition all (k : Z) := true.
  Lemma add_eq_sub a b c : a = add b c -> b = sub a c. Proof. intros ->. ring. Qed.
  Lemma smooth_splits p : prime p -> splits p (smooth (p + 1)) (smooth p) (smooth (p + 1)). Proof. intros P k Hk. now apply smooth_step. Qed.
  Lemma rough_splits p : prime p -> splits p (rough p) (rough (p + 1)) (rough p). Proof. intros P k Hk. now apply rough_step. Qed.
  Ltac pp := match goal with P : prime ?p |- _ => pose proof (prime_ge_2 p P) end.
  Lemma dz_ok (a : list T) : rep a N f -> 2 <= N -> exists b, divisor_zeta add a = Ok b /\ rep b N (Dsum all).
  Proof.
    intros Ra HN. unfold divisor_zeta. rewrite (proj1 Ra).
    destruct (over_ok N (div_cum add N) (fun p => Dsum (smooth p))) with (f := a) as (b & E & Rb); auto.
    - intros p g ip P Hp R1 R2. pp. apply (div_cum_ok r0 add sub N p P Hp (Dsum (smooth p))); auto. intros m Hm. now apply (Dsum_split p _ _ _ m ltac:(lia) (smooth_splits p P)).
    - intros p m Hp NP Hm. apply Dsum_ext; auto. intros k Hk. apply step_nonprime; auto; lia.
    - eapply rep_ext; [exact Ra|]. intros m Hm. cbn beta. rewrite (Dsum_ext (smooth 2) (fun k => k =? 1)) by (auto; intros; apply smooth_2; lia). now rewrite Dsum_one.
    - exists b. split; auto. eapply rep_ext; [exact Rb|]. intros m Hm. apply Dsum_ext; auto. intros k Hk. now apply smooth_big.
  Qed.
  Lemma mz_ok (a : list T) : rep a N f -> 2 <= N -> exists b, multiple_zeta add a = Ok b /\ rep b N (Msum all).
  Proof.
    intros Ra HN. unfold multiple_zeta. rewrite (proj1 Ra).
    destruct (over_ok N (mul_cum add N) (fun p => Msum (smooth p))) with (f := a) as (b & E & Rb); auto.
    - intros p g ip P Hp R1 R2. pp. apply (mul_cum_ok r0 add sub N p P Hp (Msum (smooth p))); auto. intros m Hm. now apply (Msum_split p _ _ _ m ltac:(lia) (smooth_splits p P)).
    - intros p m Hp NP Hm. apply Msum_ext; auto. intros k Hk. apply step_nonprime; auto; lia.
    - eapply rep_ext; [exact Ra|]. intros m Hm. cbn beta. rewrite (Msum_ext (smooth 2) (fun k => k =? 1)) by (auto; intros; apply smooth_2; lia). now rewrite Msum_one.
    - exists b. split; auto. eapply rep_ext; [exact Rb|]. intros m Hm. apply Msum_ext; auto. intros k Hk. now apply smooth_big.
  Qed.
  Lemma dm_ok (a : list T) : rep a N (Dsum all) -> 2 <= N -> exists b, divisor_mobius sub a = Ok b /\ rep b N f.
  Proof.
    intros Ra HN. unfold divisor_mobius. rewrite (proj1 Ra).
    destruct (over_ok N (div_diff sub N) (fun p => Dsum (rough p))) with (f := a) as (b & E & Rb); auto.
    - intros p g ip P Hp R1 R2. pp. apply (div_diff_ok r0 add sub N p P Hp (Dsum (rough p))); auto. intros m Hm.
      pose proof (Dsum_split p _ _ _ m ltac:(lia) (rough_splits p P) Hm) as S. destruct (m mod p =? 0); auto. now apply add_eq_sub.
    - intros p m Hp NP Hm. apply Dsum_ext; auto. intros k Hk. apply step_nonprime; auto; lia.
    - eapply rep_ext; [exact Ra|]. intros m Hm. cbn beta. apply Dsum_ext; auto. intros. symmetry. apply rough_2; lia.
    - exists b. split; auto. eapply rep_ext; [exact Rb|]. intros m Hm. rewrite (Dsum_ext _ (fun k => k =? 1)) by (auto; intros; now apply rough_big). now apply Dsum_one.
  Qed.
  Lemma mm_ok (a : list T) : rep a N (Msum all) -> 2 <= N -> exists b, multiple_mobius sub a = Ok b /\ rep b N f.
  Proof.
    intros Ra HN. unfold multiple_mobius. rewrite (proj1 Ra).
    destruct (over_ok N (mul_diff sub N) (fun p => Msum (rough p))) with (f := a) as (b & E & Rb); auto.
    - intros p g ip P Hp R1 R2. pp. apply (mul_diff_ok r0 add sub N p P Hp (Msum (rough p))); auto. intros m Hm.
      pose proof (Msum_split p _ _ _ m ltac:(lia) (rough_splits p P) Hm) as S. destruct (p * m <? N); auto. now apply add_eq_sub.
    - intros p m Hp NP Hm. apply Msum_ext; auto. intros k Hk. apply step_nonprime; auto; lia.
    - eapply rep_ext; [exact Ra|]. intros m Hm. cbn beta. apply Msum_ext; auto. intros. symmetry. apply rough_2; lia.
    - exists b. split; auto. eapply rep_ext; [exact Rb|]. intros m Hm. rewrite (Msum_ext _ (fun k => k =? 1)) by (auto; intros; now apply rough_big). now apply Msum_one.
  Qed.
End Sums.
