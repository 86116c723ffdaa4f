(* Numbers all of whose prime factors are below / not below a bound. *)
From Verif Require Import Base BaseLemmas ZMod NumTheory Lucas RingSum.
From Coq Require Import Znumtheory.

Definition primeb (q : Z) : bool := if prime_dec q then true else false.
Lemma primeb_spec q : primeb q = true <-> prime q.
Proof. unfold primeb. destruct (prime_dec q); split; auto; discriminate. Qed.
Lemma primeb_false q : primeb q = false <-> ~ prime q.
Proof. unfold primeb. destruct (prime_dec q); split; auto; try discriminate. intro; contradiction. Qed.

Definition smooth (p m : Z) : bool := forallb (fun q => negb (primeb q && (m mod q =? 0)) || (q <? p)) (span 2 (m + 1)).
Definition rough (p m : Z) : bool := forallb (fun q => negb (primeb q && (m mod q =? 0)) || (p <=? q)) (span 2 (m + 1)).
Lemma allb_spec (c : Z -> bool) m : 1 <= m ->
  forallb (fun q => negb (primeb q && (m mod q =? 0)) || c q) (span 2 (m + 1)) = true <-> (forall q, prime q -> (q | m) -> c q = true).
Proof.
  intro Hm. rewrite forallb_forall. split.
  - intros H q Pq Dq. pose proof (prime_ge_2 q Pq). assert (In q (span 2 (m + 1))).
    { apply span_in. pose proof (Z.divide_pos_le q m ltac:(lia) Dq). lia. }
    specialize (H q H1). rewrite (proj2 (primeb_spec q) Pq) in H. rewrite (proj2 (Z.eqb_eq (m mod q) 0)) in H by (apply Z.mod_divide; [lia|auto]).
    exact H.
  - intros H q Hq. apply span_in in Hq. destruct (primeb q) eqn:E; cbn [andb negb orb]; auto.
    apply primeb_spec in E. destruct (Z.eqb_spec (m mod q) 0) as [F|F]; cbn [negb orb]; auto. apply H; auto. apply Z.mod_divide; auto; lia.
Qed.
Lemma smooth_spec p m : 1 <= m -> smooth p m = true <-> (forall q, prime q -> (q | m) -> q < p).
Proof. intro Hm. unfold smooth. rewrite (allb_spec (fun q => q <? p)) by auto. split; intros H q P D; specialize (H q P D); rewrite ?Z.ltb_lt in *; auto. Qed.
Lemma rough_spec p m : 1 <= m -> rough p m = true <-> (forall q, prime q -> (q | m) -> p <= q).
Proof. intro Hm. unfold rough. rewrite (allb_spec (fun q => p <=? q)) by auto. split; intros H q P D; specialize (H q P D); rewrite ?Z.leb_le in *; auto. Qed.

Lemma prime_factor m : 1 < m -> exists q, prime q /\ (q | m). Proof. apply prime_divisor. Qed.
Lemma smooth_2 m : 1 <= m -> smooth 2 m = (m =? 1).
Proof.
  intro Hm. apply Bool.eq_true_iff_eq. rewrite smooth_spec, Z.eqb_eq by auto. split.
  - intro H. destruct (Z.eq_dec m 1); auto. destruct (prime_factor m ltac:(lia)) as (q & P & D). specialize (H q P D). pose proof (prime_ge_2 q P). lia.
  - intros -> q P D. pose proof (prime_ge_2 q P). apply Z.divide_pos_le in D; lia.
Qed.
Lemma rough_2 m : 1 <= m -> rough 2 m = true.
Proof. intro Hm. apply rough_spec; auto. intros q P _. now apply prime_ge_2. Qed.
Lemma smooth_big p m : 1 <= m < p -> smooth p m = true.
Proof. intro Hm. apply smooth_spec; [lia|]. intros q P D. apply Z.divide_pos_le in D; lia. Qed.
Lemma rough_big p m : 1 <= m < p -> rough p m = (m =? 1).
Proof.
  intro Hm. apply Bool.eq_true_iff_eq. rewrite rough_spec, Z.eqb_eq by lia. split.
  - intro H. destruct (Z.eq_dec m 1); auto. destruct (prime_factor m ltac:(lia)) as (q & P & D). specialize (H q P D). apply Z.divide_pos_le in D; lia.
  - intros -> q P D. pose proof (prime_ge_2 q P). apply Z.divide_pos_le in D; lia.
Qed.
Lemma rough_self p : 2 <= p -> rough p p = primeb p.
Proof.
  intro Hp. apply Bool.eq_true_iff_eq. rewrite rough_spec, primeb_spec by lia. split.
  - intro H. destruct (prime_factor p ltac:(lia)) as (q & P & D). specialize (H q P D). pose proof (Z.divide_pos_le q p ltac:(lia) D).
    now replace p with q by lia.
  - intros P q Q D. destruct (prime_divisors p P q D) as [E|[E|[E|E]]]; pose proof (prime_ge_2 q Q); lia.
Qed.
Lemma step_nonprime p m : ~ prime p -> 1 <= m -> smooth (p + 1) m = smooth p m /\ rough (p + 1) m = rough p m.
Proof.
  intros NP Hm. split; apply Bool.eq_true_iff_eq; rewrite ?smooth_spec, ?rough_spec by lia; split; intros H q P D; specialize (H q P D); try lia;
    (destruct (Z.eq_dec q p); [subst; contradiction|lia]).
Qed.
Lemma div_exact_ p m : 1 <= p -> m mod p = 0 -> m = p * (m / p).
Proof. intros. apply Z.div_exact; lia. Qed.
Lemma smooth_step p k : prime p -> 1 <= k ->
  smooth (p + 1) k = smooth p k || ((k mod p =? 0) && smooth (p + 1) (k / p)) /\ ~ (smooth p k = true /\ k mod p = 0).
Proof.
  intros P Hk. pose proof (prime_ge_2 p P). split.
  - apply Bool.eq_true_iff_eq. rewrite Bool.orb_true_iff, Bool.andb_true_iff, Z.eqb_eq. destruct (Z.eq_dec (k mod p) 0) as [D|D].
    + pose proof (div_exact_ p k ltac:(lia) D) as E. assert (1 <= k / p) by nia. rewrite !smooth_spec by lia. split.
      * intro S. right. split; auto. intros q Q Dq. apply S; auto. rewrite E. now apply Z.divide_mul_r.
      * intros [S|[_ S]] q Q Dq; [specialize (S q Q Dq); lia|]. rewrite E in Dq. apply prime_mult in Dq; auto. destruct Dq as [Dq|Dq]; [apply Z.divide_pos_le in Dq; lia|now apply S].
    + rewrite !smooth_spec by lia. split.
      * intro S. left. intros q Q Dq. specialize (S q Q Dq). destruct (Z.eq_dec q p); [|lia]. subst q. exfalso. apply D. apply Z.mod_divide; auto; lia.
      * intros [S|[D' _]]; [|contradiction]. intros q Q Dq. specialize (S q Q Dq). lia.
  - intros [S D]. rewrite smooth_spec in S by lia. specialize (S p P ltac:(apply Z.mod_divide; auto; lia)). lia.
Qed.
Lemma rough_step p k : prime p -> 1 <= k ->
  rough p k = rough (p + 1) k || ((k mod p =? 0) && rough p (k / p)) /\ ~ (rough (p + 1) k = true /\ k mod p = 0).
Proof.
  intros P Hk. pose proof (prime_ge_2 p P). split.
  - apply Bool.eq_true_iff_eq. rewrite Bool.orb_true_iff, Bool.andb_true_iff, Z.eqb_eq. destruct (Z.eq_dec (k mod p) 0) as [D|D].
    + pose proof (div_exact_ p k ltac:(lia) D) as E. assert (1 <= k / p) by nia. rewrite !rough_spec by lia. split.
      * intro S. right. split; auto. intros q Q Dq. apply S; auto. rewrite E. now apply Z.divide_mul_r.
      * intros [S|[_ S]] q Q Dq; [specialize (S q Q Dq); lia|]. rewrite E in Dq. apply prime_mult in Dq; auto. destruct Dq as [Dq|Dq]; [|now apply S].
        destruct (prime_divisors p P q Dq) as [F|[F|[F|F]]]; pose proof (prime_ge_2 q Q); lia.
    + rewrite !rough_spec by lia. split.
      * intro S. left. intros q Q Dq. specialize (S q Q Dq). destruct (Z.eq_dec q p); [|lia]. subst q. exfalso. apply D. apply Z.mod_divide; auto; lia.
      * intros [S|[D' _]]; [|contradiction]. intros q Q Dq. specialize (S q Q Dq). lia.
  - intros [S D]. rewrite rough_spec in S by lia. specialize (S p P ltac:(apply Z.mod_divide; auto; lia)). lia.
Qed.
Lemma rough_succ p m : prime p -> 1 <= m -> rough (p + 1) m = rough p m && negb (m mod p =? 0).
Proof.
  intros P Hm. destruct (rough_step p m P Hm) as (E & N). rewrite E. destruct (Z.eqb_spec (m mod p) 0) as [D|D]; cbn [andb negb].
  - rewrite Bool.andb_false_r. destruct (rough (p + 1) m); auto. exfalso. auto.
  - rewrite Bool.andb_true_r, Bool.orb_false_r. reflexivity.
Qed.
